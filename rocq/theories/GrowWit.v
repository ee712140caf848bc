(** Examples for C67. *)
From Coq Require Import Reals Lra List Bool Arith ZArith Lia.
From Verif Require Import Py KexModel KexSpec KexProofs KexSimp KexMore KexCheck OpsModel KernModel KernSpec SemModel SemSpec SemKernel PredSpec UnitSpec UnitProofs UnitWit GrowSpec.
Import ListNotations.

Definition ex_grow : kex := Comm KSum [(bC, 1%Z)] [Comm KProd [(bPER, 1%Z); (bLIN, 2%Z)] []; Change CW (inl bWN) (inr (Comm KSum [(bPER, 1%Z); (bLIN, 1%Z)] []))].
Definition ex_grow2 : kex := Comm KProd [(bPER, 1%Z)] [Comm KSum [(bLIN, 1%Z); (bWN, 1%Z)] []].
Definition ex_noise : kex := Comm KProd [(bWN, 1%Z)] [Change CP (inl bLIN) (inl bPER)].
Lemma standard_check e : normalb true e = true -> okb e = true -> standard true (inr e).
Proof. intros H K. destruct (okb_sound e K) as (_ & N & S). exact (conj (normalb_built _ _ H) (conj (normalb_sound _ _ H) (conj N S))). Qed.
Lemma ex_standard : standard true (inr ex_grow) /\ standard true (inr ex_grow2) /\ standard true (inr ex_noise).
Proof. exact (conj (standard_check ex_grow eq_refl eq_refl) (conj (standard_check ex_grow2 eq_refl eq_refl) (standard_check ex_noise eq_refl eq_refl))). Qed.
Lemma ex_kernels : exists g1 g2 g3 g4, kernel_of (inr ex_grow) = Ok g1 /\ to_kernel (add true (inr ex_grow) (inr ex_grow2)) = Ok g2
  /\ to_kernel (multiply true (inr ex_grow) (inr ex_grow2)) = Ok g3 /\ to_kernel (mk_change true CP (inr ex_grow) (inr ex_grow2)) = Ok g4.
Proof. do 4 eexists. repeat split; vm_compute; reflexivity. Qed.
Definition ex_raw : kex := mkl true KSum [bC] [mkl true KProd [] [mkl true KSum [bLIN; bPER] []]].
Lemma ex_raw_fine : built true ex_raw /\ non_empty ex_raw /\ sigmoid_free ex_raw.
Proof.
  split; [|apply okb_sound; reflexivity]. apply built_list; intros c [<-|[]]; apply built_list; intros c [<-|[]]; apply built_list; intros c [].
Qed.
Lemma ex_raw_shape : ex_raw = Comm KSum [(bC, 1%Z)] [Comm KSum [(bLIN, 1%Z); (bPER, 1%Z)] []] /\ initialise true ex_raw = Comm KSum [(bLIN, 1%Z); (bPER, 1%Z)] []
  /\ exists g g', to_kernel ex_raw = Ok g /\ to_kernel (initialise true ex_raw) = Ok g'.
Proof. split; [vm_compute; reflexivity|]. split; [vm_compute; reflexivity|]. do 2 eexists. split; vm_compute; reflexivity. Qed.

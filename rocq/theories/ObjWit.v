(** Witnesses for C54. *)
From Coq Require Import Reals Lra List Bool Arith ZArith.
From Verif Require Import Py KexModel KernModel KernSpec KernSig SemModel ObjModel ObjSpec ObjProofs.
Import ListNotations.
Local Open Scope R_scope.

(** CP(LIN, C): set the variance of C to 5. *)
Definition frozen_kex : kex := Change CP (inl bLIN) (inl bC).
Lemma frozen_witness : exists e k o vs o' K X,
  to_kernel e = Ok k /\ new_object k = Ok o /\ assign true true o vs = Ok o' /\ map pv (listed true true o') = vs
  /\ at_values true true k vs K /\ kK (kernel_of true o') X None <> kK K X None.
Proof.
  exists frozen_kex, (GChange CP (GBase bLIN true) (GBase bC true)).
  eexists. exists [1; 0; 5; 0]. eexists. exists (change_kernel (ChangePoint 0 (1 / 2)) (lin_kernel 1 0) (bias_kernel 5)), (column 1 (fun _ => 0)).
  split; [reflexivity|]. split; [reflexivity|]. split; [reflexivity|]. split; [reflexivity|]. split.
  - apply (av_CP true true _ _ [1; 0] [5] _ _ (1 / 2) [] 0); [apply (av_LIN _ _ true 1 0 [1]); reflexivity|apply av_C; reflexivity|split; reflexivity].
  - cbn. unfold change_K, sig_K. cbn. intros E. injection E as E. apply (f_equal (fun f => f 0%nat 0%nat)) in E. cbn in E.
    unfold phi_S, sigmoid_function in E. replace ((0 - 0) / (1 / 2)) with 0 in E by field. cbn in E. rewrite Rabs_R0 in E. lra.
Qed.

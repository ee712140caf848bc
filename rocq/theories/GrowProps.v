(** C67: growing an expression loses nothing that it could express. *)
From Coq Require Import Reals Lra List Bool Arith ZArith.
From Verif Require Import Py KexModel KexSpec KexCheck OpsModel KernModel KernSpec SemModel SemSpec SemLimSpec PredSpec UnitSpec UnitWit GrowSpec GrowProofs GrowLike GrowWit.
Import ListNotations.
Local Open Scope R_scope.

(** A sum expresses, up to limits on every finite data set, what each of its operands does: also when a C is absorbed by LIN. *)
Theorem C67_add : forall offset a b, standard offset a -> standard offset b ->
  forall K, branch_covariances offset a K \/ branch_covariances offset b K -> approximated (covariances offset (add offset a b)) K.
Proof. exact add_expresses. Qed.
Print Assumptions C67_add.
Example C67_add_example : standard true (inr ex_grow) /\ standard true (inr ex_grow2)
  /\ add true (inr ex_grow) (inl bLIN) = Comm KSum [(bLIN, 1%Z)] [Comm KProd [(bPER, 1%Z); (bLIN, 2%Z)] []; Change CW (inl bWN) (inr (Comm KSum [(bPER, 1%Z); (bLIN, 1%Z)] []))].
Proof. exact (conj (proj1 ex_standard) (conj (proj1 (proj2 ex_standard)) eq_refl)). Qed.

(** A change point or window expresses what each of its sides does. *)
Theorem C67_change : forall offset c a b, standard offset a -> standard offset b ->
  forall K, branch_covariances offset a K \/ branch_covariances offset b K -> approximated (covariances offset (mk_change offset c a b)) K.
Proof. exact change_expresses. Qed.
Print Assumptions C67_change.
Example C67_change_example : standard true (inr ex_grow) /\ standard true (inr ex_grow2).
Proof. exact (conj (proj1 ex_standard) (proj1 (proj2 ex_standard))). Qed.

(** A product expresses what its first operand does exactly when its second is not only noise, LIN having its offset (the default). *)
Theorem C67_multiply : forall a b, standard true a -> standard true b -> noise_branch a = false ->
  ((forall K, branch_covariances true a K -> approximated (covariances true (multiply true a b)) K) <-> noise_branch b = false).
Proof. exact multiply_iff. Qed.
Print Assumptions C67_multiply.
Example C67_multiply_example : standard true (inr ex_grow) /\ standard true (inr ex_grow2) /\ standard true (inr ex_noise)
  /\ noise_branch (inr ex_grow) = false /\ noise_branch (inr ex_grow2) = false /\ noise_branch (inr ex_noise) = true.
Proof. exact (conj (proj1 ex_standard) (conj (proj1 (proj2 ex_standard)) (conj (proj2 (proj2 ex_standard)) (conj eq_refl (conj eq_refl eq_refl))))). Qed.
(** Multiplied by noise, everything becomes noise. *)
Theorem C67_noise : forall offset a b, standard offset a -> standard offset b -> noise_branch b = true ->
  forall K, covariances offset (multiply offset a b) K -> uncorrelated K.
Proof. exact multiply_noise. Qed.
Print Assumptions C67_noise.
Example C67_noise_example : standard true (inr ex_grow) /\ standard true (inr ex_noise) /\ noise_branch (inr ex_noise) = true.
Proof. exact (conj (proj1 ex_standard) (conj (proj2 (proj2 ex_standard)) eq_refl)). Qed.

(** So the best log-likelihood on any data set does not decrease. *)
Theorem C67_add_likelihood : forall offset a b g g' n x y, standard offset a -> standard offset b ->
  kernel_of a = Ok g \/ kernel_of b = Ok g -> to_kernel (add offset a b) = Ok g' -> as_likely offset g g' n x y.
Proof. exact add_likelihood. Qed.
Print Assumptions C67_add_likelihood.
Theorem C67_multiply_likelihood : forall a b g g' n x y, standard true a -> standard true b -> noise_branch b = false ->
  kernel_of a = Ok g -> to_kernel (multiply true a b) = Ok g' -> as_likely true g g' n x y.
Proof. exact multiply_likelihood. Qed.
Print Assumptions C67_multiply_likelihood.
Theorem C67_change_likelihood : forall offset c a b g g' n x y, standard offset a -> standard offset b ->
  kernel_of a = Ok g \/ kernel_of b = Ok g -> to_kernel (mk_change offset c a b) = Ok g' -> as_likely offset g g' n x y.
Proof. exact change_likelihood. Qed.
Print Assumptions C67_change_likelihood.
Example C67_likelihood_example : (standard true (inr ex_grow) /\ standard true (inr ex_grow2)) /\
  (exists g1 g2 g3 g4, kernel_of (inr ex_grow) = Ok g1 /\ to_kernel (add true (inr ex_grow) (inr ex_grow2)) = Ok g2
    /\ to_kernel (multiply true (inr ex_grow) (inr ex_grow2)) = Ok g3 /\ to_kernel (mk_change true CP (inr ex_grow) (inr ex_grow2)) = Ok g4) /\
  attainable true (GBase bC true) 2 (fun i => INR i) (fun i => INR i) (- / 2 * (2 / 3) - / 2 * ln 3 - 1 * ln (2 * PI)).
Proof. exact (conj (conj (proj1 ex_standard) (proj1 (proj2 ex_standard))) (conj ex_kernels two_points)). Qed.

(** And simplifying does not increase it. *)
Theorem C67_simplify_likelihood : forall offset e g g' n x y, built offset e -> non_empty e -> sigmoid_free e ->
  to_kernel e = Ok g -> to_kernel (initialise offset e) = Ok g' -> as_likely offset g' g n x y.
Proof. exact simplify_likelihood. Qed.
Print Assumptions C67_simplify_likelihood.
Example C67_simplify_example : (built true ex_raw /\ non_empty ex_raw /\ sigmoid_free ex_raw)
  /\ ex_raw = Comm KSum [(bC, 1%Z)] [Comm KSum [(bLIN, 1%Z); (bPER, 1%Z)] []] /\ initialise true ex_raw = Comm KSum [(bLIN, 1%Z); (bPER, 1%Z)] []
  /\ exists g g', to_kernel ex_raw = Ok g /\ to_kernel (initialise true ex_raw) = Ok g'.
Proof. exact (conj ex_raw_fine ex_raw_shape). Qed.

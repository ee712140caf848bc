(** Properties of the periodic kernel. *)
From Coq Require Import Reals List Bool Arith Lra.
From Coquelicot Require Import Coquelicot.
From Verif Require Import Py KernModel KernSpec KernPer.
Local Open Scope R_scope.

(** C41: the covariance matrices of the periodic kernel are not all positive semidefinite: not for lengthscale 1/2. *)
Theorem C41_refuted : exists v p l, 0 < v /\ 0 < p /\ 0 < l /\ forall i1, ~ proper (per_kernel bessel0 i1 v p l).
Proof. exact per_not_proper. Qed.
Print Assumptions C41_refuted.
(** Where the code uses a polynomial for exp(-z) I0(z), they are exactly if the polynomial is not above it. *)
Theorem C41_periodic_exact : forall v p l i1, 0 < v -> p <> 0 -> 0 < l -> 3.75 <= 1 / l ^ 2 ->
  (proper (per_kernel bessel0 i1 v p l) <-> embi0 (1 / l ^ 2) <= exp (- (1 / l ^ 2)) * bessel0 (1 / l ^ 2)).
Proof. exact per_proper_iff. Qed.
Print Assumptions C41_periodic_exact.

(** C64: the periodic kernel has no constant part: its mean over n equidistant points of a period tends to 0.  Proved when the code uses the
    Bessel function, or the cosine. *)
Theorem C64_partial : forall v p l x y, p <> 0 -> 0 < l -> 1 / l ^ 2 < 3.75 \/ 10000 < l ->
  exists K, (forall n, period_row v p l x y n (K n)) /\ is_lim_seq (fun n => sum_to n (K n 0%nat) / INR n) 0.
Proof. exact per_row_zero. Qed.
Print Assumptions C64_partial.
(** What the mean is when it uses the polynomial. *)
Theorem C64_polynomial : forall v p l x y, p <> 0 -> 0 < l -> 3.75 <= 1 / l ^ 2 ->
  exists K, (forall n, period_row v p l x y n (K n)) /\ is_lim_seq (fun n => sum_to n (K n 0%nat) / INR n) (v * ((exp (- (1 / l ^ 2)) * bessel0 (1 / l ^ 2) - embi0 (1 / l ^ 2)) / (1 - embi0 (1 / l ^ 2)))).
Proof. exact per_row_poly. Qed.
Print Assumptions C64_polynomial.
Theorem C64_refuted : exists v p l x y, 0 < v /\ 0 < p /\ 0 < l
  /\ exists K m, (forall n, period_row v p l x y n (K n)) /\ is_lim_seq (fun n => sum_to n (K n 0%nat) / INR n) (Finite m) /\ m < 0.
Proof. exact per_row_not_zero. Qed.
Print Assumptions C64_refuted.
Example C64_example : 1 / 1 ^ 2 < 3.75 /\ 3.75 <= 1 / (/ 2) ^ 2 /\ (exists K, period_row 1 1 1 0 0 3 K /\ K 0%nat 0%nat = 1).
Proof.
  split; [lra|]. split; [lra|]. eexists. split; [exact (KernGrad3.per_entries bessel0 1 1 1 1 (fun _ => 0) (Some (3%nat, fun j => 0 + 1 * (INR j / INR 3))))|].
  cbv beta. replace (0 - (0 + 1 * (INR 0 / INR 3))) with 0 by (simpl; field). apply KernProper.per_at_0. lra.
Qed.

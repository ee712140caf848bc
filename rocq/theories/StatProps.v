(** C83: is_stationary is exact. *)
From Coq Require Import Reals List Bool ZArith.
From Verif Require Import Py KexModel KexSpec SemModel SemSpec StatProofs KexCheck.
Import ListNotations.
Local Open Scope Z_scope.

(** C83: for expressions of actual base kernels, is_stationary says exactly whether all the covariance functions are invariant under shifts
    of the inputs: an expression with a LIN or a change anywhere always has one that is not. *)
Theorem C83_exactly : forall offset e, wf e -> non_empty e -> sigmoid_free e ->
  (is_stationary e = true <-> forall K, covariances offset e K -> translation_invariant K).
Proof. exact stationary_exactly. Qed.
Print Assumptions C83_exactly.
(** WN * (C + CW(PER, SE)) is not stationary, for the window inside it. *)
Definition ex_windowed : kex := Comm KProd [(bWN, 1)] [Comm KSum [(bC, 1)] [Change CW (inl bPER) (inl bSE)]].
Example C83_exactly_example : (wf ex_windowed /\ non_empty ex_windowed /\ sigmoid_free ex_windowed) /\ is_stationary ex_windowed = false.
Proof. split; [apply okb_sound; reflexivity|reflexivity]. Qed.

(** Property theorem: which fitted slopes are not in the description (C69). *)
From Coq Require Import String Reals List.
From Verif Require Import Py KexModel KernModel SemModel IvModel IvWit TextSpec TextWit TextSlopeSpec TextSlope.
Import ListNotations.
Local Open Scope R_scope.

(** C69: the fitted slopes of intervals with two ends are never in the description: whatever they are, it is the same (together with
    C69_partial: exactly those of intervals with one end are). *)
Theorem C69_two_ends : forall offset fmt d d' l l', same_but_sigmoids d d' ->
  sigmoids_to_intervals false d = Ok (Some l) -> sigmoids_to_intervals false d' = Ok (Some l') -> Forall2 same_two_ends l l' ->
  base_factors_interpretation false offset fmt d = base_factors_interpretation false offset fmt d'.
Proof. exact two_ends_untold. Qed.
Print Assumptions C69_two_ends.
Example C69_two_ends_example : same_but_sigmoids (sloped 1) (sloped 7)
  /\ sigmoids_to_intervals false (sloped 1) = Ok (Some [VIv (Iv (Some 2) (Some (2 + 1)) (Some 1) (Some 1))])
  /\ sigmoids_to_intervals false (sloped 7) = Ok (Some [VIv (Iv (Some 2) (Some (2 + 1)) (Some 7) (Some 7))]).
Proof.
  split.
  - repeat constructor; cbn [fst snd]; intros H; specialize (H _ eq_refl); discriminate.
  - split; unfold sigmoids_to_intervals, sloped; cbn; rl; reflexivity.
Qed.

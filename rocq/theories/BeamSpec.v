(** Specifications about wider beams (C72). *)
From Coq Require Import List Bool ZArith.
From Verif Require Import Py KexModel OpsModel SearchModel SearchSpec RunSpec.
Local Open Scope Z_scope.

(** Two runs gave equal expressions equal scores. *)
Definition agreeing_scores {D D' Sc : Type} (sle : Sc -> Sc -> bool) (utility : gp D -> res Sc) (st : results D) (utility' : gp D' -> res Sc) (st' : results D') : Prop :=
  forall e s e' s', judged utility st e s -> judged utility' st' e' s' -> keq e e' = true -> sle s s' = true /\ sle s' s = true.
(** The best model of the second run is at least as good as that of the first. *)
Definition no_worse {D D' Sc : Type} (sle : Sc -> Sc -> bool) (utility : gp D -> res Sc) (st : results D) (utility' : gp D' -> res Sc) (st' : results D') : Prop :=
  forall best others, sorted_models st = best :: others ->
  exists best' others' s s', sorted_models st' = best' :: others' /\ utility best = Ok s /\ utility' best' = Ok s' /\ sle s' s = true.
(** Beams that differ at most in the last of n + 1 rounds, where the second is wider. *)
Definition wider_at_end (n : nat) (beam beam' : beam_arg) : Prop :=
  (forall i z, (i < n)%nat -> (beam_value beam i z <-> beam_value beam' i z))
  /\ forall z z', beam_value beam n z -> beam_value beam' n z' -> 0 <= z <= z'.

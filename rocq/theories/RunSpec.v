(** Specifications about two runs of the search (C62). *)
From Coq Require Import List Bool Arith ZArith Permutation.
From Verif Require Import Py KexModel OpsModel OpsSpec SearchModel SearchSpec.
Import ListNotations.
Local Open Scope list_scope.

(** The same expressions (up to ==) in the same positions. *)
Definition same_exprs {D D' : Type} (l : list (gp D)) (l' : list (gp D')) : Prop := Forall2 (fun a b => keq (gkex a) (gkex b) = true) l l'.
(** The same expressions (up to ==) in some order, with the same multiplicities. *)
Definition same_multiset (l l' : list kex) : Prop := exists m, Permutation l' m /\ Forall2 (fun a b => keq a b = true) l m.
(** The five returned values are the same but for the objects' identities, the order of terms and the order of the tried expressions. *)
Record same_outcome {D D' : Type} (st : results D) (st' : results D') : Prop := {
  same_sorted : same_exprs (sorted_models st) (sorted_models st');
  same_rounds : Forall2 same_exprs (tested_models st) (tested_models st');
  same_tested : same_multiset (tested_k_exprs st) (tested_k_exprs st');
  same_expanded : same_exprs (expanded st) (expanded st');
  same_not_expanded : same_exprs (not_expanded st) (not_expanded st') }.

(** A run gave expression e the score s. *)
Definition judged {D Sc : Type} (utility : gp D -> res Sc) (st : results D) (e : kex) (s : Sc) : Prop :=
  exists m, In m (sorted_models st) /\ gkex m = e /\ utility m = Ok s.
(** Equal expressions got equal scores, different ones different scores. *)
Definition scores_identify {Sc : Type} (sle : Sc -> Sc -> bool) (J : kex -> Sc -> Prop) : Prop :=
  forall e s e' s', J e s -> J e' s' -> (keq e e' = true <-> sle s s' = true /\ sle s' s = true).

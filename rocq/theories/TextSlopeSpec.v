(** Specification vocabulary: descriptions that differ in the slopes of sigmoids only (C69). *)
From Coq Require Import List.
From Verif Require Import Py KexModel KernModel SemModel IvModel.
Import ListNotations.

(** The same factors in the same order, with the same parameters except for those of sigmoids. *)
Definition same_but_sigmoids (d d' : params) : Prop :=
  Forall2 (fun x y => fst x = fst y /\ ((forall b, fst x = KBase b -> is_sigmoid b = false) -> snd x = snd y)) d d'.
(** Two intervals with the same start and the same end, and with any slopes. *)
Definition same_two_ends (v v' : val) : Prop :=
  exists i i', v = VIv i /\ v' = VIv i'
  /\ exists s e, i_start i = Some s /\ i_end i = Some e /\ i_start i' = Some s /\ i_end i' = Some e.

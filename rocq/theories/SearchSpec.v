(** Specifications for fitting and search. *)
From Coq Require Import String List Bool Arith ZArith Sorted Permutation.
From Verif Require Import Py KexModel OpsModel OpsSpec SearchModel.
Import ListNotations.
Local Open Scope list_scope.
Local Open Scope Z_scope.

(** a comes before b in l. *)
Definition precedes {A : Type} (l : list A) (a b : A) : Prop := exists l1 l2 l3, l = l1 ++ a :: l2 ++ b :: l3.

(** ** Contracts of external code *)
Section Contracts.
  Context {D W : Type}.
  (** Fitted models are new objects: [next w] is above the identities of all objects that exist in w. *)
  Definition fresh_fitter (next : W -> nat) (fit : fitter D W) : Prop :=
    forall w ks w' ms, fit w ks = (w', Ok ms) ->
      NoDup (map gid ms) /\ (forall m, In m ms -> (next w <= gid m < next w')%nat) /\ (next w <= next w')%nat.
  (** One model per expression, in order. *)
  Definition fits_each (fit : fitter D W) : Prop := forall w ks w' ms, fit w ks = (w', Ok ms) -> map gkex ms = ks.
  (** A single attempt makes a new object with the given expression. *)
  Definition fresh_attempt (next : W -> nat) (attempt : W -> kex -> W * res (gp D)) : Prop :=
    forall w k w' r, attempt w k = (w', r) ->
      (next w <= next w')%nat /\ match r with Ok m => gkex m = k /\ (next w <= gid m < next w')%nat | Raise _ => True end.
End Contracts.

(** ** Retries (C27): [attempts attempt k w n w']: n attempts in a row from world w all raise and lead to w'. *)
Inductive failed_attempts {W A : Type} (attempt : W -> kex -> W * res A) (k : kex) : W -> nat -> W -> Prop :=
| fa_none w : failed_attempts attempt k w 0 w
| fa_more w w1 e n w2 : attempt w k = (w1, Raise e) -> failed_attempts attempt k w1 n w2 -> failed_attempts attempt k w (S n) w2.

(** ** Ranking *)
Section Ranking.
  Context {D Sc : Type} (sle : Sc -> Sc -> bool).
  Definition total_preorder : Prop :=
    (forall a b, sle a b = true \/ sle b a = true) /\ (forall a b c, sle a b = true -> sle b c = true -> sle a c = true).
  Definition at_most (utility : gp D -> res Sc) (a b : gp D) : Prop :=
    exists x y, utility a = Ok x /\ utility b = Ok y /\ sle x y = true.
  Definition ranked (utility : gp D -> res Sc) (l : list (gp D)) : Prop := StronglySorted (at_most utility) l.
  (** Models of equal score are in the same order in l' as in l. *)
  Definition ties_in_order (utility : gp D -> res Sc) (l l' : list (gp D)) : Prop :=
    forall a b, precedes l a b -> at_most utility a b -> at_most utility b a -> precedes l' a b.
End Ranking.

(** ** The beam argument (C26) *)
(** The number of models to expand in round i (from 0). *)
Definition beam_value (beam : beam_arg) (i : nat) (z : Z) : Prop :=
  match beam with
  | BInt b => z = b
  | BList l => nth_error l i = Some (Some z) \/ ((length l <= i)%nat /\ exists l', l = l' ++ [Some z])
  | BOther => False
  end.
(** An integer, or a list of integers with a last element to repeat if it is too short. *)
Definition valid_beam (rounds : Z) (beam : beam_arg) : Prop :=
  match beam with
  | BInt _ => True
  | BList l => (forall x, In x l -> x <> None) /\ (l <> [] \/ rounds = 0)
  | BOther => False
  end.
Definition integer_list (beam : beam_arg) : Prop := exists l, beam = BList l /\ forall x, In x l -> x <> None.

(** ** The pool (C28): [order] lists every chunk of [size] consecutive tasks (out of n) once. *)
Definition all_chunks (n size : nat) (order : list nat) : Prop :=
  NoDup order /\ forall c, In c order <-> (c * size < n)%nat.

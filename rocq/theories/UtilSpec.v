(** Small specifications used to state the properties of the generic utilities.  Nothing here refers to the model. *)
From Coq Require Import List Permutation.
Import ListNotations.

(** A valid order of a dependency list: every (node, dependencies) pair once, each after everything it depends on. *)
Definition valid_order {A : Type} (nodes order : list (A * list A)) : Prop :=
  Permutation order nodes /\
  forall before a deps after, order = before ++ (a, deps) :: after -> forall d, In d deps -> In d (map fst before).

(** [subseq l m]: l is m with some elements left out. *)
Inductive subseq {A : Type} : list A -> list A -> Prop :=
| ss_nil : subseq [] []
| ss_skip x l m : subseq l m -> subseq l (x :: m)
| ss_keep x l m : subseq l m -> subseq (x :: l) (x :: m).

(** A boolean equivalence relation, which is what a python [==] has to be for the list utilities to make sense. *)
Definition equivalence {A : Type} (eqb : A -> A -> bool) : Prop :=
  (forall x, eqb x x = true) /\ (forall x y, eqb x y = eqb y x)
  /\ (forall x y z, eqb x y = true -> eqb y z = true -> eqb x z = true).

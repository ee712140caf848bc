(** Specification of fit_kex. *)
From Coq Require Import List Arith String.
From Verif Require Import Py FitModel.
Import ListNotations.

(** The element at an index tuple, if the index is in range. *)
Fixpoint position (sh idx : list nat) (acc : nat) : option nat :=
  match sh, idx with
  | [], [] => Some acc
  | n :: sh, i :: idx => if i <? n then position sh idx (acc * n + i) else None
  | _, _ => None
  end.
Definition element {A} (a : array A) (idx : list nat) : option A :=
  match position (shape a) idx 0 with Some p => nth_error (elements a) p | None => None end.

(** [c] is [v] written as a column: one row per element. *)
Definition column_of {A} (v c : array A) : Prop :=
  exists n, shape v = [n] /\ shape c = [n; 1] /\ forall i j, element c [i; j] = if j =? 0 then element v [i] else None.
(** As many elements as the shape says. *)
Definition consistent {A} (a : array A) : Prop := Datatypes.length (elements a) = fold_right Nat.mul 1 (shape a).
(** The data a regression is made of: a vector as a column, anything else as it is. *)
Definition regression_data {A} (a b : array A) : Prop := (Datatypes.length (shape a) <> 1 /\ b = a) \/ column_of a b.

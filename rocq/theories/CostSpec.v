(** How large expressions get and how many models a search fits (C73). *)
From Coq Require Import List Bool Arith ZArith.
From Verif Require Import Py KexModel KexSpec SemSpec CountSpec OpsModel.
Import ListNotations.

(** The number of symbols of an expression: its base kernels and its operators (SUM, PROD, CP, CW). *)
Fixpoint symbols (e : kex) : nat :=
  match e with
  | Comm _ bts cts => 1 + length (bases_in bts) + total_of symbols cts
  | Change _ l r =>
      1 + match l with inl _ => 1 | inr x => symbols x end + match r with inl _ => 1 | inr x => symbols x end
  end.
(** At most how many results per symbol an expansion has, for a grammar with p base kernels, q of them for products. *)
Definition per_symbol (p q : nat) : nat := 3 * (3 * p + 6 * q + 13).
(** The rule groups with the rule that duplicates a node under a change. *)
Definition doubling_groups (offset : bool) : list (list base -> list base -> list rule) := [rules_all offset; rules_original offset; rules_minimal offset].

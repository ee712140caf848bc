(** What the built-in production rules are documented to do (C81). *)
From Coq Require Import List Bool Arith ZArith.
From Verif Require Import Py KexModel KexSpec OpsModel OpsSpec.
Import ListNotations.
Local Open Scope list_scope.
Local Open Scope Z_scope.

(** The rewritings in the documentation of the rules (grammar.py:33-71, docstrings). *)
Inductive rewriting : Type :=
| PlusBase (* S -> S + B *) | TimesBase (* S -> S * B *) | OtherBase (* B -> B *)
| ChangeNew (* S -> CP(S, B), CW(S, B) *) | ChangeSame (* S -> CP(S, S), CW(S, S) *)
| PointLin (* S -> CP(S, LIN), CP(LIN, S) *) | WindowC (* S -> CW(S, C), CW(C, S) *) | WindowLin (* S -> CW(S, LIN), CW(LIN, S) *)
| TimesShifted (* S -> S * (B + C) *) | ToBase (* S -> B *) | DropTerm (* S + S2 -> S, S * S2 -> S *) | HigherCurves (* higher powers, discouraging SE *).
(** The rules of the groups (grammar.py:99-104). *)
Definition all_rewritings : list rewriting :=
  [PlusBase; TimesBase; OtherBase; ChangeNew; ChangeSame; PointLin; WindowC; WindowLin; TimesShifted; ToBase; DropTerm; HigherCurves].
Definition original_rewritings : list rewriting := [PlusBase; TimesBase; OtherBase; ChangeSame; WindowC; TimesShifted; ToBase; DropTerm].
Definition minimal_rewritings : list rewriting := [PlusBase; TimesBase; OtherBase; ChangeSame].
Definition default_rewritings : list rewriting := [PlusBase; TimesBase; OtherBase; PointLin; WindowLin; TimesShifted; ToBase; DropTerm].

(** The Counter c' is c with one more B. *)
Definition plus_one (c c' : counter) (B : base) : Prop := wf_counter c' /\ forall x, cget c' x = cget c x + delta B x.
(** The Counter c' is c with the given number more of B. *)
Definition plus_some (c c' : counter) (n : Z) (B : base) : Prop := wf_counter c' /\ forall x, cget c' x = cget c x + n * delta B x.
(** y is x, without the base terms SE if the first Counter has one. *)
Definition discourage_SE (bts : counter) (x y : kex) : Prop :=
  (cget bts bSE <= 0 /\ y = x) \/
  (0 < cget bts bSE /\ exists k b c, x = Comm k b c /\ y = Comm k (filter (fun kv => negb (base_eqb (fst kv) bSE)) b) c).
Definition lin_power (offset : bool) (n : nat) : kex := mkl offset KProd (repeat bLIN n) [].

(** The expressions that a rewriting makes of one; [mk], [mkl] and [mk_change] are the constructors SumKE, ProductKE and ChangeKE. *)
Inductive documented (offset : bool) (bases : list base) : rewriting -> kex -> kex -> Prop :=
(* a base added to a sum, to anything else, or to one factor of a product *)
| plus_sum B bts cts c' : In B bases -> plus_one bts c' B -> documented offset bases PlusBase (Comm KSum bts cts) (mk offset KSum c' cts)
| plus_other B S : In B bases -> is_kind KSum S = false -> documented offset bases PlusBase S (mkl offset KSum [B] [S])
| plus_factor B f bts cts c' : In B bases -> minus_one bts c' f ->
    documented offset bases PlusBase (Comm KProd bts cts) (mk offset KProd c' (cts ++ [mkl offset KSum [B; f] []]))
(* a product, anything else or one term of a sum multiplied by a base other than C *)
| times_prod B bts cts c' : In B bases -> B <> bC -> plus_one bts c' B -> documented offset bases TimesBase (Comm KProd bts cts) (mk offset KProd c' cts)
| times_other B S : In B bases -> B <> bC -> is_kind KProd S = false -> documented offset bases TimesBase S (mkl offset KProd [B] [S])
| times_term B t bts cts c' : In B bases -> B <> bC -> minus_one bts c' t ->
    documented offset bases TimesBase (Comm KSum bts cts) (mk offset KSum c' (cts ++ [mkl offset KProd [B; t] []]))
(* a base exchanged for another (or, by C08, repeated) *)
| other_base k B b bts cts c' : In B bases -> b <> B -> replace_one bts c' b B -> documented offset bases OtherBase (Comm k bts cts) (mk offset k c' cts)
| same_base k B bts cts c' : In B bases -> 0 < cget bts B -> plus_one bts c' B -> documented offset bases OtherBase (Comm k bts cts) (mk offset k c' cts)
| other_left o b r B : In B bases -> b <> B -> documented offset bases OtherBase (Change o (inl b) r) (mk_change offset o (inl B) r)
| other_right o l b B : In B bases -> b <> B -> documented offset bases OtherBase (Change o l (inl b)) (mk_change offset o l (inl B))
(* changes *)
| new_right o B S : In B bases -> B <> bC -> documented offset bases ChangeNew S (mk_change offset o (inr S) (inl B))
| new_left o B S : In B bases -> B <> bC -> documented offset bases ChangeNew S (mk_change offset o (inl B) (inr S))
| same_both o S : documented offset bases ChangeSame S (mk_change offset o (inr S) (inr S))
| point_right S : documented offset bases PointLin S (mk_change offset CP (inr S) (inl bLIN))
| point_left S : documented offset bases PointLin S (mk_change offset CP (inl bLIN) (inr S))
| constant_right S : documented offset bases WindowC S (mk_change offset CW (inr S) (inl bC))
| constant_left S : documented offset bases WindowC S (mk_change offset CW (inl bC) (inr S))
| window_right S : documented offset bases WindowLin S (mk_change offset CW (inr S) (inl bLIN))
| window_left S : documented offset bases WindowLin S (mk_change offset CW (inl bLIN) (inr S))
(* a product or anything else multiplied by a base plus a constant *)
| shifted_prod B bts cts : In B bases -> B <> bC ->
    documented offset bases TimesShifted (Comm KProd bts cts) (mk offset KProd bts (cts ++ [mkl offset KSum [B; bC] []]))
| shifted_other B S : In B bases -> B <> bC -> is_kind KProd S = false -> documented offset bases TimesShifted S (mk offset KProd [] [S; mkl offset KSum [B; bC] []])
(* a base instead *)
| to_base B S : In B bases -> documented offset bases ToBase S (Comm KSum [(B, 1)] [])
(* one of several terms or one of two branches dropped *)
| drop_base k b bts cts c' : 1 < terms bts cts -> minus_one bts c' b -> documented offset bases DropTerm (Comm k bts cts) (mk offset k c' cts)
| drop_composite k bts l1 c l2 : 1 < terms bts (l1 ++ c :: l2) -> documented offset bases DropTerm (Comm k bts (l1 ++ c :: l2)) (mk offset k bts (l1 ++ l2))
| drop_left o l r : documented offset bases DropTerm (Change o l r) (match r with inl b => Comm KSum [(b, 1)] [] | inr x => x end)
| drop_right o l r : documented offset bases DropTerm (Change o l r) (match l with inl b => Comm KSum [(b, 1)] [] | inr x => x end)
(* the square or cube of LIN added to a sum or multiplied to a product, or put in place of a bare branch; PER raised to the square (or one more) in a product *)
| higher_sum n bts cts y : n = 2%nat \/ n = 3%nat -> discourage_SE bts (mk offset KSum bts (cts ++ [lin_power offset n])) y ->
    documented offset bases HigherCurves (Comm KSum bts cts) y
| higher_prod n bts cts c' y : n = 2 \/ n = 3 -> plus_some bts c' n bLIN -> discourage_SE bts (mk offset KProd c' cts) y ->
    documented offset bases HigherCurves (Comm KProd bts cts) y
| higher_per bts cts c' y : plus_some bts c' (if 0 <? cget bts bPER then 1 else 2) bPER -> discourage_SE bts (mk offset KProd c' cts) y ->
    documented offset bases HigherCurves (Comm KProd bts cts) y
| higher_left o b r n : n = 2%nat \/ n = 3%nat -> documented offset bases HigherCurves (Change o (inl b) r) (mk_change offset o (inr (lin_power offset n)) r)
| higher_right o l b n : n = 2%nat \/ n = 3%nat -> documented offset bases HigherCurves (Change o l (inl b)) (mk_change offset o l (inr (lin_power offset n))).
(** The bases without C, in any order. *)
Definition without_C (bases noC : list base) : Prop := forall b, In b noC <-> In b bases /\ b <> bC.

(** Specifications about growing expressions (C67). *)
From Coq Require Import Reals List Bool Arith ZArith.
From Verif Require Import Py KexModel KexSpec KernModel KernSpec SemModel SemSpec PredSpec UnitSpec.
Import ListNotations.
Local Open Scope Z_scope.

(** Operands that are initialised: base kernel names, and non-empty expressions of actual base kernels in normal form. *)
Definition standard (offset : bool) (b : branch) : Prop :=
  match b with inl x => is_sigmoid x = false | inr e => built offset e /\ normal offset e /\ non_empty e /\ sigmoid_free e end.

(** Nothing but noise: sums of terms which all are, products with a factor which is, changes between two which are. *)
Fixpoint noise_only (e : kex) : bool :=
  match e with
  | Comm KSum bts cts => forallb (fun b => (cget bts b <=? 0) || base_eqb b bWN) all_bases && forallb noise_only cts
  | Comm KProd bts cts => (0 <? cget bts bWN) || existsb noise_only cts
  | Change _ l r => (match l with inl b => base_eqb b bWN | inr x => noise_only x end) && (match r with inl b => base_eqb b bWN | inr x => noise_only x end)
  end.
Definition noise_branch (b : branch) : bool := match b with inl b => base_eqb b bWN | inr x => noise_only x end.
(** Uncorrelated at different data points. *)
Definition uncorrelated (K : kern) : Prop := forall x i j, i <> j -> K x i j = 0%R.
(** The kernel object of an operand. *)
Definition kernel_of (b : branch) : res gkern := match b with inl x => Ok (GBase x true) | inr e => to_kernel e end.
(** Every log-likelihood reached with the first kernel is approximated as closely as desired with the second, so the best one is at least as high. *)
Definition as_likely (offset : bool) (g g' : gkern) (n : nat) (x y : nat -> R) : Prop :=
  (forall L eps, attainable offset g n x y L -> (0 < eps)%R -> exists L', attainable offset g' n x y L' /\ (Rabs (L' - L) < eps)%R)
  /\ (forall M M', is_lub (attainable offset g n x y) M -> is_lub (attainable offset g' n x y) M' -> (M <= M')%R).

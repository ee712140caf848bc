(** Specifications about what the expansion grammar can reach (C58-C61). *)
From Coq Require Import List Bool Arith ZArith.
From Verif Require Import Py KexModel KexSpec OpsModel OpsSpec SearchModel SearchSpec.
Import ListNotations.
Local Open Scope list_scope.
Local Open Scope Z_scope.

(** [reaches offset rules e x]: x is obtained from e by finitely many expansions, each step taking one of the listed results. *)
Inductive reaches (offset : bool) (rules : list rule) (e : kex) : kex -> Prop :=
| reaches_self : reaches offset rules e e
| reaches_step x y : reaches offset rules e x -> In y (expand offset rules x) -> reaches offset rules e y.

(** All bases occurring in an expression are among the given ones. *)
Definition over (bases : list base) (e : kex) : Prop := forall b, occurs b e -> In b bases.

(** The expressions a search deals in: normal forms without empty nodes, whose root has several terms or is the sum of one base. *)
Definition searchable (offset : bool) (bases : list base) (e : kex) : Prop :=
  normal offset e /\ non_empty e /\ over bases e /\ (~ singleton e \/ exists b, e = Comm KSum [(b, 1)] []).

(** The base kernels of the grammar (base_kerns_for_prod in its two settings, in any order): no sigmoids, at least LIN and PER. *)
Definition grammar_bases (bases noC : list base) : Prop :=
  (forall b, In b bases -> is_sigmoid b = false) /\ In bLIN bases /\ In bPER bases /\ (forall b, In b bases -> b <> bC -> In b noC).

(** A rule list with the rules that suffice; the change operators come from the LIN rules or from the same-branches rule. *)
Definition enough_rules (offset : bool) (bases noC : list base) (rules : list rule) : Prop :=
  In (plus_base offset bases) rules /\ In (times_base offset noC) rules /\ In (replace_base offset bases) rules
  /\ In (replace_with_singleton offset bases) rules
  /\ ((In (change_point_linear offset) rules /\ In (change_window_linear offset) rules) \/ In (change_same offset) rules).
(** The built-in rule groups but the minimal one. *)
Definition full_groups (offset : bool) : list (list base -> list base -> list rule) := [rules_all offset; rules_default offset; rules_original offset].

(** ** Searches (C60) *)
(** x is obtained from e by exactly n expansions. *)
Inductive reaches_in (offset : bool) (rules : list rule) (e : kex) : nat -> kex -> Prop :=
| reaches_zero : reaches_in offset rules e 0 e
| reaches_more n x y : reaches_in offset rules e n x -> In y (expand offset rules x) -> reaches_in offset rules e (S n) y.
(** Rules that treat equal nodes alike. *)
Definition respects_eq (rules : list rule) : Prop := forall n n' m, wf n -> wf n' -> keq n n' = true -> produced rules n m ->
  exists m', produced rules n' m' /\ keq m m' = true.
(** An expression equal to x is in the list. *)
Definition has_equal (l : list kex) (x : kex) : Prop := exists y, In y l /\ keq x y = true.
(** In each of the rounds at least n models can be expanded. *)
Definition beam_at_least (rounds : Z) (beam : beam_arg) (n : Z) : Prop :=
  valid_beam rounds beam /\ forall i z, (i < Z.to_nat rounds)%nat -> beam_value beam i z -> n <= z.
(** External code that does not raise. *)
Definition never_raises {D Sc W : Type} (fit : fitter D W) (utility : gp D -> res Sc) : Prop :=
  (forall w ks, exists w' ms, fit w ks = (w', Ok ms)) /\ (forall m, exists s, utility m = Ok s).
(** No change operator occurs. *)
Definition change_free (e : kex) : Prop := forall o l r, ~ node (Change o l r) e.

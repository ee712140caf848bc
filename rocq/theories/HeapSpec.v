(** What the objects of a kernel expression should look like (C19). *)
From Coq Require Import List Bool Arith ZArith NArith.
From Verif Require Import Py KexModel KexSpec OpsModel HeapModel.
Import ListNotations.

(** [apart P xs ys ids]: xs and ys are related element by element, each pair by means of some references; no reference is used twice;
    [ids] are all of them. *)
Inductive apart {A B : Type} (P : A -> B -> list ref -> Prop) : list A -> list B -> list ref -> Prop :=
| apart_nil : apart P [] [] []
| apart_cons x y ids xs ys jds :
    P x y ids -> apart P xs ys jds -> (forall j, In j ids -> ~ In j jds) -> apart P (x :: xs) (y :: ys) (ids ++ jds).
(** [tree_at h i e ids]: in the heap [h], [i] is the top node of a tree with the contents [e]; its nodes are the objects [ids], each of which
    occurs in it once. *)
Inductive tree_at (h : heap) : ref -> kex -> list ref -> Prop :=
| at_comm i k bts cs es ids :
    data (obj h i) = BComm k bts cs -> apart (tree_at h) cs es ids -> ~ In i ids -> tree_at h i (Comm k bts es) (i :: ids)
| at_change i c l r l' r' ids jds :
    data (obj h i) = BChange c l r -> branch_at h l l' ids -> branch_at h r r' jds -> (forall j, In j ids -> ~ In j jds) -> ~ In i (ids ++ jds) ->
    tree_at h i (Change c l' r') (i :: ids ++ jds)
with branch_at (h : heap) : base + ref -> branch -> list ref -> Prop :=
| at_base b : branch_at h (inl b) (inl b) []
| at_tree i e ids : tree_at h i e ids -> branch_at h (inr i) (inr e) ids.

(** The nodes that a node contains. *)
Definition children (b : body) : list ref :=
  match b with
  | BComm _ _ cts => cts
  | BChange _ l r => (match l with inl _ => [] | inr i => [i] end) ++ (match r with inl _ => [] | inr i => [i] end)
  end.
Definition linked (h : heap) (ids : list ref) : Prop :=
  forall n c, In n ids -> In c (children (data (obj h n))) -> parent (obj h c) = Some n.
(** The top node has no parent, the parent of every other node is the node that contains it, and the root of every node is the top node. *)
Definition consistent (h : heap) (i : ref) (ids : list ref) : Prop :=
  parent (obj h i) = None /\ linked h ids /\ forall n, In n ids -> root (obj h n) = Some i.
(** Expression objects of a heap: a tree with consistent pointers. *)
Definition expression (h : heap) (i : ref) (e : kex) (ids : list ref) : Prop :=
  tree_at h i e ids /\ consistent h i ids /\ forall j, In j ids -> N.lt j (next h).
(** As built by the constructors, before [_initialise]: the roots are not set. *)
Definition constructed (h : heap) (i : ref) (e : kex) (ids : list ref) : Prop :=
  tree_at h i e ids /\ linked h ids /\ parent (obj h i) = None /\ forall j, In j ids -> N.lt j (next h).

(** With a sufficient recursion limit the call returns [a] and leaves the heap [h']. *)
Definition evaluates {A : Type} (m : nat -> HM A) (h : heap) (a : A) (h' : heap) : Prop :=
  exists n0, forall n, n0 <= n -> m n h = Some (a, h').
(** The objects of [h] are as they were in [h]. *)
Definition untouched (h h' : heap) : Prop := forall j, N.lt j (next h) -> obj h' j = obj h j.
Definition new_in (h h' : heap) (ids : list ref) : Prop := forall j, In j ids -> N.le (next h) j /\ N.lt j (next h').

(** The rules of OpsModel.v by name. *)
Definition rule_of (offset : bool) (bases noC : list base) (r : rule_name) : rule :=
  match r with
  | PlusBase => plus_base offset bases
  | TimesBase => times_base offset noC
  | ReplaceBase => replace_base offset bases
  | ChangeNewBase => change_new_base offset noC
  | ChangeSame => change_same offset
  | ChangeWindowConstant => change_window_constant offset
  | ChangeWindowLinear => change_window_linear offset
  | ChangePointLinear => change_point_linear offset
  | TimesShiftedBase => times_shifted_base offset noC
  | ReplaceWithSingleton => replace_with_singleton offset bases
  | RemoveSomeTerm => remove_some_term offset
  | TryHigherCurves => try_higher_curves offset
  end.
Definition is_change (e : kex) : bool := match e with Change _ _ _ => true | Comm _ _ _ => false end.
(** Where two terms of one Sum or Product are equal changes, they are in normal form. *)
Definition equal_changes_normal (offset : bool) (e : kex) : Prop :=
  forall k bts pre x mid y post, node (Comm k bts (pre ++ x :: mid ++ y :: post)) e -> is_change y = true -> keq x y = true -> normal offset y.

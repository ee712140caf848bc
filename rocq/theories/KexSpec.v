(** Specifications about kernel expressions.  They use the data type of expressions and the reading of a Counter
    ([cget] = count of a base), and none of the modelled algorithms. *)
From Coq Require Import List Bool Arith ZArith Permutation.
From Verif Require Import KexModel.
Import ListNotations.
Local Open Scope Z_scope.

(** [node n e]: n is e itself or a Sum/Product/Change node somewhere inside it. *)
Inductive node : kex -> kex -> Prop :=
| node_self e : node e e
| node_comm n k bts cts c : In c cts -> node n c -> node n (Comm k bts cts)
| node_left n c x r : node n x -> node n (Change c (inr x) r)
| node_right n c l x : node n x -> node n (Change c l (inr x)).

(** A Counter as stored in expressions: each base at most once, with a positive count. *)
Definition wf_counter (c : counter) : Prop :=
  NoDup (map fst c) /\ forall b n, In (b, n) c -> 0 < n.
Definition wf (e : kex) : Prop :=
  forall k bts cts, node (Comm k bts cts) e -> wf_counter bts.

(** Number of terms of a Sum or Product. *)
Definition terms (bts : counter) (cts : list kex) : Z :=
  fold_right (fun b s => cget bts b + s) 0 all_bases + Z.of_nat (length cts).

(** Equality up to reordering (C01): the same bases with the same multiplicities and, after some reordering, pairwise
    equal composites, at every level; the branches of a Change stay in place. *)
Inductive reord : kex -> kex -> Prop :=
| reord_comm k b1 b2 c1 c2 c2' :
    (forall b, cget b1 b = cget b2 b) -> Permutation c2 c2' -> reord_list c1 c2' ->
    reord (Comm k b1 c1) (Comm k b2 c2)
| reord_change c l1 l2 r1 r2 :
    reord_branch l1 l2 -> reord_branch r1 r2 -> reord (Change c l1 r1) (Change c l2 r2)
with reord_list : list kex -> list kex -> Prop :=
| reord_nil : reord_list [] []
| reord_cons x y l m : reord x y -> reord_list l m -> reord_list (x :: l) (y :: m)
with reord_branch : branch -> branch -> Prop :=
| reord_base b : reord_branch (inl b) (inl b)
| reord_kex x y : reord x y -> reord_branch (inr x) (inr y).

(** Cardinality rules of simplified base terms (C06). *)
Definition cardinality (offset : bool) (k : kind) (bts : counter) (ncomposites : nat) : Prop :=
  match k with
  | KSum => cget bts bWN <= 1 /\ cget bts bC <= 1 /\ (offset = true -> 0 < cget bts bLIN -> cget bts bC = 0)
  | KProd =>
      (0 < cget bts bWN -> cget bts bWN = 1 /\ cget bts bC = 0 /\ cget bts bSE = 0 /\ cget bts bPER = 0)
      /\ cget bts bSE <= 1 /\ cget bts bC <= 1
      /\ (0 < cget bts bC -> ncomposites = 0%nat /\ forall b, b <> bC -> is_sigmoid b = false -> cget bts b = 0)
  end.

(** Normal forms (C04): at every node, well-formed base terms obeying the cardinality rules, no composite of the same type as its
    parent, no composite (or Change branch) with a single term. *)
Definition singleton (e : kex) : Prop :=
  exists k bts cts, e = Comm k bts cts /\ terms bts cts = 1.
Definition normal_node (offset : bool) (n : kex) : Prop :=
  match n with
  | Comm k bts cts => wf_counter bts /\ cardinality offset k bts (length cts)
                      /\ forall c, In c cts -> ~ singleton c /\ is_kind k c = false
  | Change _ l r => forall x, l = inr x \/ r = inr x -> ~ singleton x
  end.
Definition normal (offset : bool) (e : kex) : Prop := forall n, node n e -> normal_node offset n.

(** No Sum or Product without terms (C03). *)
Definition non_empty (e : kex) : Prop :=
  forall k bts cts, node (Comm k bts cts) e -> 0 < terms bts cts.

(** When a product is built, none of its composites is itself a product with a factor C (C03). *)
Definition no_c_product (k : kind) (c : kex) : Prop :=
  k = KProd -> match c with Comm KProd b _ => cget b bC = 0 | _ => True end.

(** What programs can build (C04, C05): results of the constructors applied to built expressions, of [_initialise], and
    sub-expressions (read through [composite_terms], [left], [right]). *)
Inductive built (offset : bool) : kex -> Prop :=
| built_list k bases cts : (forall c, In c cts -> built offset c) -> built offset (mkl offset k bases cts)
| built_counter k bts cts : wf_counter bts -> (forall c, In c cts -> built offset c) -> built offset (mk offset k bts cts)
| built_change c l r : (forall x, l = inr x \/ r = inr x -> built offset x) -> built offset (mk_change offset c l r)
| built_initialise e : built offset e -> built offset (initialise offset e)
| built_part e n : built offset e -> node n e -> built offset n.

(** Addresses of nodes (C10): a list of child indices; the children of a Change are 0 (left) and 1 (right), a bare
    string branch counting as the sum of that one base. *)
Definition addr : Type := list nat.
Definition child (e : kex) (i : nat) : option kex :=
  match e with
  | Comm _ _ cts => nth_error cts i
  | Change _ l r =>
      match (match i with O => Some l | S O => Some r | _ => None end) with
      | None => None
      | Some (inr x) => Some x
      | Some (inl b) => Some (Comm KSum [(b, 1)] [])
      end
  end.
Fixpoint at_addr (e : kex) (p : addr) : option kex :=
  match p with
  | [] => Some e
  | i :: q => match child e i with Some c => at_addr c q | None => None end
  end.
(** Pre-order: a node comes before its descendants, and all of child i before child j > i. *)
Inductive before : addr -> addr -> Prop :=
| before_prefix i p : before [] (i :: p)
| before_child i j p q : (i < j)%nat -> before (i :: p) (j :: q)
| before_same i p q : before p q -> before (i :: p) (i :: q).

(** A base occurs in an expression (C11). *)
Definition occurs (b : base) (e : kex) : Prop :=
  (exists k bts cts, node (Comm k bts cts) e /\ 0 < cget bts b)
  \/ (exists c l r, node (Change c l r) e /\ (l = inl b \/ r = inl b)).

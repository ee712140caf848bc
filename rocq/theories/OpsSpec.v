(** Specifications for the expression operations and the expansion grammar. *)
From Coq Require Import String List Bool Arith ZArith.
From Verif Require Import Py KexModel KexSpec OpsModel.
Import ListNotations.
Local Open Scope list_scope.
Local Open Scope Z_scope.

(** Kronecker delta on base names. *)
Definition delta (a b : base) : Z := if base_eqb a b then 1 else 0.

(** The Counter c' is c with one occurrence of [out] deleted (C09), resp. replaced with [into] (C08). *)
Definition minus_one (c c' : counter) (out : base) : Prop :=
  wf_counter c' /\ forall x, cget c' x = cget c x - delta out x.
Definition replace_one (c c' : counter) (out into : base) : Prop :=
  wf_counter c' /\ forall x, cget c' x = cget c x - delta out x + delta into x.
(** [bs] lists the distinct bases of a Counter. *)
Definition distinct_bases (c : counter) (bs : list base) : Prop :=
  NoDup bs /\ forall b, In b bs <-> 0 < cget c b.

(** [replace_addr e p new = Some t]: t is e with the node at address p replaced by new, in place (C17). *)
Fixpoint replace_addr (e : kex) (p : addr) (new : kex) : option kex :=
  match p with
  | [] => Some new
  | i :: q =>
      match child e i with
      | None => None
      | Some c =>
          match replace_addr c q new with
          | None => None
          | Some c' =>
              match e with
              | Comm k bts cts => Some (Comm k bts (firstn i cts ++ c' :: skipn (S i) cts))
              | Change o l r => match i with O => Some (Change o (inr c') r) | _ => Some (Change o l (inr c')) end
              end
          end
      end
  end.

(** [new] is one of the rules' results for the node n. *)
Definition produced (rules : list rule) (n new : kex) : Prop :=
  exists r group, In r rules /\ In group (r n) /\ In new group.
(** The rules give well-formed expressions (true of the built-in ones: C17_builtin_rules). *)
Definition wf_rules (rules : list rule) : Prop := forall n new, wf n -> produced rules n new -> wf new.

(** No Change node has a bare base kernel as its left branch. *)
Definition no_left_string (e : kex) : Prop := forall o b r, ~ node (Change o (inl b) r) e.

(** Where the code writes a replacement for the node at p: at p itself, except that the replacement of a bare left
    branch of a Change goes to the right branch. *)
Fixpoint target (e : kex) (p : addr) : addr :=
  match p with
  | [] => []
  | i :: q =>
      match e, i with
      | Change _ (inl _) _, O => [1%nat]
      | _, _ => match child e i with Some c => i :: target c q | None => i :: q end
      end
  end.

(** A Sum or Product with nothing but one composite (C18). *)
Definition composite_singleton (e : kex) : Prop := exists k c, e = Comm k [] [c].
(** Simplification turns no part of t on the way to address p (t itself excepted) into a lone composite. *)
Definition no_lone_composite (offset : bool) (t : kex) (p : addr) : Prop :=
  forall q r s, p = q ++ r -> q <> [] -> at_addr t q = Some s -> ~ composite_singleton (simplify offset s).

(** Two lists with the same elements up to == (C16). *)
Definition same_up_to_eq (l m : list kex) : Prop :=
  (forall x, In x l -> exists y, In y m /\ keq x y = true) /\ (forall y, In y m -> exists x, In x l /\ keq x y = true).

(** No two entries are == (C15, C20). *)
Definition pairwise_different (l : list kex) : Prop :=
  forall i j x y, i <> j -> nth_error l i = Some x -> nth_error l j = Some y -> keq x y = false.

(** Accepted start items (C20). *)
Definition names : list (string * base) :=
  [("WN", bWN); ("C", bC); ("LIN", bLIN); ("SE", bSE); ("PER", bPER)]%string.
Definition recognised (p : string + kex) : Prop :=
  match p with inr _ => True | inl s => exists b, In (s, b) names end.
(** The expression meant by an item: the sum of that one base, or the given expression. *)
Definition meant (p : string + kex) (e : kex) : Prop :=
  match p with inr e' => e = e' | inl s => exists b, In (s, b) names /\ e = Comm KSum [(b, 1)] [] end.

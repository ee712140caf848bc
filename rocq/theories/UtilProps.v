(** Property theorems for GPy_ABCD/Util/genericUtil.py (C44, C45, C46). *)
From Coq Require Import List Bool Arith ZArith QArith Permutation Lia.
From Verif Require Import Py UtilModel UtilSpec UtilProofs.
Import ListNotations.
Local Open Scope nat_scope.

(** C44.  [topological_sort] returns the names of some valid order, or raises ValueError and no valid order exists. *)
Theorem C44_topological_sort_correct (A : Type) (eqb : A -> A -> bool) :
  (forall x y, eqb x y = true <-> x = y) ->
  forall nodes : list (A * list A),
    (exists order, topological_sort eqb nodes = Some (Ok (map fst order)) /\ valid_order nodes order)
    \/ (topological_sort eqb nodes = Some (Raise EValueError) /\ forall order, ~ valid_order nodes order).
Proof. exact (topological_sort_spec eqb). Qed.
Print Assumptions C44_topological_sort_correct.
(** Both outcomes occur. *)
Example C44_sorted : topological_sort Nat.eqb [(1, [2; 3]); (2, [3]); (3, []); (4, [1; 2])] = Some (Ok [3; 2; 1; 4]).
Proof. reflexivity. Qed.
Example C44_cycle : topological_sort Nat.eqb [(1, [2]); (2, [1]); (3, [])] = Some (Raise EValueError).
Proof. reflexivity. Qed.
Example C44_hyp : forall x y, Nat.eqb x y = true <-> x = y.
Proof. exact Nat.eqb_eq. Qed.

(** C45, [partition]: both halves in input order. *)
Theorem C45_partition (A : Type) (p : A -> bool) (xs : list A) :
  partition_py p xs = (filter p xs, filter (fun x => negb (p x)) xs).
Proof. exact (partition_py_correct p xs). Qed.
Print Assumptions C45_partition.
Example C45_partition_ex : partition_py Nat.even [1; 2; 3; 4; 6] = ([2; 4; 6], [1; 3]).
Proof. reflexivity. Qed.

(** C45, [unique]: exactly the elements with no equal element at a lower index, in input order. *)
Theorem C45_unique (A : Type) (eqb : A -> A -> bool) :
  equivalence eqb -> forall xs : list A,
  unique eqb xs = map snd (filter (fun ix => negb (existsb (fun s => eqb s (snd ix)) (firstn (fst ix) xs)))
                                  (combine (seq 0 (length xs)) xs)).
Proof. intros (_ & _ & T). exact (unique_indices eqb T). Qed.
Print Assumptions C45_unique.
Example C45_unique_ex : unique (fun a b => Nat.eqb (a / 10) (b / 10)) [11; 23; 15; 30; 21; 4] = [11; 23; 30; 4]
  /\ equivalence (fun a b => Nat.eqb (a / 10) (b / 10)).
Proof.
  split; [reflexivity|]. repeat split; intros.
  - apply Nat.eqb_refl.
  - apply Nat.eqb_sym.
  - apply Nat.eqb_eq in H, H0. apply Nat.eqb_eq. congruence.
Qed.

(** C45, [eq_elems]: equality as multisets, up to the given equality. *)
Theorem C45_eq_elems (A : Type) (eqb : A -> A -> bool) :
  equivalence eqb -> forall xs ys : list A,
  eq_elems eqb xs ys = true <-> exists ys', Permutation ys ys' /\ Forall2 (fun x y => eqb x y = true) xs ys'.
Proof. intros (_ & S & T). exact (eq_elems_iff eqb S T). Qed.
Print Assumptions C45_eq_elems.
Example C45_eq_elems_ex : eq_elems Nat.eqb [1; 2; 1] [2; 1; 1] = true /\ eq_elems Nat.eqb [1; 2; 1] [2; 1; 2] = false.
Proof. split; reflexivity. Qed.

(** C45, [chunk] with a positive step: the pieces concatenate to the input; all are non-empty, none exceeds n and all
    but the last have exactly n elements. *)
Theorem C45_chunk (A : Type) (xs : list A) (n : Z) :
  (0 < n)%Z -> exists cs, chunk xs n = Ok cs /\ concat cs = xs /\
  forall i c, nth_error cs i = Some c ->
    c <> [] /\ length c <= Z.to_nat n /\ (S i < length cs -> length c = Z.to_nat n).
Proof. exact (chunk_spec xs n). Qed.
Print Assumptions C45_chunk.
Example C45_chunk_ex : chunk [1; 2; 3; 4; 5] 2 = Ok [[1; 2]; [3; 4]; [5]].
Proof. reflexivity. Qed.

(** C45, [group_by]: a key is present iff some element has it, and maps to the elements having it in input order. *)
Theorem C45_group_by (A K : Type) (keqb : K -> K -> bool) (f : A -> K) :
  (forall a b, keqb a b = true <-> a = b) -> forall (xs : list A),
  NoDup (map fst (group_by keqb f xs)) /\
  forall k, (forall l, In (k, l) (group_by keqb f xs) <-> l = filter (fun x => keqb (f x) k) xs /\ l <> []).
Proof. exact (group_by_spec keqb f). Qed.
Print Assumptions C45_group_by.
Example C45_group_by_ex : group_by Nat.eqb (fun x => x mod 3) [1; 2; 4; 3; 5] = [(1, [1; 4]); (2, [2; 5]); (0, [3])].
Proof. reflexivity. Qed.

(** C45, [update_dict_with]: entries of both dictionaries are combined with [f], the others are kept. *)
Theorem C45_update_dict_with (K V : Type) (keqb : K -> K -> bool) (f : V -> V -> V) :
  (forall a b, keqb a b = true <-> a = b) -> forall (d0 d1 : list (K * V)),
  NoDup (map fst d1) -> forall k,
  dict_get keqb (update_dict_with keqb f d0 d1) k
  = match dict_get keqb d0 k, dict_get keqb d1 k with
    | Some a, Some b => Some (f a b) | Some a, None => Some a | None, o => o end.
Proof. intros H d0 d1 N k. exact (update_dict_with_get keqb f H d0 d1 k N). Qed.
Print Assumptions C45_update_dict_with.
Example C45_update_dict_ex :
  update_dict_with Nat.eqb Nat.add [(1, 10); (2, 20)] [(2, 5); (3, 7)] = [(1, 10); (2, 25); (3, 7)].
Proof. reflexivity. Qed.

(** C45, [interval_overlap] of closed intervals: the length of the intersection, 0 if it is empty. *)
Theorem C45_interval_overlap (a b : Q * Q) :
  (forall lo hi, (lo <= hi)%Q ->
     (forall x, ((fst a <= x <= snd a)%Q /\ (fst b <= x <= snd b)%Q) <-> (lo <= x <= hi)%Q) ->
     (interval_overlap a b == hi - lo)%Q)
  /\ ((forall x, ~ ((fst a <= x <= snd a)%Q /\ (fst b <= x <= snd b)%Q)) -> (interval_overlap a b == 0)%Q).
Proof. split; [exact (interval_overlap_length a b)|exact (interval_overlap_empty a b)]. Qed.
Print Assumptions C45_interval_overlap.
Example C45_interval_overlap_ex : (interval_overlap (0, 3#1) (1, 5#1) == 2)%Q /\ (interval_overlap (0, 1) (2#1, 5#1) == 0)%Q.
Proof. split; reflexivity. Qed.

(** C46.  The full claim ([diff] removes one occurrence of every listed element that is present) is false: the first
    absent element ends the removal. *)
Theorem C46_diff_refuted : exists xs ys : list nat,
  ~ (forall v, count_occ Nat.eq_dec (diff Nat.eqb xs ys) v = count_occ Nat.eq_dec xs v - count_occ Nat.eq_dec ys v).
Proof. exists [1; 2], [3; 1]. intros H. specialize (H 1). discriminate H. Qed.
Print Assumptions C46_diff_refuted.
(** What holds: the claim when every listed element occurs often enough in xs (the way the search uses it), and the
    order of xs is kept in any case. *)
Theorem C46_diff_partial (A : Type) (eq_dec : forall x y : A, {x = y} + {x <> y}) (eqb : A -> A -> bool) :
  (forall x y, eqb x y = true <-> x = y) -> forall xs ys : list A,
  subseq (diff eqb xs ys) xs /\
  ((forall v, count_occ eq_dec ys v <= count_occ eq_dec xs v) ->
   forall v, count_occ eq_dec (diff eqb xs ys) v = count_occ eq_dec xs v - count_occ eq_dec ys v).
Proof. intros H xs ys. split; [exact (diff_subseq eqb xs ys)|exact (diff_count eq_dec eqb H xs ys)]. Qed.
Print Assumptions C46_diff_partial.
Example C46_diff_ex : diff Nat.eqb [1; 2; 1; 3] [3; 1] = [2; 1]
  /\ forall v, count_occ Nat.eq_dec [3; 1] v <= count_occ Nat.eq_dec [1; 2; 1; 3] v.
Proof. split; [reflexivity|]. intros v. do 4 (destruct v as [|v]; [simpl; lia|]). simpl; lia. Qed.

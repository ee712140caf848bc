(** Model of GPy_ABCD/Util/genericUtil.py. *)
From Coq Require Import List Bool Arith ZArith QArith Qminmax Lia.
From Verif Require Import Py.
Import ListNotations.

(** ** Higher-order functions *)

(** genericUtil.py:30-36 [full_step]: take out the first element satisfying [c]. *)
Fixpoint take_first {A : Type} (c : A -> bool) (xs : list A) : option (A * list A) :=
  match xs with
  | [] => None
  | x :: t => if c x then Some (x, t)
              else match take_first c t with Some (y, r) => Some (y, x :: r) | None => None end
  end.

(** genericUtil.py:14-40 [foldq].  The python [while] loop may not terminate when [g] adds elements, hence the
    fuel: [None] means "still running after [fuel] steps". *)
Section Foldq.
  Context {A B : Type} (f : B -> A -> B) (g : B -> A -> list A -> list A) (c : A -> bool).
  Fixpoint foldq (fuel : nat) (xs : list A) (acc : B) : option (B * list A) :=
    match xs with
    | [] => Some (acc, [])
    | _ => match take_first c xs with
           | None => Some (acc, xs)
           | Some (x, rest) =>
               match fuel with
               | O => None
               | S n => foldq n (g acc x rest) (f acc x)
               end
           end
    end.
  (** genericUtil.py:42-47 [foldq_]: ValueError on leftover elements. *)
  Definition foldq_strict (fuel : nat) (xs : list A) (acc : B) : option (res B) :=
    match foldq fuel xs acc with
    | None => None
    | Some (a, []) => Some (Ok a)
    | Some (_, _ :: _) => Some (Raise EValueError)
    end.
End Foldq.

(** genericUtil.py:50-54 [partition]: append each element to one of two lists. *)
Definition partition_py {A : Type} (p : A -> bool) (xs : list A) : list A * list A :=
  fold_left (fun acc x => if p x then (fst acc ++ [x], snd acc) else (fst acc, snd acc ++ [x])) xs ([], []).

(** genericUtil.py:57-61 [group_by]: defaultdict of lists, keys in order of first appearance. *)
Definition group_by {A K : Type} (keqb : K -> K -> bool) (f : A -> K) (xs : list A) : list (K * list A) :=
  fold_left (fun acc x =>
    let old := match dict_get keqb acc (f x) with Some l => l | None => [] end in
    dict_set keqb acc (f x) (old ++ [x])) xs [].

(** genericUtil.py:70 [first]. *)
Definition first {A : Type} (c : A -> bool) (xs : list A) (default : A) : A :=
  match find c xs with Some x => x | None => default end.

(** ** Iterable functions *)

(** genericUtil.py:77-81 [topological_sort] over (node, dependencies) pairs.  The update function keeps the number of
    remaining nodes, so [length] steps of fuel always suffice (proved: [topological_sort_total]). *)
Definition topological_sort {A : Type} (eqb : A -> A -> bool) (nodes : list (A * list A)) : option (res (list A)) :=
  foldq_strict
    (fun acc (x : A * list A) => acc ++ [fst x])
    (fun _ x xs => map (fun ad => (fst ad, filter (fun d => negb (eqb d (fst x))) (snd ad))) xs)
    (fun x => match snd x with [] => true | _ => false end)
    (length nodes) nodes [].

(** genericUtil.py:84 [flatten]. *)
Definition flatten {A : Type} (ll : list (list A)) : list A := concat ll.

(** genericUtil.py:87 [unzip] on pairs ([zip(star xs)] of 2-tuples; an empty input gives an empty list). *)
Definition unzip {A : Type} (l : list (A * A)) : list (list A) :=
  match l with [] => [] | _ => [map fst l; map snd l] end.

(** genericUtil.py:94-96 [unique]: keep an element if no kept element equals it. *)
Section Eq.
  Context {A : Type} (eqb : A -> A -> bool).
  Fixpoint unique_aux (seen xs : list A) : list A :=
    match xs with
    | [] => []
    | x :: t => if existsb (fun s => eqb s x) seen then unique_aux seen t
                else x :: unique_aux (seen ++ [x]) t
    end.
  Definition unique (xs : list A) : list A := unique_aux [] xs.

  (** genericUtil.py:100-105 [eq_elems]: remove each x from a copy of ys; false if one is missing or some y is left.
      [cys.remove(x)] compares [y == x] for each y. *)
  Fixpoint eq_elems (xs cys : list A) : bool :=
    match xs with
    | [] => match cys with [] => true | _ => false end
    | x :: t => match list_remove (fun y => eqb y x) cys with
                | None => false
                | Some cys' => eq_elems t cys'
                end
    end.

  (** genericUtil.py:109-114 [diff]: the ValueError of the first missing y ends the loop. *)
  Fixpoint diff (cxs ys : list A) : list A :=
    match ys with
    | [] => cxs
    | y :: t => match list_remove (fun x => eqb x y) cxs with
                | None => cxs
                | Some cxs' => diff cxs' t
                end
    end.
End Eq.

(** genericUtil.py:118 [chunk]: slices at range(0, len(xs), n); a zero step raises ValueError, a negative one gives nothing. *)
Definition chunk {A : Type} (xs : list A) (n : Z) : res (list (list A)) :=
  if (n =? 0)%Z then Raise EValueError
  else if (n <? 0)%Z then Ok []
  else let k := Z.to_nat n in
       Ok (map (fun i => firstn k (skipn (i * k) xs)) (seq 0 ((length xs + k - 1) / k))).

(** genericUtil.py:129-134 [update_dict_with]. *)
Definition update_dict_with {K V : Type} (keqb : K -> K -> bool) (f : V -> V -> V) (d0 d1 : list (K * V)) : list (K * V) :=
  fold_left (fun d kv => dict_set keqb d (fst kv)
                           (match dict_get keqb d (fst kv) with Some v0 => f v0 (snd kv) | None => snd kv end)) d1 d0.

(** genericUtil.py:137-138 [interval_overlap] (over rationals: every finite float is one). *)
Definition interval_overlap (a b : Q * Q) : Q :=
  Qmax 0 (Qmin (snd a) (snd b) - Qmax (fst a) (fst b)).

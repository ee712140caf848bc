(** Python primitives shared by all the models: exceptions as values, and the few list operations
    of the python standard library the code relies on. *)
From Coq Require Import List Bool Arith ZArith.
Import ListNotations.

(** Exceptions that the modelled code can raise (builtin classes only; messages are not modelled). *)
Inductive exn : Type :=
| ETypeError | EValueError | EKeyError | EIndexError | EAttributeError | EAssertionError
| ENotImplemented | EOther (code : nat).

(** Result of a python call: a value or a raised exception. *)
Inductive res (A : Type) : Type :=
| Ok (a : A)
| Raise (e : exn).
Arguments Ok {A} a.
Arguments Raise {A} e.

Definition bind {A B : Type} (m : res A) (f : A -> res B) : res B :=
  match m with Ok a => f a | Raise e => Raise e end.

Notation "'do' x <- m ; k" := (bind m (fun x => k)) (at level 200, x name, m at level 100, k at level 200).

Definition rmap {A B : Type} (f : A -> B) (m : res A) : res B :=
  match m with Ok a => Ok (f a) | Raise e => Raise e end.

(** Sequential evaluation of a list comprehension whose body can raise: the first exception wins. *)
Fixpoint mapM {A B : Type} (f : A -> res B) (xs : list A) : res (list B) :=
  match xs with
  | [] => Ok []
  | x :: t => do y <- f x; do ys <- mapM f t; Ok (y :: ys)
  end.

(** [l.remove(x)], where [p] tests equality with [x]: drop the first match, ValueError ([None]) if there is none. *)
Fixpoint list_remove {A : Type} (p : A -> bool) (l : list A) : option (list A) :=
  match l with
  | [] => None
  | y :: t => if p y then Some t else option_map (cons y) (list_remove p t)
  end.

(** [sorted(xs, key)] for a total preorder [le] on the keys: python's sort is stable, and a stable sort is
    determined by its input, so insertion sort computes the same list. *)
Section Sorting.
  Context {A : Type} (le : A -> A -> bool).
  Fixpoint insert_sorted (x : A) (l : list A) : list A :=
    match l with
    | [] => [x]
    | y :: t => if le x y then x :: y :: t else y :: insert_sorted x t
    end.
  Fixpoint py_sorted (l : list A) : list A :=
    match l with [] => [] | x :: t => insert_sorted x (py_sorted t) end.
End Sorting.

(** Association-list dictionaries (insertion ordered, as python's [dict]). *)
Section Dict.
  Context {K V : Type} (keqb : K -> K -> bool).
  Fixpoint dict_get (d : list (K * V)) (k : K) : option V :=
    match d with
    | [] => None
    | (k', v) :: t => if keqb k' k then Some v else dict_get t k
    end.
  (** [d[k] = v]: overwrite in place if present, else append. *)
  Fixpoint dict_set (d : list (K * V)) (k : K) (v : V) : list (K * V) :=
    match d with
    | [] => [(k, v)]
    | (k', v') :: t => if keqb k' k then (k', v) :: t else (k', v') :: dict_set t k v
    end.
  Definition dict_has (d : list (K * V)) (k : K) : bool :=
    match dict_get d k with Some _ => true | None => false end.
  (** [del d[k]] for a present key (first and only binding of [k]). *)
  Definition dict_del (d : list (K * V)) (k : K) : list (K * V) :=
    filter (fun kv => negb (keqb (fst kv) k)) d.
End Dict.

(** Specification of GPModel's behaviour over call histories. *)
From Coq Require Import String List Bool ZArith.
From Verif Require Import Py KexModel GpModel.
Import ListNotations.

(** interpret and sum_of_prods_kex calls *)
Definition describing {P Sc : Type} (c : call P Sc) : Prop := match c with CSumOfProds | CInterpret => True | _ => False end.
Definition is_fit {P Sc : Type} (c : call P Sc) : Prop := match c with CFit _ => True | _ => False end.

(** What interpret should return given the current regression object: its description, or ValueError if there is none. *)
Definition description {P C T : Type} (canonical : P -> kex -> res C) (describe : C -> res T) (k : kex) (p : option P) : res T :=
  match p with None => Raise EValueError | Some p => bind (canonical p k) describe end.

(** The last restarts value given to fit in a history. *)
Definition last_restarts {P Sc : Type} (h : list (call P Sc)) : option Z :=
  fold_left (fun acc c => match c with CFit (Some n) => Some n | _ => acc end) h None.

(** The value of restarts a fit(r) after the history [h] uses. *)
Definition used_restarts {P Sc : Type} (r : option Z) (h : list (call P Sc)) : option Z := match r with Some n => Some n | None => last_restarts h end.

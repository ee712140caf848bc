(** What the number of parameters of an expression should be (C65). *)
From Coq Require Import List Bool Arith ZArith.
From Verif Require Import Py KexModel KexSpec SemSpec.
Import ListNotations.

(** The parameters of a base kernel other than its variance: the offset of LIN, the lengthscale of SE, the period and lengthscale of PER. *)
Definition shape_parameters (offset : bool) (b : base) : nat :=
  match b with bLIN => if offset then 1 else 0 | bSE => 1 | bPER => 2 | _ => 0 end.
(** The parameters of a change: a location; the width of a window; a slope unless slopes are fixed. *)
Definition change_parameters (fixed : bool) (c : cpcw) : nat :=
  (if fixed then 0 else 1) + match c with CP => 1 | CW => 2 end.
Definition total_of {A : Type} (f : A -> nat) (l : list A) : nat := fold_right (fun x s => f x + s) 0 l.

(** One variance for each base kernel of a sum or branch of a change, one for all the base kernels of a product. *)
Definition variances (k : kind) (bs : list base) : nat :=
  match k with KSum => length bs | KProd => match bs with [] => 0 | _ => 1 end end.
Fixpoint free_parameters (offset fixed : bool) (e : kex) : nat :=
  match e with
  | Comm k bts cts =>
      variances k (bases_in bts) + total_of (shape_parameters offset) (bases_in bts) + total_of (free_parameters offset fixed) cts
  | Change c l r =>
      match l with inl b => 1 + shape_parameters offset b | inr x => free_parameters offset fixed x end
      + match r with inl b => 1 + shape_parameters offset b | inr x => free_parameters offset fixed x end
      + change_parameters fixed c
  end.

(** What the texts of C13 and C14 mean. *)
From Coq Require Import String Ascii List Bool Arith ZArith Reals.
From Verif Require Import Py KexModel KexSpec KernModel SemModel SemSpec PySpec.
Import ListNotations.
Local Open Scope string_scope.
Local Open Scope list_scope.

(** * Evaluating constructor calls (C13) *)
Definition name_of (s : string) : option base :=
  if s =? "WN" then Some bWN else if s =? "C" then Some bC else if s =? "LIN" then Some bLIN else if s =? "SE" then Some bSE
  else if s =? "PER" then Some bPER else if s =? "S" then Some bS else if s =? "Sr" then Some bSr else if s =? "SI" then Some bSI
  else if s =? "SIr" then Some bSIr else None.
Definition kind_of (s : string) : option kind := if s =? "SumKE" then Some KSum else if s =? "ProductKE" then Some KProd else None.
Definition change_of (s : string) : option cpcw := if s =? "CP" then Some CP else if s =? "CW" then Some CW else None.
Inductive pyval : Type := VStr (s : string) | VKex (e : kex) | VList (l : list pyval).
Fixpoint all_some {A : Type} (l : list (option A)) : option (list A) :=
  match l with
  | [] => Some []
  | None :: _ => None
  | Some x :: t => match all_some t with Some r => Some (x :: r) | None => None end
  end.
Definition as_base (v : pyval) : option base := match v with VStr s => name_of s | _ => None end.
Definition as_kex (v : pyval) : option kex := match v with VKex e => Some e | _ => None end.
Definition as_branch (v : pyval) : option branch :=
  match v with VKex e => Some (inr e) | VStr s => match name_of s with Some b => Some (inl b) | None => None end | _ => None end.
(** SumKE(names), SumKE(names, expressions), ProductKE likewise, ChangeKE(name, branch, branch): the constructors, which simplify. *)
Definition construct (offset : bool) (f : string) (args : list pyval) : option kex :=
  match args with
  | [VList bases] =>
      match kind_of f, all_some (map as_base bases) with Some k, Some bs => Some (mkl offset k bs []) | _, _ => None end
  | [VList bases; VList cts] =>
      match kind_of f, all_some (map as_base bases), all_some (map as_kex cts) with
      | Some k, Some bs, Some es => Some (mkl offset k bs es)
      | _, _, _ => None
      end
  | [VStr c; l; r] =>
      match f =? "ChangeKE", change_of c, as_branch l, as_branch r with
      | true, Some c, Some l, Some r => Some (mk_change offset c l r)
      | _, _, _, _ => None
      end
  | _ => None
  end.
Fixpoint evaluate (offset : bool) (p : pyexp) : option pyval :=
  match p with
  | PStr s => Some (VStr s)
  | PList l => match all_some (map (evaluate offset) l) with Some vs => Some (VList vs) | None => None end
  | PCall f args =>
      match all_some (map (evaluate offset) args) with
      | Some vs => match construct offset f vs with Some e => Some (VKex e) | None => None end
      | None => None
      end
  | _ => None
  end.
(** eval(s) returns the expression [e]. *)
Definition evaluates (offset : bool) (s : string) (e : kex) : Prop := exists p, reads s p /\ evaluate offset p = Some (VKex e).

(** * The covariance functions of a formula (C14) *)
Fixpoint formula_covariances (offset : bool) (p : pyexp) : family :=
  match p with
  | PName b => match name_of b with Some b => base_family offset b | None => fun _ => False end
  | PAdd a b => combine2 KSum (formula_covariances offset a) (formula_covariances offset b)
  | PMul a b => combine2 KProd (formula_covariances offset a) (formula_covariances offset b)
  | PCall c [a; b] =>
      match change_of c with
      | Some c => change_family c (formula_covariances offset a) (formula_covariances offset b)
      | None => fun _ => False
      end
  | _ => fun _ => False
  end.

(** A kernel object with all the variances of its base kernels among its parameters. *)
Fixpoint all_free (g : gkern) : gkern :=
  match g with
  | GBase b _ => GBase b true
  | GAdd a b => GAdd (all_free a) (all_free b)
  | GMul a b => GMul (all_free a) (all_free b)
  | GChange c a b => GChange c (all_free a) (all_free b)
  end.

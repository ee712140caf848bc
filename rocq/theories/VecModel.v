(** Model of the data generators of GPy_ABCD/Util/dataAndPlottingUtil.py and of the sample plots of GPy_ABCD/Util/kernelUtil.py, with the
    difference between python's integers and floats, on which numpy's vectorize depends.

    Floats are rationals (no rounding, NaN or infinities).  Functions of one number are total: exceptions that they may raise are not modelled. *)
From Coq Require Import List ZArith QArith Bool.
From Verif Require Import Py.
Import ListNotations.
Local Open Scope list_scope.
Local Close Scope Q_scope.

(** A python number: an int or a float. *)
Inductive num : Type := Int (z : Z) | Float (q : Q).
Definition to_Q (v : num) : Q := match v with Int z => inject_Z z | Float q => q end.
Definition is_float (v : num) : bool := match v with Int _ => false | Float _ => true end.

(** python's arithmetic: ints stay ints among themselves, otherwise floats. *)
Definition arith (fz : Z -> Z -> Z) (fq : Q -> Q -> Q) (a b : num) : num :=
  match a, b with Int x, Int y => Int (fz x y) | _, _ => Float (fq (to_Q a) (to_Q b)) end.
Definition nadd := arith Z.add Qplus.
Definition nsub := arith Z.sub Qminus.
Definition nmul := arith Z.mul Qmult.
(** python's < *)
Definition nltb (a b : num) : bool := match (to_Q a ?= to_Q b)%Q with Lt => true | _ => false end.

(** numpy: conversion of one number to an integer array's type drops the digits after the point; to a float array's it is exact. *)
Definition truncate (q : Q) : Z := Z.quot (Qnum q) (Zpos (Qden q)).
Definition cast (float : bool) (v : num) : num :=
  if float then Float (to_Q v) else match v with Int z => Int z | Float q => Int (truncate q) end.
(** numpy: np.array of a list of numbers has the type float if one of them is a float. *)
Definition asarray (xs : list num) : list num := map (cast (existsb is_float xs)) xs.
(** numpy: np.vectorize(f)(xs) without otypes: ValueError for no elements; the type of the result is the type of the first value. *)
Definition vectorize (f : num -> num) (xs : list num) : res (list num) :=
  match xs with
  | [] => Raise EValueError
  | x :: _ => Ok (map (fun y => cast (is_float (f x)) (f y)) xs)
  end.

(** dataAndPlottingUtil.py:21-28 [cp_f_maker], on one number (np.vectorize is applied in [generate]) *)
Definition cp_f (f1 f2 : num -> num) (cp : num) (line_up : bool) (x : num) : num :=
  if line_up
  then if nltb x cp then f1 x else nadd (nsub (f1 cp) (f2 cp)) (f2 x)
  else if nltb x cp then f1 x else f2 x.
(** dataAndPlottingUtil.py:30-38 [cw_f_maker], on one number; the recursive call is at cw_end, which is not above cw_end ([at_end]). *)
Definition cw_f (f1 f2 : num -> num) (cw_start cw_end : num) (line_up : bool) (x : num) : num :=
  let inside x := nadd (nsub (f1 cw_start) (f2 cw_start)) (f2 x) in
  let at_end := if nltb cw_end cw_start then f1 cw_end else inside cw_end in
  if line_up
  then if nltb x cw_start then f1 x
       else if nltb cw_end x then nadd (nsub at_end (f1 cw_end)) (f1 x)
       else inside x
  else if (nltb x cw_start || nltb cw_end x)%bool then f1 x else f2 x.

(** numpy: elementwise [+] and [*] of an array with an array of the same size or with a number; the type of the result is float if one of the
    operands is a float, as for single numbers.  np.random.randn gives floats ([noise], one for each data point). *)
Fixpoint map2 {A B C} (f : A -> B -> C) (xs : list A) (ys : list B) : list C :=
  match xs, ys with x :: xs, y :: ys => f x y :: map2 f xs ys | _, _ => [] end.
(** What the three generators do after the function of one number is chosen. *)
Definition generate (f : num -> num) (X : list num) (Y_weight noise_weight : num) (noise : list Q) : res (list num * list num) :=
  let X := asarray X in
  do Y <- vectorize f X;
  Ok (X, map2 nadd (map (fun y => nmul y Y_weight) Y) (map (fun e => nmul (Float e) noise_weight) noise)).

(** dataAndPlottingUtil.py:41-44 [generate_data] *)
Definition generate_data (f : num -> num) := generate f.
(** dataAndPlottingUtil.py:48-51 [generate_changepoint_data] *)
Definition generate_changepoint_data (X : list num) (f1 f2 : num -> num) (cp Y_weight noise_weight : num) (line_up : bool) (noise : list Q) :=
  generate (cp_f f1 f2 cp line_up) X Y_weight noise_weight noise.
(** dataAndPlottingUtil.py:55-58 [generate_changewindow_data] *)
Definition generate_changewindow_data (X : list num) (f1 f2 : num -> num) (cw_start cw_end Y_weight noise_weight : num) (line_up : bool)
    (noise : list Q) :=
  generate (cw_f f1 f2 cw_start cw_end line_up) X Y_weight noise_weight noise.

(** kernelUtil.py:11-23 [sampleCurves]: the sampled curves are the columns 1 .. n of a table whose column 0 is X; those drawn are the columns
    listed in value_vars, list(range(n))[1:].  (pd.melt keeps the order of value_vars.) *)
Definition sampleCurves {A} (curves : list A) : list A :=
  let columns := combine (seq 1 (length curves)) curves in
  let value_vars := skipn 1 (seq 0 (length curves)) in
  flat_map (fun v => map snd (filter (fun c => Nat.eqb (fst c) v) columns)) value_vars.
(** dataAndPlottingUtil.py:13-17 [gg_f_plot]: the points of the plotted line *)
Definition gg_f_plot (f : num -> num) (X : list num) : res (list (num * num)) :=
  let X := asarray X in do Y <- vectorize f X; Ok (combine X Y).

(** Model of the scores (Util/modelUtil.py) and of the synthetic change data (Util/dataAndPlottingUtil.py), over the reals. *)
From Coq Require Import Reals List Bool Arith.
From Verif Require Import Py KernModel.
Local Open Scope R_scope.

(** modelUtil.py:12 [BIC]: m is not used; n and k are the numbers of data points and of parameters *)
Definition BIC (ll : R) (n k : nat) : R := -2 * ll + INR k * ln (INR n).
(** modelUtil.py:13 [AIC] *)
Definition AIC (ll : R) (n k : nat) : R := 2 * (- ll + INR k).
(** modelUtil.py:14 [AICc]; the division by zero at n = k + 1 is an exception here (with numpy integers it is an infinite value). *)
Definition AICc (ll : R) (n k : nat) : res R :=
  if Nat.eqb n (k + 1) then Raise (EOther 0)
  else Ok (2 * (- ll + INR k + (INR k ^ 2 + INR k) / (INR n - INR k - 1))).

(** dataAndPlottingUtil.py:21-28 [cp_f_maker] *)
Definition cp_f_maker (f1 f2 : R -> R) (cp : R) (line_up : bool) : R -> R :=
  let cp_f x := if Rltb x cp then f1 x else f2 x in
  let cp_f_lined_up x := if Rltb x cp then f1 x else (f1 cp - f2 cp) + f2 x in
  if line_up then cp_f_lined_up else cp_f.
(** dataAndPlottingUtil.py:30-38 [cw_f_maker].  The recursive call is at cw_end, which is not above cw_end, so it takes one of the other two
    branches: [at_end]. *)
Definition cw_f_maker (f1 f2 : R -> R) (cw_start cw_end : R) (line_up : bool) : R -> R :=
  let cw_f x := if (Rltb x cw_start || Rltb cw_end x)%bool then f1 x else f2 x in
  let inside x := (f1 cw_start - f2 cw_start) + f2 x in
  let at_end := if Rltb cw_end cw_start then f1 cw_end else inside cw_end in
  let cw_f_lined_up x :=
    if Rltb x cw_start then f1 x
    else if Rltb cw_end x then (at_end - f1 cw_end) + f1 x
    else inside x in
  if line_up then cw_f_lined_up else cw_f.

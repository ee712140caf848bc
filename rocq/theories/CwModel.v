(** Model of GPy_ABCD/Kernels/changeWindowShiftedSides.py and changeWindowThreePart.py over the real numbers (C57).
    The first is the change window used when the configuration has USE_INDEPENDENT_SIDES_CHANGEWINDOW_KERNEL (baseKernels.py:65-66).
    Not modelled: update_gradients_diag (it passes vectors to update_gradients_full), and the gradients of the three-part window, which
    replace its parameters by bounded ones (changeWindowThreePart.py:74-93). *)
From Coq Require Import Reals List Bool Arith.
From Verif Require Import Py KernModel.
Import ListNotations.
Local Open Scope R_scope.

(** The sigmoids after parameters_changed (changeWindowShiftedSides.py:51-64): the reverse one at the location, the indicator, and the
    ascending one at location + width; variance 1. *)
Definition side_left (location slope : R) (X : mat) (X2 : option mat) : res mat := basis_K 1 (phi_S location slope true) X (or_self X X2).
Definition side_mid (location slope width : R) (X : mat) (X2 : option mat) : res mat := basis_K 1 (phi_SI location slope width false) X (or_self X X2).
Definition side_right (location slope width : R) (X : mat) (X2 : option mat) : res mat := basis_K 1 (phi_S (location + width) slope false) X (or_self X X2).

(** changeWindowShiftedSides.py:66-69 [K] *)
Definition shifted_K (location slope width shift_variance : R) (first second : kernel) (X : mat) (X2 : option mat) : res mat :=
  do f <- kK first X X2; do sr <- side_left location slope X X2; do a <- mmul f sr;
  do g <- kK second X X2; do si <- side_mid location slope width X X2; do b <- mmul g si;
  do f' <- kK first X X2; do s <- side_right location slope width X X2; do c <- mmul (mmap (fun v => v + shift_variance) f') s;
  do ab <- madd a b; madd ab c.
(** changeWindowShiftedSides.py:71-74 [Kdiag] *)
Definition shifted_Kdiag (location slope width shift_variance : R) (first second : kernel) (X : mat) : nat -> R := fun i =>
  kKdiag first X i * basis_Kdiag 1 (phi_S location slope true) X i + kKdiag second X i * basis_Kdiag 1 (phi_SI location slope width false) X i
  + (kKdiag first X i + shift_variance) * basis_Kdiag 1 (phi_S (location + width) slope false) X i.
(** changeWindowShiftedSides.py:98-116 [update_gradients_full]: the gradients of first, of second, of location, slope and width, and of
    shift_variance *)
Definition shifted_update_gradients_full (location slope width : R) (first second : kernel) (dL_dK X : mat) (X2 : option mat)
  : res (list R * list R * list R * R) :=
  do si <- side_mid location slope width X X2; do d2 <- mmul dL_dK si; do g2 <- kgrad second d2 X X2;
  do k2 <- kK second X X2; do ds <- mmul dL_dK k2; do gs <- SI_update_gradients_full 1 location slope width false ds X X2;
  do sr <- side_left location slope X X2; do s <- side_right location slope width X X2; do w1 <- madd sr s; do d1 <- mmul dL_dK w1;
  do g1 <- kgrad first d1 X X2;
  do d3 <- mmul dL_dK s;
  Ok (g1, g2, [fst (fst gs); snd (fst gs); snd gs], msum d3).
Definition shifted_kernel (location slope width shift_variance : R) (first second : kernel) : kernel :=
  {| kK := shifted_K location slope width shift_variance first second; kKdiag := shifted_Kdiag location slope width shift_variance first second;
     kgrad := fun dL X X2 => do g <- shifted_update_gradients_full location slope width first second dL X X2;
                             Ok (fst (fst (fst g)) ++ snd (fst (fst g)) ++ snd (fst g) ++ [snd g]) |}.

(** changeWindowThreePart.py:64-66 [K] *)
Definition three_K (location slope width : R) (first second third : kernel) (X : mat) (X2 : option mat) : res mat :=
  do f <- kK first X X2; do sr <- side_left location slope X X2; do a <- mmul f sr;
  do g <- kK second X X2; do si <- side_mid location slope width X X2; do b <- mmul g si;
  do h <- kK third X X2; do s <- side_right location slope width X X2; do c <- mmul h s;
  do ab <- madd a b; madd ab c.
(** changeWindowThreePart.py:68-70 [Kdiag] *)
Definition three_Kdiag (location slope width : R) (first second third : kernel) (X : mat) : nat -> R := fun i =>
  kKdiag first X i * basis_Kdiag 1 (phi_S location slope true) X i + kKdiag second X i * basis_Kdiag 1 (phi_SI location slope width false) X i
  + kKdiag third X i * basis_Kdiag 1 (phi_S (location + width) slope false) X i.
(** Its gradients are not modelled: any function. *)
Definition three_kernel (unmodelled : mat -> mat -> option mat -> res (list R)) (location slope width : R) (first second third : kernel) : kernel :=
  {| kK := three_K location slope width first second third; kKdiag := three_Kdiag location slope width first second third; kgrad := unmodelled |}.

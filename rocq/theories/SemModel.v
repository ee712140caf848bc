(** Model of to_kernel: from kernel expressions to GPy kernels (commutatives.py:26-27, 84-88, change.py:83-86,
    kernelOperations.py:8-9, kernelInterpretation.py:9-10). *)
From Coq Require Import Reals List Bool Arith ZArith.
From Verif Require Import Py KexModel KernModel KernSpec.
Import ListNotations.

(** kernelInterpretation.py:9-10 [order_base_kerns] *)
Definition interp_order (b : base) : nat :=
  match b with bPER => 0 | bSE => 1 | bC => 2 | bWN => 3 | bLIN => 4 | bSr => 5 | bS => 6 | bSIr => 7 | bSI => 8 end.
Definition order_base_kerns (bs : list base) : list base := py_sorted (fun a b => Nat.leb (interp_order a) (interp_order b)) bs.

(** A kernel object with free parameters: a base kernel with ([true]) or without ([false]) its variance among the
    parameters, a GPy sum or product of two kernels, a change kernel.  GPy keeps nested sums in one flat list of
    parts; the sum is the same. *)
Inductive gkern : Type :=
| GBase (b : base) (variance : bool)
| GAdd (k1 k2 : gkern)
| GMul (k1 k2 : gkern)
| GChange (c : cpcw) (k1 k2 : gkern).

(** kernelOperations.py:8-9: the sigmoids are not in the dictionary. *)
Definition base_str_to_ker (b : base) : res gkern := if is_sigmoid b then Raise EKeyError else Ok (GBase b true).
(** [btk.unlink_parameter(btk.variance)] (commutatives.py:87): the variance stays at 1, its initial value. *)
Definition unlink_variance (k : gkern) : gkern := match k with GBase b _ => GBase b false | _ => k end.
(** functools.reduce without initial value: TypeError on an empty list. *)
Definition reduce1 (op : gkern -> gkern -> gkern) (l : list gkern) : res gkern :=
  match l with [] => Raise ETypeError | x :: t => Ok (fold_left op t x) end.
Definition seqM {A : Type} (l : list (res A)) : res (list A) := mapM (fun x => x) l.

Definition keep_first_variance (l : list gkern) : list gkern :=
  match l with [] => [] | x :: t => x :: map unlink_variance t end.

Fixpoint to_kernel (e : kex) : res gkern :=
  match e with
  | Comm KSum bts cts =>
      do bs <- mapM base_str_to_ker (order_base_kerns (celements bts));
      do cs <- seqM (map to_kernel cts);
      reduce1 GAdd (bs ++ cs)
  | Comm KProd bts cts =>
      do bs <- mapM base_str_to_ker (order_base_kerns (celements bts));
      do cs <- seqM (map to_kernel cts);
      reduce1 GMul (keep_first_variance bs ++ cs)
  | Change c l r =>
      do lk <- (match l with inl b => base_str_to_ker b | inr x => to_kernel x end);
      do rk <- (match r with inl b => base_str_to_ker b | inr x => to_kernel x end);
      Ok (GChange c lk rk)
  end.

(** The kernels that a kernel object with free parameters stands for, one for each choice of values of its parameters: variances, lengthscales, periods and
    widths positive (GPy's constraint), offsets and locations arbitrary; a variance that is not a parameter is 1; slopes are fixed at 0.5
    (config.__FIX_SIGMOIDAL_KERNELS_SLOPE, changeOperators.py:15). [offset] is config.__USE_LIN_KERNEL_HORIZONTAL_OFFSET. *)
Definition variance_value (free : bool) (v : R) : Prop := (0 < v)%R /\ (free = false -> v = 1%R).
Inductive instance (offset : bool) : gkern -> kernel -> Prop :=
| in_WN f v : variance_value f v -> instance offset (GBase bWN f) (white_kernel v)
| in_C f v : variance_value f v -> instance offset (GBase bC f) (bias_kernel v)
| in_LIN f v o : variance_value f v -> instance offset (GBase bLIN f) (if offset then lin_kernel v o else lin0_kernel v)
| in_SE f v l : variance_value f v -> (0 < l)%R -> instance offset (GBase bSE f) (rbf_kernel v l)
| in_PER f v p l : variance_value f v -> (0 < p)%R -> (0 < l)%R -> instance offset (GBase bPER f) (per_kernel bessel0 bessel1 v p l)
| in_add k1 k2 K1 K2 : instance offset k1 K1 -> instance offset k2 K2 -> instance offset (GAdd k1 k2) (add_kernel K1 K2)
| in_mul k1 k2 K1 K2 : instance offset k1 K1 -> instance offset k2 K2 -> instance offset (GMul k1 k2) (prod_kernel K1 K2)
| in_CP k1 k2 K1 K2 l : instance offset k1 K1 -> instance offset k2 K2 ->
    instance offset (GChange CP k1 k2) (change_kernel (ChangePoint l (1 / 2)) K1 K2)
| in_CW k1 k2 K1 K2 l w : (0 < w)%R -> instance offset k1 K1 -> instance offset k2 K2 ->
    instance offset (GChange CW k1 k2) (change_kernel (ChangeWindow l (1 / 2) w) K1 K2).

(** What the parameters of a kernel object should mean (C54). *)
From Coq Require Import Reals List Bool Arith.
From Verif Require Import Py KexModel KernModel KernSpec SemModel.
Import ListNotations.
Local Open Scope R_scope.

(** The covariance of a kernel at given values of its parameters, listed in order (parts first, then slope, location and width; a variance
    that is not a parameter is 1, a slope that is not a parameter is 1/2). *)
Definition is_variance (f : bool) (v : R) (vs : list R) : Prop := if f then vs = [v] else v = 1 /\ vs = [].
Definition is_slope (fixed : bool) (s : R) (vs : list R) : Prop := if fixed then s = 1 / 2 /\ vs = [] else vs = [s].
Inductive at_values (offset fixed : bool) : gkern -> list R -> kernel -> Prop :=
| av_WN f v vs : is_variance f v vs -> at_values offset fixed (GBase bWN f) vs (white_kernel v)
| av_C f v vs : is_variance f v vs -> at_values offset fixed (GBase bC f) vs (bias_kernel v)
| av_LIN f v o vs : is_variance f v vs -> offset = true -> at_values offset fixed (GBase bLIN f) (vs ++ [o]) (lin_kernel v o)
| av_LIN0 f v vs : is_variance f v vs -> offset = false -> at_values offset fixed (GBase bLIN f) vs (lin0_kernel v)
| av_SE f v l vs : is_variance f v vs -> at_values offset fixed (GBase bSE f) (vs ++ [l]) (rbf_kernel v l)
| av_PER f v p l vs : is_variance f v vs -> at_values offset fixed (GBase bPER f) (vs ++ [p; l]) (per_kernel bessel0 bessel1 v p l)
| av_add k1 k2 v1 v2 K1 K2 : at_values offset fixed k1 v1 K1 -> at_values offset fixed k2 v2 K2 -> at_values offset fixed (GAdd k1 k2) (v1 ++ v2) (add_kernel K1 K2)
| av_mul k1 k2 v1 v2 K1 K2 : at_values offset fixed k1 v1 K1 -> at_values offset fixed k2 v2 K2 -> at_values offset fixed (GMul k1 k2) (v1 ++ v2) (prod_kernel K1 K2)
| av_CP k1 k2 v1 v2 K1 K2 s vs l : at_values offset fixed k1 v1 K1 -> at_values offset fixed k2 v2 K2 -> is_slope fixed s vs ->
    at_values offset fixed (GChange CP k1 k2) ((v1 ++ v2) ++ vs ++ [l]) (change_kernel (ChangePoint l s) K1 K2)
| av_CW k1 k2 v1 v2 K1 K2 s vs l w : at_values offset fixed k1 v1 K1 -> at_values offset fixed k2 v2 K2 -> is_slope fixed s vs ->
    at_values offset fixed (GChange CW k1 k2) ((v1 ++ v2) ++ vs ++ [l; w]) (change_kernel (ChangeWindow l s w) K1 K2).

(** Two kernels compute the same covariances. *)
Definition same_covariance (k k' : kernel) : Prop := (forall X X2, kK k X X2 = kK k' X X2) /\ (forall X i, kKdiag k X i = kKdiag k' X i).

(** No change operator inside. *)
Fixpoint change_free (k : gkern) : Prop :=
  match k with GBase _ _ => True | GAdd k1 k2 | GMul k1 k2 => change_free k1 /\ change_free k2 | GChange _ _ _ => False end.

(** Which of the listed parameters belong to an operand of a change operator. *)
Definition base_arity (offset f : bool) (b : base) : nat :=
  (if f then 1 else 0) + match b with bLIN => if offset then 1 else 0 | bSE => 1 | bPER => 2 | _ => 0 end.
Fixpoint arity (offset fixed : bool) (k : gkern) : nat :=
  match k with
  | GBase b f => base_arity offset f b
  | GAdd k1 k2 | GMul k1 k2 => arity offset fixed k1 + arity offset fixed k2
  | GChange c k1 k2 => (arity offset fixed k1 + arity offset fixed k2) + ((if fixed then 0 else 1) + match c with CP => 1 | CW => 2 end)
  end.
Fixpoint in_operand (offset fixed : bool) (k : gkern) : list bool :=
  match k with
  | GBase b f => repeat false (base_arity offset f b)
  | GAdd k1 k2 | GMul k1 k2 => in_operand offset fixed k1 ++ in_operand offset fixed k2
  | GChange c k1 k2 => repeat true (arity offset fixed k1 + arity offset fixed k2) ++ repeat false ((if fixed then 0 else 1) + match c with CP => 1 | CW => 2 end)
  end.
(** [vs] where the mark is false, [us] where it is true. *)
Inductive mixed : list bool -> list R -> list R -> list R -> Prop :=
| mixed_nil : mixed [] [] [] []
| mixed_old m u us v vs r : mixed m us vs r -> mixed (true :: m) (u :: us) (v :: vs) (u :: r)
| mixed_new m u us v vs r : mixed m us vs r -> mixed (false :: m) (u :: us) (v :: vs) (v :: r).

(** ** Gradients (C55) *)
(** What the listed parameters are, in order. *)
Inductive role : Type := Variance | Offset | Lengthscale | Period | PerLengthscale | Slope | Location | Width.
Definition base_roles (offset f : bool) (b : base) : list role :=
  (if f then [Variance] else []) ++ match b with bLIN => if offset then [Offset] else [] | bSE => [Lengthscale] | bPER => [Period; PerLengthscale] | _ => [] end.
Fixpoint roles (offset fixed : bool) (k : gkern) : list role :=
  match k with
  | GBase b f => base_roles offset f b
  | GAdd k1 k2 | GMul k1 k2 => roles offset fixed k1 ++ roles offset fixed k2
  | GChange c k1 k2 => (roles offset fixed k1 ++ roles offset fixed k2) ++ (if fixed then [] else [Slope]) ++ match c with CP => [Location] | CW => [Location; Width] end
  end.
(** The values GPy's constraints allow: all positive but offsets and locations.  For the lengthscale of the periodic kernel, those for which the
    code uses the Bessel functions. *)
Definition allowed (r : role) (v : R) : Prop :=
  match r with Offset | Location => True | PerLengthscale => 0 < v < 10000 /\ 1 / v ^ 2 < 3.75 | _ => 0 < v end.
(** A parameter of a change operator itself. *)
Definition of_change (r : role) : bool := match r with Slope | Location | Width => true | _ => false end.
(** A list with the value at one position replaced. *)
Fixpoint set_nth (i : nat) (q : R) (vs : list R) : list R :=
  match vs, i with [], _ => [] | _ :: t, O => q :: t | v :: t, S j => v :: set_nth j q t end.

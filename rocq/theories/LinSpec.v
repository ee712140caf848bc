(** Specifications about the linear kernel in several dimensions (C70, C71). *)
From Coq Require Import Reals List Bool Arith.
From Verif Require Import Py KernModel KernSpec LinModel.
Import ListNotations.
Local Open Scope R_scope.

(** The variance that applies to dimension d: the common one, or with ARD the d-th. *)
Definition variance_of (k : linear) (d : nat) (v : R) : Prop :=
  if l_ARD k then nth_error (l_variance k) d = Some v else l_variance k = [v].
(** The same kernel with another d-th listed variance. *)
Definition with_variance (k : linear) (d : nat) (v : R) : linear :=
  Linear (l_dim k) (l_ARD k) (firstn d (l_variance k) ++ v :: skipn (S d) (l_variance k)).
(** Inputs: n points with q coordinates; the second argument of a covariance (none: the same points). *)
Definition points (n q : nat) (x : nat -> nat -> R) : mat := Mat n q x.
Definition second (q : nat) (Y : option (nat * (nat -> nat -> R))) : option mat := match Y with None => None | Some (m, y) => Some (points m q y) end.
Definition others (n : nat) (x : nat -> nat -> R) (Y : option (nat * (nat -> nat -> R))) : nat * (nat -> nat -> R) := match Y with None => (n, x) | Some p => p end.
(** The inputs with coordinate b of point a changed to t. *)
Definition moved (x : nat -> nat -> R) (a b : nat) (t : R) : nat -> nat -> R := fun i d => if Nat.eqb i a && Nat.eqb d b then t else x i d.
(** sum over the coordinates of variance * product *)
Definition inner (q : nat) (v : nat -> R) (a b : nat -> R) : R := sum_to q (fun d => v d * (a d * b d)).
(** A point with coordinate b increased by t. *)
Definition shifted (p : nat -> R) (b : nat) (t : R) : nat -> R := fun d => if Nat.eqb d b then p d + t else p d.
(** [g] is the mixed second derivative of f at (0, 0). *)
Definition second_derivative (f : R -> R -> R) (g : R) : Prop :=
  exists f', (forall s, derivable_pt_lim (f s) 0 (f' s)) /\ derivable_pt_lim f' 0 g.

(** Specifications about the numeric kernels. *)
From Coq Require Import Reals List Bool Arith.
From Coquelicot Require Import Coquelicot.
From Verif Require Import Py KernModel.
Import ListNotations.
Local Open Scope R_scope.

(** Sum over i < n. *)
Fixpoint sum_to (n : nat) (f : nat -> R) : R := match n with O => 0 | S m => sum_to m f + f m end.
(** Sum of the entries of an n x m array multiplied by weights. *)
Definition weighted_sum (n m : nat) (w k : nat -> nat -> R) : R := sum_to n (fun i => sum_to m (fun j => w i j * k i j)).

(** [g] is the derivative, with respect to a parameter at value [p], of the weighted sum of the entries [K p i j]. *)
Definition is_gradient (n m : nat) (w : nat -> nat -> R) (K : R -> nat -> nat -> R) (p g : R) : Prop :=
  derivable_pt_lim (fun q => weighted_sum n m w (K q)) p g.

Definition symmetric (n : nat) (w : nat -> nat -> R) : Prop := forall i j, (i < n)%nat -> (j < n)%nat -> w i j = w j i.

(** Covariance functions of data sets: [k x i j] is the covariance of the outputs number i and j of the data set with inputs x. *)
Definition kern : Type := (nat -> R) -> nat -> nat -> R.
(** Positive semidefinite n x n array. *)
Definition psd (n : nat) (A : nat -> nat -> R) : Prop := forall c, 0 <= sum_to n (fun i => sum_to n (fun j => c i * c j * A i j)).
(** Symmetric positive semidefinite on every data set. *)
Definition covariance (k : kern) : Prop := forall n x, symmetric n (k x) /\ psd n (k x).

(** The modified Bessel functions of order 0 and 1. *)
Definition bessel0 (z : R) : R := Series (fun k => (z / 2) ^ (2 * k) / (INR (fact k) * INR (fact k))).
Definition bessel1 (z : R) : R := Series (fun k => (z / 2) ^ (2 * k + 1) / (INR (fact k) * INR (fact (S k)))).

(** The result of an array computation is an n x m array with entries [k]. *)
Definition array (A : mat) (n m : nat) (k : nat -> nat -> R) : Prop :=
  nr A = n /\ nc A = m /\ forall i j, (i < n)%nat -> (j < m)%nat -> ent A i j = k i j.
Definition computes (r : res mat) (n m : nat) (k : nat -> nat -> R) : Prop := exists A, r = Ok A /\ array A n m k.

(** The second argument of a covariance: none (the data set itself), or another one with m points. *)
Definition other (n : nat) (x : nat -> R) (Y : option (nat * (nat -> R))) : nat * (nat -> R) := match Y with None => (n, x) | Some p => p end.
Definition other_mat (Y : option (nat * (nat -> R))) : option mat := match Y with None => None | Some (m, y) => Some (column m y) end.

(** Gradient computation: given dL_dK, X and X2, the gradients of the parameters. *)
Definition gradients : Type := mat -> mat -> option mat -> res (list R).
(** On every data set (X2 = None) and every symmetric dL_dK, the k-th gradient computed is the derivative of sum(dL_dK * K(X)) with respect
    to the parameter q of the kernels [ker q], at q = p. *)
Definition gradient_right (ker : R -> kernel) (G : gradients) (p : R) (k : nat) : Prop :=
  forall n x dL, array dL n n (ent dL) -> symmetric n (ent dL) ->
  exists g gk K, G dL (column n x) None = Ok g /\ nth_error g k = Some gk
    /\ (forall q, computes (kK (ker q) (column n x) None) n n (K q)) /\ is_gradient n n (ent dL) K p gk.
(** The same for every X2 with as many points as X. *)
Definition gradient_right_square (ker : R -> kernel) (G : gradients) (p : R) (k : nat) : Prop :=
  forall n x y dL, array dL n n (ent dL) -> symmetric n (ent dL) ->
  exists g gk K, G dL (column n x) (Some (column n y)) = Ok g /\ nth_error g k = Some gk
    /\ (forall q, computes (kK (ker q) (column n x) (Some (column n y))) n n (K q)) /\ is_gradient n n (ent dL) K p gk.
(** The same for every X2 and every dL_dK, symmetric or not. *)
Definition gradient_right_everywhere (ker : R -> kernel) (G : gradients) (p : R) (k : nat) : Prop :=
  forall n x Y dL, let (m, y) := other n x Y in array dL n m (ent dL) ->
  exists g gk K, G dL (column n x) (other_mat Y) = Ok g /\ nth_error g k = Some gk
    /\ (forall q, computes (kK (ker q) (column n x) (other_mat Y)) n m (K q)) /\ is_gradient n m (ent dL) K p gk.

(** A kernel that computes a symmetric covariance matrix and some gradients on every data set. *)
Definition works (k : kernel) : Prop :=
  forall n x, exists K, symmetric n K /\ computes (kK k (column n x) None) n n K
    /\ forall dL, array dL n n (ent dL) -> symmetric n (ent dL) -> exists g, kgrad k dL (column n x) None = Ok g.

(** Change operators with a non-zero slope (positive slope and width for a window). *)
Definition valid_change (c : change) : Prop := match c with ChangePoint _ s => s <> 0 | ChangeWindow _ s w => 0 < s /\ 0 < w end.
(** The gradients a change kernel sets for its first kernel, its second kernel and itself (location, slope, width). *)
Definition first_gradients (c : change) (first second : kernel) : gradients := fun dL X X2 => do g <- change_update_gradients_full c first second dL X X2; Ok (fst (fst g)).
Definition second_gradients (c : change) (first second : kernel) : gradients := fun dL X X2 => do g <- change_update_gradients_full c first second dL X X2; Ok (snd (fst g)).
Definition own_gradients (c : change) (first second : kernel) : gradients := fun dL X X2 => do g <- change_update_gradients_full c first second dL X X2; Ok (snd g).

(** On every data set, K(X) is a symmetric positive semidefinite array and Kdiag(X) is its diagonal. *)
Definition proper (k : kernel) : Prop :=
  forall n x, exists K, computes (kK k (column n x) None) n n K /\ symmetric n K /\ psd n K
    /\ forall i, (i < n)%nat -> kKdiag k (column n x) i = K i i.

(** The kernels that can be put together from the kernel classes with non-negative variances: all sums, products and changes of the base
    kernels, in any nesting.  For the periodic kernel the lengthscale is one for which the code uses the Bessel function itself (or its
    limit), not the polynomial approximation used when 1 / lengthscale^2 >= 3.75. *)
Inductive built_kernel : kernel -> Prop :=
| bk_white v : 0 <= v -> built_kernel (white_kernel v)
| bk_bias v : 0 <= v -> built_kernel (bias_kernel v)
| bk_lin v o : 0 <= v -> built_kernel (lin_kernel v o)
| bk_lin0 v : 0 <= v -> built_kernel (lin0_kernel v)
| bk_rbf v l : 0 <= v -> built_kernel (rbf_kernel v l)
| bk_per v p l : 0 <= v -> 0 < l -> 1 / l ^ 2 < 3.75 -> built_kernel (per_kernel bessel0 bessel1 v p l)
| bk_S v l s rev : 0 <= v -> built_kernel (S_kernel v l s rev)
| bk_SI v l s w rev : 0 <= v -> built_kernel (SI_kernel v l s w rev)
| bk_add a b : built_kernel a -> built_kernel b -> built_kernel (add_kernel a b)
| bk_prod a b : built_kernel a -> built_kernel b -> built_kernel (prod_kernel a b)
| bk_change c a b : built_kernel a -> built_kernel b -> built_kernel (change_kernel c a b).

(** Specifications about predictions (C63) and the leave-one-out score (C43). *)
From Coq Require Import Reals List Bool Arith.
From Coquelicot Require Import Coquelicot.
From Verif Require Import Py KernModel KernSpec PredModel.
Import ListNotations.
Local Open Scope R_scope.

(** Two data sets, one after the other. *)
Definition joined (n : nat) (x y : nat -> R) : nat -> R := fun i => if (i <? n)%nat then x i else y (i - n)%nat.
Definition delta (i j : nat) : R := if Nat.eqb i j then 1 else 0.
Definition inverse (n : nat) (A C : nat -> nat -> R) : Prop :=
  forall i j, (i < n)%nat -> (j < n)%nat -> sum_to n (fun k => A i k * C k j) = delta i j /\ sum_to n (fun k => C i k * A k j) = delta i j.

(** A regression object after exact inference on n observations y at x: [s] is the noise variance used (GPy adds a jitter to it). *)
Definition inferred (r : regression) (n : nat) (x y : nat -> R) (s : R) : Prop :=
  r_X r = column n x /\ 0 <= s
  /\ exists K C, computes (kK (r_kern r) (column n x) None) n n K /\ array (woodbury_inv r) n n C
      /\ inverse n (fun i j => K i j + s * delta i j) C
      /\ array (woodbury_vector r) n 1 (fun i _ => sum_to n (fun j => C i j * y j)).

(** Mean squared error of predicting output number n + t of the joined data, whose covariances are J, by the weighted sum, with weights a,
    of the outputs 0, ..., n - 1 observed with noise of variance s. *)
Definition mse (n : nat) (J : nat -> nat -> R) (s : R) (t : nat) (a : nat -> R) : R :=
  J (n + t)%nat (n + t)%nat - 2 * sum_to n (fun i => a i * J i (n + t)%nat) + sum_to n (fun i => sum_to n (fun j => a i * a j * (J i j + s * delta i j))).

(** The distribution function of the standard normal distribution, and of the one with mean m and variance v. *)
Definition Phi (z : R) : R := / 2 + RInt (fun t => exp (- t ^ 2 / 2) / sqrt (2 * PI)) 0 z.
Definition normal_cdf (m v x : R) : R := Phi ((x - m) / sqrt v).
Definition normal_density (m v y : R) : R := exp (- (y - m) ^ 2 / (2 * v)) / sqrt (2 * PI * v).
(** The variance of the t-th output according to a prediction. *)
Definition variance_at (p : prediction) (full_cov : bool) (t : nat) : R := ent (p_covariance p) t (if full_cov then t else 0%nat).

(** The prediction of y i from the other observations, with covariances A of the observations: weights that solve the normal equations. *)
Definition others_weights (n : nat) (A : nat -> nat -> R) (i : nat) (w : nat -> R) : Prop :=
  w i = 0 /\ forall a, (a < n)%nat -> a <> i -> sum_to n (fun j => w j * A j a) = A i a.

(** The terms of a sum of kernels (a kernel that is not taken apart is its own term) (C80). *)
Inductive terms_of : kernel -> list kernel -> Prop :=
| terms_one k : terms_of k [k]
| terms_add a b la lb : terms_of a la -> terms_of b lb -> terms_of (add_kernel a b) (la ++ lb).
(** Mean squared error of predicting the part with covariances P of output number n + t of the joined data, whose covariances are J. *)
Definition part_mse (n : nat) (P J : nat -> nat -> R) (s : R) (t : nat) (a : nat -> R) : R :=
  P (n + t)%nat (n + t)%nat - 2 * sum_to n (fun i => a i * P i (n + t)%nat) + sum_to n (fun i => sum_to n (fun j => a i * a j * (J i j + s * delta i j))).

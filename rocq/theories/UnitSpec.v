(** Specifications about the units in which data are given (C66). *)
From Coq Require Import Reals List Bool Arith.
From Verif Require Import Py KexModel KexSpec KernModel KernSpec SemModel SemSpec PredSpec.
Local Open Scope R_scope.

(** The covariances of the inputs in other units: multiplied by a, shifted by b. *)
Definition other_inputs (a b : R) (K : kern) : kern := fun x i j => K (fun n => a * x n + b) i j.
Definition other_outputs (c : R) (K : kern) : kern := fun x i j => c * K x i j.
Definition change_free (e : kex) : Prop := forall c l r, ~ node (Change c l r) e.

(** The determinant of an n x n array, along its first row. *)
Fixpoint det (n : nat) (A : nat -> nat -> R) : R :=
  match n with
  | O => 1
  | S m => sum_to n (fun j => (-1) ^ j * A 0%nat j * det m (fun i k => A (S i) (if (k <? j)%nat then k else S k)))
  end.
(** The log-density of n observations y under the zero-mean normal distribution with covariances A, not singular.  It is GPy's
    log_likelihood for a regression model whose kernel and noise give A (GPy: exact_gaussian_inference.py), model.py:66. *)
Definition log_density (n : nat) (A : nat -> nat -> R) (y : nat -> R) (L : R) : Prop :=
  exists W, inverse n A W /\ 0 < det n A /\
    L = - / 2 * sum_to n (fun i => sum_to n (fun j => y i * W i j * y j)) - / 2 * ln (det n A) - INR n / 2 * ln (2 * PI).
(** The log-likelihoods that a kernel object with free parameters and a noise variance can reach on n observations y at x. *)
Definition attainable (offset : bool) (g : gkern) (n : nat) (x y : nat -> R) (L : R) : Prop :=
  exists K s, kernel_family offset g K /\ 0 < s /\ log_density n (fun i j => K x i j + s * delta i j) y L.

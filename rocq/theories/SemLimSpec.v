(** Families of covariance functions up to limits (C02, C07). *)
From Coq Require Import Reals List.
From Verif Require Import KernModel KernSpec SemModel SemSpec.
Local Open Scope R_scope.

(** A covariance function whose matrix on any finite data set is approximated as closely as desired by members of the family. *)
Definition approximated (g : family) (K : kern) : Prop :=
  forall (x : nat -> R) (n : nat) (eps : R), 0 < eps ->
    exists K', g K' /\ forall i j, (i < n)%nat -> (j < n)%nat -> Rabs (K' x i j - K x i j) < eps.

(** Model of the number of parameters that the scores are given (Models/model.py:66-70). *)
From Coq Require Import Reals List Bool Arith ZArith.
From Verif Require Import Py KexModel KernModel SemModel ObjModel DataModel.
Import ListNotations.

Section Count.
  (** config.__USE_LIN_KERNEL_HORIZONTAL_OFFSET and config.__FIX_SIGMOIDAL_KERNELS_SLOPE *)
  Variables (offset fixed : bool).

  (** model.py:68 [_k]: [self.model._size_transformed()], the model being [GPRegression(X, Y, kex.to_kernel())] (model.py:18, 26).
      Assumed of GPy: this counts the parameters that are linked and not fixed, which are those of the kernel and the variance of the
      Gaussian noise. *)
  Definition number_of_parameters (e : kex) : res nat :=
    do g <- to_kernel e; do o <- new_object g; Ok (S (Datatypes.length (listed offset fixed o))).

  (** model.py:66-76 with the three likelihood scores of modelUtil.py:12-14: score(model, ll, n, k). *)
  Definition scored (score : R -> nat -> nat -> res R) (e : kex) (ll : R) (n : nat) : res R :=
    do k <- number_of_parameters e; score ll n k.
  Definition BIC_score (ll : R) (n k : nat) : res R := Ok (BIC ll n k).
  Definition AIC_score (ll : R) (n k : nat) : res R := Ok (AIC ll n k).
End Count.

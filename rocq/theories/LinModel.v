(** Model of the class Linear of GPy_ABCD/Kernels/linearKernel.py for any number of input dimensions, with one variance or one per dimension
    (ARD), including its derivatives with respect to the inputs.  Inputs have as many columns as the kernel has dimensions (GPy selects the
    active ones before).  [KernModel.lin0_kernel] is the one-dimensional case without ARD.  The psi statistics are not modelled. *)
From Coq Require Import Reals List Bool Arith.
From Verif Require Import Py KernModel.
Import ListNotations.
Local Open Scope R_scope.

Record linear : Type := Linear { l_dim : nat; l_ARD : bool; l_variance : list R }.

(** linearKernel.py:36-54 [__init__]; the variance is a sequence of numbers or None. *)
Definition new_linear (input_dim : nat) (ARD : bool) (variance : option (list R)) : res linear :=
  if negb ARD then
    match variance with
    | Some v => if Nat.eqb (length v) 1 then Ok (Linear input_dim ARD v) else Raise EAssertionError
    | None => Ok (Linear input_dim ARD [1])
    end
  else
    match variance with
    | Some v => if Nat.eqb (length v) input_dim then Ok (Linear input_dim ARD v) else Raise EAssertionError
    | None => Ok (Linear input_dim ARD (repeat 1 input_dim))
    end.

(** An array of one dimension in an operation with arrays of two. *)
Definition row (l : list R) : mat := Mat 1 (length l) (fun _ j => nth j l 0).
(** a.sum(0) and np.sum(a, -1) *)
Definition sum_columns (A : mat) : list R := map (fun j => rsum (nr A) (fun i => ent A i j)) (seq 0 (nc A)).
Definition sum_rows (A : mat) : list R := map (fun i => rsum (nc A) (fun j => ent A i j)) (seq 0 (nr A)).
(** a[:, None] *)
Definition as_column (l : list R) : mat := Mat (length l) 1 (fun i _ => nth i l 0).

Section Linear.
  Context (k : linear).
  (** linearKernel.py:80-84 [_dot_product]; GPy's tdot(X) is X . X^T *)
  Definition dot_product (X : mat) (X2 : option mat) : res mat := match X2 with None => mdot X (mT X) | Some X2 => mdot X (mT X2) end.
  (** linearKernel.py:68-77 [K] *)
  Definition linear_K (X : mat) (X2 : option mat) : res mat :=
    if l_ARD k then
      match X2 with
      | None => do A <- mmul X (row (map sqrt (l_variance k))); mdot A (mT A)
      | Some X2 => do A <- mmul X (row (map sqrt (l_variance k))); do B <- mmul X2 (row (map sqrt (l_variance k))); mdot A (mT B)
      end
    else do P <- dot_product X X2; mmul P (row (l_variance k)).
  (** linearKernel.py:86-87 [Kdiag] *)
  Definition linear_Kdiag (X : mat) : res (list R) := do A <- mmul (row (l_variance k)) (mmap (fun x => x ^ 2) X); Ok (sum_rows A).
  (** (dL_dK + dL_dK.T) / 2 if X2 is None *)
  Definition symmetrised (dL_dK : mat) (X2 : option mat) : res mat :=
    match X2 with None => do S <- madd dL_dK (mT dL_dK); Ok (mmap (fun a => a / 2) S) | Some _ => Ok dL_dK end.
  (** linearKernel.py:89-100 [update_gradients_full]: the gradient of the variance *)
  Definition linear_gradients_full (dL_dK X : mat) (X2 : option mat) : res (list R) :=
    do dL <- symmetrised dL_dK X2;
    if l_ARD k then do P <- mdot dL (or_self X X2); do M <- mmul P X; Ok (sum_columns M)
    else do P <- dot_product X X2; do M <- mmul P dL; Ok [msum M].
  (** linearKernel.py:102-107 [update_gradients_diag] *)
  Definition linear_gradients_diag (dL_dKdiag : list R) (X : mat) : res (list R) :=
    do tmp <- mmul (as_column dL_dKdiag) (mmap (fun x => x ^ 2) X);
    if l_ARD k then Ok (sum_columns tmp) else Ok [msum tmp].
  (** linearKernel.py:110-116 [gradients_X] *)
  Definition linear_gradients_X (dL_dK X : mat) (X2 : option mat) : res mat :=
    do dL <- symmetrised dL_dK X2;
    match X2 with
    | None => do P <- mdot dL X; mmul P (mmap (Rmult 2) (row (l_variance k)))
    | Some X2 => do P <- mdot dL X2; mmul P (row (l_variance k))
    end.
  (** linearKernel.py:118-140 [gradients_XX]: an array of four dimensions (points of X and X2, and two input dimensions). *)
  Definition linear_gradients_XX (dL_dK X : mat) (X2 : option mat) : (nat * nat * nat * nat) * (nat -> nat -> nat -> nat -> R) :=
    ((nr X, nr (or_self X X2), nc X, nc X), fun _ _ _ _ => 0).
  (** linearKernel.py:142-143 [gradients_X_diag] *)
  Definition linear_gradients_X_diag (dL_dKdiag : list R) (X : mat) : res mat :=
    do A <- mmul (mmap (Rmult 2) (row (l_variance k))) (as_column dL_dKdiag); mmul A X.
  (** linearKernel.py:153-154 [input_sensitivity] *)
  Definition linear_sensitivity : res (list R) :=
    do A <- mmul (Mat 1 (l_dim k) (fun _ _ => 1)) (row (l_variance k)); Ok (map (fun j => ent A 0 j) (seq 0 (nc A))).
End Linear.

(** Where a change happens (C56), and change windows with independent sides (C57). *)
From Coq Require Import Reals List Bool Arith.
From Verif Require Import Py KernModel KernSpec CwModel.
Import ListNotations.
Local Open Scope R_scope.

(** Within a fraction of a scale. *)
Definition close (eps scale a b : R) : Prop := Rabs (a - b) <= eps * scale.
(** A relation between the covariances, computed on any data sets, of two kernels and of a kernel made of them: [P x y k1 k2 k] for the
    points x, y and the three entries. *)
Definition entrywise (first second whole : kernel) (P : R -> R -> R -> R -> R -> Prop) : Prop :=
  forall n x Y, let (m, y) := other n x Y in forall K1 K2,
    computes (kK first (column n x) (other_mat Y)) n m K1 -> computes (kK second (column n x) (other_mat Y)) n m K2 ->
    exists K, computes (kK whole (column n x) (other_mat Y)) n m K
      /\ forall i j, (i < n)%nat -> (j < m)%nat -> P (x i) (y j) (K1 i j) (K2 i j) (K i j).

(** Both points, or one point each way. *)
Definition both (A : R -> Prop) (x y : R) : Prop := A x /\ A y.
Definition across (A B : R -> Prop) (x y : R) : Prop := A x /\ B y \/ B x /\ A y.

(** The gradients an independent-sides window sets for its first kernel, its second kernel, itself and its shift variance. *)
Definition shifted_first (l s w : R) (first second : kernel) : gradients := fun dL X X2 => do g <- shifted_update_gradients_full l s w first second dL X X2; Ok (fst (fst (fst g))).
Definition shifted_second (l s w : R) (first second : kernel) : gradients := fun dL X X2 => do g <- shifted_update_gradients_full l s w first second dL X X2; Ok (snd (fst (fst g))).
Definition shifted_own (l s w : R) (first second : kernel) : gradients := fun dL X X2 => do g <- shifted_update_gradients_full l s w first second dL X X2; Ok (snd (fst g)).
Definition shifted_shift (l s w : R) (first second : kernel) : gradients := fun dL X X2 => do g <- shifted_update_gradients_full l s w first second dL X X2; Ok [snd g].

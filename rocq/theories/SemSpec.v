(** The covariance functions an expression can express (C02, C07, C12, C30). *)
From Coq Require Import Reals List Bool Arith ZArith.
From Verif Require Import Py KexModel KexSpec KernModel KernSpec SemModel.
Import ListNotations.
Local Open Scope R_scope.

(** A family: a set of covariance functions of data sets. *)
Definition family : Type := kern -> Prop.
Definition same_family (f g : family) : Prop := forall K, f K <-> g K.

(** Sigmoid shapes of slope 1/2: S rises at the location, SI is the window between location and location + width; r: reversed. *)
Definition bump (phi : R -> R) (K : kern) : Prop := forall x i j, K x i j = phi (x i) * phi (x j).
(** All the covariance functions of a base kernel.  LIN has a horizontal offset only under the configuration flag. *)
Definition base_family (offset : bool) (b : base) : family := fun K =>
  match b with
  | bWN => exists v, 0 < v /\ forall x i j, K x i j = if Nat.eqb i j then v else 0
  | bC => exists v, 0 < v /\ forall x i j, K x i j = v
  | bLIN => exists v o, 0 < v /\ (offset = false -> o = 0) /\ forall x i j, K x i j = v * ((x i - o) * (x j - o))
  | bSE => exists v l, 0 < v /\ 0 < l /\ forall x i j, K x i j = v * exp (- (x i - x j) ^ 2 / (2 * l ^ 2))
  | bPER => exists v p l, 0 < v /\ 0 < p /\ 0 < l /\ forall x i j, K x i j = per_entry bessel0 v p l (x i - x j)
  | bS => exists l, bump (phi_S l (1 / 2) false) K
  | bSr => exists l, bump (phi_S l (1 / 2) true) K
  | bSI => exists l w, 0 < w /\ bump (phi_SI l (1 / 2) w false) K
  | bSIr => exists l w, 0 < w /\ bump (phi_SI l (1 / 2) w true) K
  end.

(** Sums and products of one member of each of two families. *)
Definition op (k : kind) : R -> R -> R := match k with KSum => Rplus | KProd => Rmult end.
Definition unit (k : kind) : R := match k with KSum => 0 | KProd => 1 end.
Definition combine2 (k : kind) (f g : family) : family := fun K =>
  exists K1 K2, f K1 /\ g K2 /\ forall x i j, K x i j = op k (K1 x i j) (K2 x i j).
Definition combine_all (k : kind) (fs : list family) : family :=
  fold_right (combine2 k) (fun K => forall x i j, K x i j = unit k) fs.
(** A change from one member to another: the first under the reversed sigmoid, the second under the sigmoid. *)
Definition change_family (c : cpcw) (f g : family) : family := fun K =>
  exists K1 K2 l w, f K1 /\ g K2 /\ 0 < w /\ forall x i j,
    let phi := match c with CP => phi_S l (1 / 2) | CW => phi_SI l (1 / 2) w end in
    K x i j = K1 x i j * (phi true (x i) * phi true (x j)) + K2 x i j * (phi false (x i) * phi false (x j)).

(** The base kernels of a sum or product, with their multiplicities. *)
Definition bases_in (bts : counter) : list base := concat (map (fun b => repeat b (Z.to_nat (cget bts b))) all_bases).

(** The covariance functions of an expression: each occurrence of a base kernel has its own parameters. *)
Fixpoint covariances (offset : bool) (e : kex) : family :=
  match e with
  | Comm k bts cts => combine_all k (map (base_family offset) (bases_in bts) ++ map (covariances offset) cts)
  | Change c l r =>
      change_family c (match l with inl b => base_family offset b | inr x => covariances offset x end)
                      (match r with inl b => base_family offset b | inr x => covariances offset x end)
  end.
Definition branch_covariances (offset : bool) (b : branch) : family :=
  match b with inl b => base_family offset b | inr x => covariances offset x end.

(** Expressions of actual base kernels (the sigmoids only occur in sum-of-products forms). *)
Definition sigmoid_free (e : kex) : Prop := forall b, is_sigmoid b = true -> ~ occurs b e.

(** What add and multiply can be given: base kernel names and non-empty expressions of actual base kernels. *)
Definition operand (offset : bool) (b : branch) : Prop :=
  match b with inl x => is_sigmoid x = false | inr e => built offset e /\ non_empty e /\ sigmoid_free e end.

(** Unchanged when all the inputs are shifted. *)
Definition translation_invariant (K : kern) : Prop := forall x t i j, K (fun n => x n + t) i j = K x i j.

(** What a kernel object computes on data sets (X2 = None). *)
Definition computes_kern (k : kernel) (K : kern) : Prop := forall n x, computes (kK k (column n x) None) n n (K x).

(** The covariance functions of a kernel object with free parameters: what it computes, for every choice of its parameters. *)
Definition kernel_family (offset : bool) (g : gkern) : family := fun K => exists k, instance offset g k /\ computes_kern k K.
(** The number of variances among the free parameters of a kernel object. *)
Fixpoint free_variances (g : gkern) : nat :=
  match g with
  | GBase _ f => if f then 1 else 0
  | GAdd a b | GMul a b | GChange _ a b => free_variances a + free_variances b
  end%nat.

(** Properties of the numeric kernels: C38, C39, C40, C41, C42, C53. *)
From Coq Require Import Reals List Bool Arith ZArith Lra Lia.
From Verif Require Import Py KernModel KernSpec KernSig KernGrad4 KernGrad5 KernGrad6 KernProper.
Import ListNotations.
Local Open Scope R_scope.

(** C38: the sigmoid is increasing, strictly between 0 and 1, 1/2 at the location; the reverse one is its complement; the coded derivative is
    the derivative. *)
Theorem C38_sigmoid : forall l s, 0 < s ->
  (forall x y, x < y -> phi_S l s false x < phi_S l s false y)
  /\ (forall x, 0 < phi_S l s false x < 1) /\ phi_S l s false l = / 2
  /\ (forall x, phi_S l s true x = 1 - phi_S l s false x)
  /\ (forall a, derivable_pt_lim sigmoid_function a (sigmoid_function_d a)).
Proof. exact phi_S_props. Qed.
Print Assumptions C38_sigmoid.
Example C38_example : phi_S 3 2 false 5 = 3 / 4 /\ phi_S 3 2 true 5 = 1 / 4.
Proof. unfold phi_S, sigmoid_function. replace ((5 - 3) / 2) with 1 by field. rewrite Rabs_R1. lra. Qed.

(** C39: the window function is in (0, 1], is 1 exactly at the centre of the window and symmetric about it; the reverse one is its complement. *)
Theorem C39_window : forall l s w, 0 < s -> 0 < w ->
  (forall x, 0 < phi_SI l s w false x <= 1)
  /\ (forall x, phi_SI l s w false x = 1 <-> x = l + w / 2)
  /\ (forall d, phi_SI l s w false (l + w / 2 + d) = phi_SI l s w false (l + w / 2 - d))
  /\ (forall x, phi_SI l s w true x = 1 - phi_SI l s w false x).
Proof. exact phi_SI_props. Qed.
Print Assumptions C39_window.
Example C39_example : phi_SI 0 1 2 false 1 = 1 /\ phi_SI 0 1 2 true 1 = 0.
Proof. unfold phi_SI, core_sigmoid_function, sigmoid_function. replace ((1 - 0) / 1) with 1 by field. replace ((1 - 0 - 2) / - (1)) with 1 by field. replace (2 / (2 * 1)) with 1 by field. rewrite Rabs_R1. split; field. Qed.

(** C40 is false: the gradient a change point sets for its location is not the derivative (the effect on the first kernel's side is left out). *)
Theorem C40_refuted : exists c first second p k,
  ~ gradient_right (fun l => change_kernel (c l) first second) (own_gradients (c p) first second) p k.
Proof. exists (fun l => ChangePoint l 1), (lin_kernel 1 1), (lin_kernel 1 1), 0, 0%nat. exact change_location_wrong. Qed.
Print Assumptions C40_refuted.
(** Nor is the gradient of the offset of the linear kernel, when dL_dK is not symmetric. *)
Theorem C40_offset_refuted : ~ gradient_right_everywhere (fun o => lin_kernel 1 o) (kgrad (lin_kernel 1 0)) 0 1.
Proof. exact lin_offset_wrong. Qed.
Print Assumptions C40_offset_refuted.
(** Nor that of the lengthscale of the periodic kernel, when it is above 10^4. *)
Theorem C40_lengthscale_refuted : forall i0 i1, ~ gradient_right (fun l => per_kernel i0 i1 1 1 l) (kgrad (per_kernel i0 i1 1 1 20000)) 20000 2.
Proof. exact per_lengthscale_wrong. Qed.
Print Assumptions C40_lengthscale_refuted.
(** With a second data set of another size the linear and sigmoidal kernels raise. *)
Theorem C40_other_refuted : forall k, In k [lin_kernel 1 0; S_kernel 1 0 1 false; SI_kernel 1 0 1 1 false] ->
  exists dL, array dL 3 2 (ent dL) /\ kgrad k dL (column 3 (fun _ => 0)) (Some (column 2 (fun _ => 0))) = Raise EValueError.
Proof. intros k [<-|[<-|[<-|[]]]]; [exact lin_other_raises|exact S_other_raises|exact SI_other_raises]. Qed.
Print Assumptions C40_other_refuted.
(** What holds, for every symmetric dL_dK and X2 = None: the linear kernel, *)
Theorem C40_linear_partial : forall v o,
  gradient_right (fun q => lin_kernel q o) (kgrad (lin_kernel v o)) v 0 /\ gradient_right (fun q => lin_kernel v q) (kgrad (lin_kernel v o)) o 1.
Proof. intros v o. split; [exact (lin_gradient_1 v o)|exact (lin_gradient_2 v o)]. Qed.
Print Assumptions C40_linear_partial.
(** the sigmoids, *)
Theorem C40_sigmoid_partial : forall v l s rev, s <> 0 ->
  gradient_right (fun q => S_kernel v q s rev) (kgrad (S_kernel v l s rev)) l 0 /\ gradient_right (fun q => S_kernel v l q rev) (kgrad (S_kernel v l s rev)) s 1.
Proof. intros v l s rev H. split; [exact (S_gradient_1 v l s rev H)|exact (S_gradient_2 v l s rev H)]. Qed.
Print Assumptions C40_sigmoid_partial.
(** the windows, *)
Theorem C40_window_partial : forall v l s w rev, 0 < s -> 0 < w ->
  gradient_right (fun q => SI_kernel v q s w rev) (kgrad (SI_kernel v l s w rev)) l 0
  /\ gradient_right (fun q => SI_kernel v l q w rev) (kgrad (SI_kernel v l s w rev)) s 1
  /\ gradient_right (fun q => SI_kernel v l s q rev) (kgrad (SI_kernel v l s w rev)) w 2.
Proof. exact SI_gradient. Qed.
Print Assumptions C40_window_partial.
(** all of these also for another X2 with as many points, *)
Theorem C40_square_partial :
  (forall v o, gradient_right_square (fun q => lin_kernel q o) (kgrad (lin_kernel v o)) v 0 /\ gradient_right_square (fun q => lin_kernel v q) (kgrad (lin_kernel v o)) o 1)
  /\ (forall v l s rev, s <> 0 ->
      gradient_right_square (fun q => S_kernel v q s rev) (kgrad (S_kernel v l s rev)) l 0 /\ gradient_right_square (fun q => S_kernel v l q rev) (kgrad (S_kernel v l s rev)) s 1)
  /\ (forall v l s w rev, 0 < s -> 0 < w ->
      gradient_right_square (fun q => SI_kernel v q s w rev) (kgrad (SI_kernel v l s w rev)) l 0
      /\ gradient_right_square (fun q => SI_kernel v l q w rev) (kgrad (SI_kernel v l s w rev)) s 1
      /\ gradient_right_square (fun q => SI_kernel v l s q rev) (kgrad (SI_kernel v l s w rev)) w 2).
Proof. exact (conj lin_square (conj S_square SI_square)). Qed.
Print Assumptions C40_square_partial.
(** and the kernels inside a change kernel: their gradients are right if they are right outside it. *)
Theorem C40_change_partial : forall c (first second : R -> kernel) p k, valid_change c -> works (first p) -> works (second p) ->
  (gradient_right first (kgrad (first p)) p k -> gradient_right (fun q => change_kernel c (first q) (second p)) (first_gradients c (first p) (second p)) p k)
  /\ (gradient_right second (kgrad (second p)) p k -> gradient_right (fun q => change_kernel c (first p) (second q)) (second_gradients c (first p) (second p)) p k).
Proof. intros c first second p k Hc H1 H2. split; [exact (change_gradient_first c first (second p) p k Hc H1 H2)|exact (change_gradient_second c (first p) second p k Hc H1 H2)]. Qed.
Print Assumptions C40_change_partial.
(** For all dL_dK and all X2: the linear kernel without offset, *)
Theorem C40_plain_linear_partial : forall v, gradient_right_everywhere lin0_kernel (kgrad (lin0_kernel v)) v 0.
Proof. exact lin0_gradient. Qed.
Print Assumptions C40_plain_linear_partial.
(** the variance and period of the periodic kernel for all lengthscales (and whatever the Bessel functions), *)
Theorem C40_periodic_partial : forall i0 i1 v p l, p <> 0 ->
  gradient_right_everywhere (fun q => per_kernel i0 i1 q p l) (kgrad (per_kernel i0 i1 v p l)) v 0
  /\ gradient_right_everywhere (fun q => per_kernel i0 i1 v q l) (kgrad (per_kernel i0 i1 v p l)) p 1.
Proof. intros i0 i1 v p l H. split; [exact (per_gradient_1 i0 i1 v p l)|exact (per_gradient_2 i0 i1 v p l H)]. Qed.
Print Assumptions C40_periodic_partial.
(** its lengthscale where the code uses the Bessel functions (below 10^4, above 0.516...).  Missing: the location, slope and width of a change
    kernel (false), the lengthscale elsewhere (false above 10^4; the derivative of an approximation below 0.516...). *)
Theorem C40_lengthscale_partial : forall v p l, 0 < l < 10000 -> 1 / l ^ 2 < 3.75 ->
  gradient_right_everywhere (fun q => per_kernel bessel0 bessel1 v p q) (kgrad (per_kernel bessel0 bessel1 v p l)) l 2.
Proof. exact per_gradient_3. Qed.
Print Assumptions C40_lengthscale_partial.
Example C40_example : valid_change (ChangeWindow 0 1 2) /\ works (lin_kernel 1 3) /\ works (change_kernel (ChangePoint 0 1) (lin_kernel 1 3) (per_kernel bessel0 bessel1 1 2 1))
  /\ 1 / 1 ^ 2 < 3.75.
Proof. repeat split; try (simpl; lra); [apply lin_works|]. apply change_works; [simpl; lra|apply lin_works|apply per_works]. Qed.

(** C41: all covariance matrices are symmetric positive semidefinite, with Kdiag as diagonal. *)
Theorem C41_covariance : forall k, built_kernel k -> proper k.
Proof. exact built_proper. Qed.
Print Assumptions C41_covariance.
(** The periodic kernel for any positive lengthscale, if the polynomial used when 1 / l^2 >= 3.75 is not above exp(-z) I0(z). *)
Theorem C41_periodic_conditional : forall v p l i1, 0 <= v -> 0 < l ->
  (3.75 <= 1 / l ^ 2 -> l <= 10000 -> embi0 (1 / l ^ 2) <= exp (- (1 / l ^ 2)) * bessel0 (1 / l ^ 2)) -> proper (per_kernel bessel0 i1 v p l).
Proof. exact per_proper. Qed.
Print Assumptions C41_periodic_conditional.
Example C41_example : built_kernel (add_kernel (prod_kernel (lin_kernel 1 0) (per_kernel bessel0 bessel1 2 3 1)) (change_kernel (ChangePoint 0 1) (white_kernel 1) (rbf_kernel 1 2))).
Proof. repeat constructor; simpl; lra. Qed.

(** C42: symmetric, unchanged by shifts of any points by multiples of the period, variance at equal points and on the diagonal, for all
    positive periods and lengthscales. *)
Theorem C42_periodic : forall v p l, 0 < p -> 0 < l ->
  forall n x m y (kx ky : nat -> Z), exists K,
    computes (kK (per_kernel bessel0 bessel1 v p l) (column n x) (Some (column m y))) n m K
    /\ computes (kK (per_kernel bessel0 bessel1 v p l) (column m y) (Some (column n x))) m n (fun j i => K i j)
    /\ computes (kK (per_kernel bessel0 bessel1 v p l) (column n (fun i => x i + p * IZR (kx i))) (Some (column m (fun j => y j + p * IZR (ky j))))) n m K
    /\ (forall i j, (i < n)%nat -> (j < m)%nat -> x i = y j -> K i j = v)
    /\ (forall i, kKdiag (per_kernel bessel0 bessel1 v p l) (column n x) i = v).
Proof. exact per_facts. Qed.
Print Assumptions C42_periodic.
Example C42_example : Rltb 10000 20000 = true /\ Rltb (1 / 1 ^ 2) 3.75 = true /\ Rltb (1 / (1 / 2) ^ 2) 3.75 = false.
Proof. unfold Rltb. repeat split; [destruct (Rlt_dec 10000 20000)|destruct (Rlt_dec (1 / 1 ^ 2) 3.75)|destruct (Rlt_dec (1 / (1 / 2) ^ 2) 3.75)]; try reflexivity; exfalso; lra. Qed.

(** C53: the three polynomials agree: the coded difference is the difference of the coded functions. *)
Theorem C53_bessel_difference : forall z, embi0 z - embi1 z = embi0min1 z.
Proof. exact embi_difference. Qed.
Print Assumptions C53_bessel_difference.
Example C53_example : embi0min1 3.75 <> 0.
Proof.
  unfold embi0min1. replace (3.75 / 3.75) with 1 by (field; lra). apply Rgt_not_eq. apply Rdiv_lt_0_compat; [lra|]. apply sqrt_lt_R0. lra.
Qed.

(** Gradients of the linear and sigmoidal kernels for two data sets of the same size. *)
From Coq Require Import Reals List Bool Arith Lra Lia.
From Coquelicot Require Import Coquelicot.
From Verif Require Import Py KernModel KernSpec KernSig KernGrad KernGrad2 KernGrad3.
Import ListNotations.
Local Open Scope R_scope.

Lemma transposed_sum n w (f g : nat -> R) : symmetric n w ->
  sum_to n (fun i => sum_to n (fun j => w i j * (f i * g j))) = sum_to n (fun i => sum_to n (fun j => w i j * (g i * f j))).
Proof.
  intros Hw. rewrite sum_to_swap. apply sum_to_ext. intros i Hi. apply sum_to_ext. intros j Hj. rewrite (Hw j i) by assumption. ring.
Qed.
Lemma square_gradient rev v (phi : R -> R -> R) (d : R -> R) n w x y p g : symmetric n w ->
  (forall z, is_derive (fun q => phi q z) p (sign rev (d z))) ->
  g = v * sum_to n (fun i => sum_to n (fun j => w i j * (phi p (x i) * d (y j) + phi p (y i) * d (x j)))) ->
  is_gradient n n w (fun q i j => v * (phi q (x i) * phi q (y j))) p (sign rev g).
Proof.
  intros Hw Hd ->. apply (gradient_intro n n w _ p (fun i j => v * (sign rev (d (x i)) * phi p (y j) + phi p (x i) * sign rev (d (y j))))).
  - intros i j _ _. apply basis_derive; apply Hd.
  - assert (E : sum_to n (fun i => sum_to n (fun j => w i j * (phi p (x i) * d (y j) + phi p (y i) * d (x j))))
      = sum_to n (fun i => sum_to n (fun j => w i j * (d (x i) * phi p (y j) + phi p (x i) * d (y j))))).
    { transitivity (sum_to n (fun i => sum_to n (fun j => w i j * (phi p (x i) * d (y j)))) + sum_to n (fun i => sum_to n (fun j => w i j * (phi p (y i) * d (x j))))).
      - rewrite <- sum_to_plus. apply sum_to_ext. intros i _. rewrite <- sum_to_plus. apply sum_to_ext. intros j _. ring.
      - rewrite (transposed_sum n w (fun i => phi p (y i)) (fun i => d (x i)) Hw). rewrite <- sum_to_plus. apply sum_to_ext. intros i _. rewrite <- sum_to_plus. apply sum_to_ext. intros j _. ring. }
    rewrite E. destruct rev; cbn [sign].
    + rewrite Ropp_mult_distr_l, <- sum_to_scal. apply sum_to_ext. intros i _. rewrite <- sum_to_scal. apply sum_to_ext. intros j _. ring.
    + rewrite <- sum_to_scal. apply sum_to_ext. intros i _. rewrite <- sum_to_scal. apply sum_to_ext. intros j _. ring.
Qed.

Lemma S_square v l s rev : s <> 0 ->
  gradient_right_square (fun q => S_kernel v q s rev) (kgrad (S_kernel v l s rev)) l 0 /\ gradient_right_square (fun q => S_kernel v l q rev) (kgrad (S_kernel v l s rev)) s 1.
Proof.
  intros Hs.
  assert (Q : forall n x y dL, array dL n n (ent dL) -> symmetric n (ent dL) -> exists gl gs, S_update_gradients_full v l s rev dL (column n x) (Some (column n y)) = Ok (gl, gs)
    /\ is_gradient n n (ent dL) (fun q i j => v * (phi_S q s rev (x i) * phi_S q s rev (y j))) l gl
    /\ is_gradient n n (ent dL) (fun q i j => v * (phi_S l q rev (x i) * phi_S l q rev (y j))) s gs).
  { intros n x y dL HdL Hsym. unfold S_update_gradients_full, update_gradients_full_S_2. repeat step.
    match goal with |- exists gl gs, (if _ then Ok (- fst (v * msum ?A, v * msum ?B), _) else _) = _ /\ _ => exists (sign rev (v * msum A)), (sign rev (v * msum B)) end.
    split; [destruct rev; reflexivity|]. split.
    - apply (square_gradient rev v (fun q => phi_S q s rev) (fun z => sigmoid_function_d ((z - l) / s) / (- s)) n _ x y _ _ Hsym); [intros z; apply phi_S_dl, Hs|].
      f_equal. erewrite array_sum by eassumption. reflexivity.
    - apply (square_gradient rev v (fun q => phi_S l q rev) (fun z => sigmoid_function_d ((z - l) / s) * (- ((z - l) / s) / s)) n _ x y _ _ Hsym); [intros z; apply phi_S_ds, Hs|].
      f_equal. erewrite array_sum by eassumption. reflexivity. }
  split; intros n x y dL HdL Hsym; destruct (Q n x y dL HdL Hsym) as (gl & gs & E & H1 & H2); do 3 eexists; cbn [S_kernel kgrad kK]; rewrite E;
    (split; [reflexivity|]); (split; [reflexivity|]); (split; [|first [exact H1|exact H2]]); intros q; apply basis_entries.
Qed.

Lemma SI_square v l s w rev : 0 < s -> 0 < w ->
  gradient_right_square (fun q => SI_kernel v q s w rev) (kgrad (SI_kernel v l s w rev)) l 0
  /\ gradient_right_square (fun q => SI_kernel v l q w rev) (kgrad (SI_kernel v l s w rev)) s 1
  /\ gradient_right_square (fun q => SI_kernel v l s q rev) (kgrad (SI_kernel v l s w rev)) w 2.
Proof.
  intros Hs Hw.
  assert (Q : forall n x y dL, array dL n n (ent dL) -> symmetric n (ent dL) -> exists gl gs gw, SI_update_gradients_full v l s w rev dL (column n x) (Some (column n y)) = Ok (gl, gs, gw)
    /\ is_gradient n n (ent dL) (fun q i j => v * (phi_SI q s w rev (x i) * phi_SI q s w rev (y j))) l gl
    /\ is_gradient n n (ent dL) (fun q i j => v * (phi_SI l q w rev (x i) * phi_SI l q w rev (y j))) s gs
    /\ is_gradient n n (ent dL) (fun q i j => v * (phi_SI l s q rev (x i) * phi_SI l s q rev (y j))) w gw).
  { intros n x y dL HdL Hsym. unfold SI_update_gradients_full, update_gradients_full_SI. repeat step.
    match goal with |- exists gl gs gw, (if _ then _ else Ok (v * msum ?A, v * msum ?B, v * msum ?C)) = _ /\ _ => exists (sign rev (v * msum A)), (sign rev (v * msum B)), (sign rev (v * msum C)) end.
    split; [destruct rev; reflexivity|].
    split; [|split].
    - eapply (square_gradient rev v (fun q => phi_SI q s w rev) _ n _ x y _ _ Hsym); [intros z; apply phi_SI_dl; assumption|]. f_equal. erewrite array_sum by eassumption. reflexivity.
    - eapply (square_gradient rev v (fun q => phi_SI l q w rev) _ n _ x y _ _ Hsym); [intros z; apply phi_SI_ds; assumption|]. f_equal. erewrite array_sum by eassumption. reflexivity.
    - eapply (square_gradient rev v (fun q => phi_SI l s q rev) _ n _ x y _ _ Hsym); [intros z; apply phi_SI_dw; assumption|]. f_equal. erewrite array_sum by eassumption. reflexivity. }
  repeat split; intros n x y dL HdL Hsym; destruct (Q n x y dL HdL Hsym) as (gl & gs & gw & E & H1 & H2 & H3); do 3 eexists; cbn [SI_kernel kgrad kK]; rewrite E;
    (split; [reflexivity|]); (split; [reflexivity|]); (split; [|first [exact H1|exact H2|exact H3]]); intros q; apply basis_entries.
Qed.

Lemma lin_square_run v o n x y dL : array dL n n (ent dL) -> symmetric n (ent dL) -> exists gv go, lin_update_gradients_full v o dL (column n x) (Some (column n y)) = Ok (gv, go)
    /\ is_gradient n n (ent dL) (fun q i j => q * (x i - o) * (y j - o)) v gv /\ is_gradient n n (ent dL) (fun q i j => v * (x i - q) * (y j - q)) o go.
Proof.
  intros HdL Hsym. unfold lin_update_gradients_full. cbn [or_self].
  destruct (array_outer Rmult (mmap (fun x => x - o) (column n x)) (mT (mmap (fun x => x - o) (column n y))) n n (fun i _ => x i - o) (fun _ j => y j - o)) as (M & E & H);
    [apply (array_map (fun x => x - o)), array_column|apply (array_T _ _ _ _ (array_map (fun x => x - o) _ _ _ _ (array_column n y)))|].
  unfold mmul at 1. rewrite E. cbn [bind]. clear E. step.
  destruct (array_ew Rmult dL M n n _ _ HdL H) as (G & E & HG). rewrite E. cbn [bind]. clear E.
  assert (HO : computes (elementwise Rmult dL (mmap (Rmult v) M0)) n n (fun i j => ent dL i j * (v * (2 * o - x i - y i)))).
  { apply (array_map (Rmult v)) in H0. destruct HdL as (A1 & A2 & A3), H0 as (B1 & B2 & B3). unfold computes, elementwise. rewrite A1, A2, B1, B2, bc_same, bc_one_r. eexists. split; [reflexivity|].
    split; [reflexivity|]. split; [reflexivity|]. intros i j Hi Hj. cbn [ent]. rewrite !(ix_lt n) by assumption. change (ix 1 j) with 0%nat. rewrite B3 by lia. reflexivity. }
  destruct HO as (GO & E & HGO). rewrite E. cbn [bind]. do 2 eexists. split; [reflexivity|]. split.
  - apply (gradient_intro n n _ _ v (fun i j => (x i - o) * (y j - o))); [intros i j _ _; auto_derive; [trivial|]; ring|]. rewrite (array_sum _ _ _ _ HG). reflexivity.
  - apply (gradient_intro n n _ _ o (fun i j => v * (2 * o - x i - y j))); [intros i j _ _; auto_derive; [trivial|]; ring|]. rewrite (array_sum _ _ _ _ HGO). clear - Hsym.
    assert (HH := transposed_sum n (ent dL) (fun i => v * y i) (fun _ => 1) Hsym).
    assert (Z : forall f : nat -> nat -> R, sum_to n (fun i => sum_to n (fun j => ent dL i j * (v * (2 * o - x i)) - f i j)) = sum_to n (fun i => sum_to n (fun j => ent dL i j * (v * (2 * o - x i)))) + -1 * sum_to n (fun i => sum_to n (fun j => f i j))).
    { intros f. rewrite <- sum_to_scal, <- sum_to_plus. apply sum_to_ext. intros i _. rewrite <- sum_to_scal, <- sum_to_plus. apply sum_to_ext. intros j _. ring. }
    transitivity (sum_to n (fun i => sum_to n (fun j => ent dL i j * (v * (2 * o - x i)) - ent dL i j * (v * y i * 1)))); [apply sum2_ext; intros; ring|].
    rewrite (Z (fun i j => ent dL i j * (v * y i * 1))), HH, <- (Z (fun i j => ent dL i j * (1 * (v * y j)))). apply sum2_ext. intros. ring.
Qed.
Lemma lin_square v o : gradient_right_square (fun q => lin_kernel q o) (kgrad (lin_kernel v o)) v 0 /\ gradient_right_square (fun q => lin_kernel v q) (kgrad (lin_kernel v o)) o 1.
Proof.
  split; intros n x y dL HdL Hsym; destruct (lin_square_run v o n x y dL HdL Hsym) as (gv & go & E & H1 & H2); do 3 eexists; cbn [lin_kernel kgrad kK]; rewrite E;
    (split; [reflexivity|]); (split; [reflexivity|]); (split; [|first [exact H1|exact H2]]); intros q.
  - exact (lin_entries q o n x (Some (n, y))).
  - exact (lin_entries v q n x (Some (n, y))).
Qed.

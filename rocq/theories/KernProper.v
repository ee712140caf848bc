(** Covariance matrices of the kernel classes; the periodic kernel. *)
From Coq Require Import Reals List Bool Arith Lra Lia Psatz ZArith.
From Coquelicot Require Import Coquelicot.
From Verif Require Import Py KernModel KernSpec KernSig KernGrad KernGrad2 KernGrad3 KernBessel KernGrad4 KernPsd.
Import ListNotations.
Local Open Scope R_scope.

Lemma lin_proper v o : 0 <= v -> proper (lin_kernel v o).
Proof.
  intros Hv n x. pose proof (lin_entries v o n x None) as HE. simpl in HE. eexists. split; [exact HE|]. split; [intros i j _ _; ring|]. split.
  - apply (psd_ext n (fun i j => v * ((x i - o) * (x j - o)))); [intros; ring|]. apply psd_scal; [exact Hv|]. apply (psd_rank1 n (fun i => x i - o)).
  - intros i _. simpl. unfold lin_Kdiag. simpl. ring.
Qed.

Lemma lin0_entries v n x Y : let (m, y) := other n x Y in computes (lin0_K v (column n x) (other_mat Y)) n m (fun i j => v * (x i * y j)).
Proof.
  unfold lin0_K. rewrite or_self_column. destruct (other n x Y) as [m y]. cbn [fst snd].
  destruct (array_dot1 (column n x) (mT (column m y)) n m _ _ (array_column n x) (array_T _ _ _ _ (array_column m y))) as (P & -> & HP). cbn [bind]. eexists. split; [reflexivity|].
  eapply array_ext; [apply (array_map (fun p => p * v) P n m _ HP)|]. intros; simpl. ring.
Qed.
Lemma lin0_proper v : 0 <= v -> proper (lin0_kernel v).
Proof.
  intros Hv n x. pose proof (lin0_entries v n x None) as HE. simpl in HE. eexists. split; [exact HE|]. split; [intros i j _ _; ring|]. split.
  - apply psd_scal; [exact Hv|]. apply (psd_rank1 n x).
  - intros i _. simpl. unfold lin0_Kdiag. simpl. ring.
Qed.
Lemma lin0_gradient v : gradient_right_everywhere lin0_kernel (kgrad (lin0_kernel v)) v 0.
Proof.
  intros n x Y dL. pose proof (fun q => lin0_entries q n x Y) as HE. destruct Y as [[m y]|]; cbn [other other_mat] in *; intros HdL.
  - cbn [lin0_kernel kgrad kK]. unfold lin0_update_gradients_full. cbn [or_self bind]. step. step. do 3 eexists. split; [reflexivity|]. split; [reflexivity|]. split; [exact HE|].
    rewrite (array_sum _ _ _ _ H0). apply (gradient_intro n m _ _ v (fun i j => x i * y j)).
    + intros i j _ _. apply (is_derive_ext (fun q => q * (x i * y j))); [reflexivity|]. apply derive_scal_l.
    + apply sum2_ext. intros i j _ _. ring.
  - cbn [lin0_kernel kgrad kK]. unfold lin0_update_gradients_full. cbn [or_self].
    destruct (array_ew Rplus dL (mT dL) n n _ _ HdL (array_T _ _ _ _ HdL)) as (S & E & HS). unfold madd. rewrite E. cbn [bind]. clear E.
    step. step. do 3 eexists. split; [reflexivity|]. split; [reflexivity|]. split; [exact HE|].
    rewrite (array_sum _ _ _ _ H0). apply (gradient_intro n n _ _ v (fun i j => x i * x j)).
    + intros i j _ _. apply (is_derive_ext (fun q => q * (x i * x j))); [reflexivity|]. apply derive_scal_l.
    + set (T := sum_to n (fun i => sum_to n (fun j => ent dL i j * (x i * x j)))).
      transitivity (/ 2 * (T + T)); [|lra]. unfold T at 2. rewrite (sum_to_swap n n (fun i j => ent dL i j * (x i * x j))). unfold T. rewrite <- sum_to_plus, <- sum_to_scal.
      apply sum_to_ext. intros i _. rewrite <- sum_to_plus, <- sum_to_scal. apply sum_to_ext. intros j _. field.
Qed.

Lemma basis_proper v phi (g : gradients) : 0 <= v -> proper {| kK := fun X X2 => basis_K v phi X (or_self X X2); kKdiag := basis_Kdiag v phi; kgrad := g |}.
Proof.
  intros Hv n x. eexists. split; [apply basis_entries|]. split; [intros i j _ _; ring|]. split.
  - apply psd_scal; [exact Hv|]. apply (psd_rank1 n (fun i => phi (x i))).
  - intros i _. unfold kKdiag, basis_Kdiag. simpl. ring.
Qed.
Lemma S_proper v l s rev : 0 <= v -> proper (S_kernel v l s rev).
Proof. apply basis_proper. Qed.
Lemma SI_proper v l s w rev : 0 <= v -> proper (SI_kernel v l s w rev).
Proof. apply basis_proper. Qed.

Lemma change_proper c k1 k2 : proper k1 -> proper k2 -> proper (change_kernel c k1 k2).
Proof.
  intros H1 H2 n x. destruct (H1 n x) as (K1 & C1 & S1 & P1 & D1). destruct (H2 n x) as (K2 & C2 & S2 & P2 & D2).
  eexists. split; [apply (change_entries c k1 k2 n x K1 K2 C1 C2)|]. unfold change_entry. split; [|split].
  - intros i j Hi Hj. rewrite (S1 i j), (S2 i j) by assumption. ring.
  - apply (psd_ext n (fun i j => K1 i j * (change_phi c true (x i) * change_phi c true (x j)) + K2 i j * (change_phi c false (x i) * change_phi c false (x j)))); [intros; ring|].
    apply psd_plus; [apply (psd_times_rank1 n K1 (fun i => change_phi c true (x i)) P1)|apply (psd_times_rank1 n K2 (fun i => change_phi c false (x i)) P2)].
  - intros i Hi. cbn [change_kernel kKdiag]. unfold change_Kdiag. rewrite D1, D2 by exact Hi. unfold basis_Kdiag. simpl. ring.
Qed.

(** ** The periodic kernel *)
Lemma sqrt_ge_1 z : 1 <= z -> 1 <= sqrt z.
Proof. intros H. rewrite <- sqrt_1. apply sqrt_le_1; lra. Qed.

Lemma embi0_bound z : 3.75 <= z -> 0 < embi0 z < 1.
Proof.
  intros Hz. assert (Hz' : 15 / 4 <= z) by lra. unfold embi0. set (y := 3.75 / z).
  assert (Hy : 0 < y <= 1). { unfold y. split; [apply Rdiv_lt_0_compat; lra|]. apply (Rmult_le_reg_r z); [lra|]. unfold Rdiv. rewrite Rmult_assoc, Rinv_l by lra. lra. }
  assert (Hs : 1 <= sqrt z) by (apply sqrt_ge_1; lra).
  set (f := 0.39894228 + _).
  assert (Hf : 0 < f < 1).
  { unfold f. clearbody y. clear f Hs Hz Hz' z. assert (H : forall a b l u, 0 < l -> l <= a -> a <= u -> l * 0 <= a * b -> True) by auto. clear H.
    pose (p7 := - 0.01647633 + 0.00392377 * y). pose (p6 := 0.02635537 + p7 * y). pose (p5 := - 0.02057706 + p6 * y). pose (p4 := 0.00916281 + p5 * y).
    pose (p3 := - 0.00157565 + p4 * y). pose (p2 := 0.00225319 + p3 * y). pose (p1 := 0.01328592 + p2 * y).
    assert (B7 : -0.02 <= p7 <= -0.01) by (unfold p7; nra). assert (B6 : 0 <= p6 <= 0.03) by (unfold p6; nra). assert (B5 : -0.03 <= p5 <= 0.01) by (unfold p5; nra).
    assert (B4 : -0.03 <= p4 <= 0.02) by (unfold p4; nra). assert (B3 : -0.04 <= p3 <= 0.02) by (unfold p3; nra). assert (B2 : -0.04 <= p2 <= 0.03) by (unfold p2; nra).
    assert (B1 : -0.04 <= p1 <= 0.05) by (unfold p1; nra). change (0 < 0.39894228 + p1 * y < 1). nra. }
  split; [apply Rdiv_lt_0_compat; lra|]. apply (Rmult_lt_reg_r (sqrt z)); [lra|]. unfold Rdiv. rewrite Rmult_assoc, Rinv_l by lra. lra.
Qed.

Lemma embi_difference z : embi0 z - embi1 z = embi0min1 z.
Proof. unfold embi0, embi1, embi0min1. set (y := 3.75 / z). cbv zeta. match goal with |- ?a / ?s - ?b / ?s = ?c / ?s => replace c with (a - b) by lra end. unfold Rdiv. ring. Qed.

Lemma per_at_0 v p l : 0 < l -> per_entry bessel0 v p l 0 = v.
Proof.
  intros Hl. unfold per_entry. replace (2 * PI / p * 0) with 0 by ring. rewrite cos_0. destruct (Rltb 10000 l); [ring|]. pose proof (sqr_pos l Hl) as Hz.
  destruct (Rltb (1 / l ^ 2) 3.75) eqn:E.
  - rewrite Rmult_1_l. pose proof (bessel0_lt_exp _ Hz). unfold Rdiv. rewrite Rinv_r by lra. ring.
  - unfold Rltb in E. destruct (Rlt_dec (1 / l ^ 2) 3.75) as [|Hn]; [discriminate|]. apply Rnot_lt_le in Hn. pose proof (embi0_bound _ Hn).
    replace ((1 - 1) * (1 / l ^ 2)) with 0 by ring. rewrite exp_0. unfold Rdiv. rewrite Rinv_r by lra. ring.
Qed.

Lemma cos_shift a (k : Z) : cos (a + 2 * PI * IZR k) = cos a.
Proof.
  assert (Hn : forall b (m : nat), cos (b + 2 * PI * INR m) = cos b) by (intros b m; replace (b + 2 * PI * INR m) with (b + 2 * INR m * PI) by ring; apply cos_period).
  destruct (Z.le_ge_cases 0 k) as [H|H].
  - rewrite <- (Z2Nat.id k H), <- INR_IZR_INZ. apply Hn.
  - rewrite <- (Hn (a + 2 * PI * IZR k) (Z.to_nat (- k))). rewrite INR_IZR_INZ, Z2Nat.id by lia. rewrite opp_IZR. f_equal. ring.
Qed.

Lemma per_shift v p l d (k : Z) : p <> 0 -> per_entry bessel0 v p l (d + p * IZR k) = per_entry bessel0 v p l d.
Proof.
  intros Hp. unfold per_entry. replace (2 * PI / p * (d + p * IZR k)) with (2 * PI / p * d + 2 * PI * IZR k) by (field; exact Hp). rewrite cos_shift. reflexivity.
Qed.

(** Positive semidefinite: with the Bessel function, and above 3.75 whenever the polynomial is not above the function it approximates. *)
Lemma per_psd n v p l (x : nat -> R) : 0 <= v -> 0 < l -> (3.75 <= 1 / l ^ 2 -> l <= 10000 -> embi0 (1 / l ^ 2) <= exp (- (1 / l ^ 2)) * bessel0 (1 / l ^ 2)) ->
  psd n (fun i j => per_entry bessel0 v p l (x i - x j)).
Proof.
  intros Hv Hl He. pose proof (sqr_pos l Hl) as Hz. unfold per_entry. set (z := 1 / l ^ 2) in *. set (t := fun i => 2 * PI / p * x i).
  assert (Et : forall i j, 2 * PI / p * (x i - x j) = t i - t j) by (intros; unfold t; ring).
  destruct (Rltb 10000 l) eqn:El; [|destruct (Rltb z 3.75) eqn:Ez].
  - apply psd_scal; [exact Hv|]. apply (psd_ext n (fun i j => cos (t i - t j))); [intros; rewrite Et; reflexivity|]. apply psd_cos.
  - apply psd_scal; [exact Hv|]. pose proof (bessel0_lt_exp z Hz). apply (psd_ext n (fun i j => / (exp z - bessel0 z) * (exp (cos (t i - t j) * z) - bessel0 z))); [intros; rewrite Et; unfold Rdiv; ring|].
    apply psd_scal; [apply Rlt_le, Rinv_0_lt_compat; lra|]. apply psd_exp_cos. lra.
  - assert (Hz' : 3.75 <= z). { unfold Rltb in Ez. destruct (Rlt_dec z 3.75); [discriminate|lra]. }
    assert (Hl' : l <= 10000). { unfold Rltb in El. destruct (Rlt_dec 10000 l); [discriminate|lra]. }
    pose proof (embi0_bound z Hz') as Hb. specialize (He Hz' Hl').
    apply psd_scal; [exact Hv|]. apply (psd_ext n (fun i j => / (1 - embi0 z) * (exp (- z) * (exp (cos (t i - t j) * z) - bessel0 z) + (exp (- z) * bessel0 z - embi0 z)))).
    + intros i j _ _. rewrite Et. replace ((cos (t i - t j) - 1) * z) with (- z + cos (t i - t j) * z) by ring. rewrite exp_plus. unfold Rdiv. ring.
    + apply psd_scal; [apply Rlt_le, Rinv_0_lt_compat; lra|]. apply psd_plus; [|apply psd_const; lra]. apply psd_scal; [apply Rlt_le, exp_pos|]. apply psd_exp_cos. lra.
Qed.

Lemma per_proper v p l i1 : 0 <= v -> 0 < l -> (3.75 <= 1 / l ^ 2 -> l <= 10000 -> embi0 (1 / l ^ 2) <= exp (- (1 / l ^ 2)) * bessel0 (1 / l ^ 2)) -> proper (per_kernel bessel0 i1 v p l).
Proof.
  intros Hv Hl He n x. pose proof (per_entries bessel0 v p l n x None) as HE. simpl in HE. eexists. split; [exact HE|]. split; [|split].
  - intros i j _ _. replace (x i - x j) with (- (x j - x i)) by ring. apply per_entry_even.
  - apply per_psd; assumption.
  - intros i _. simpl. unfold per_Kdiag. rewrite Rminus_diag_eq by reflexivity. symmetry. apply per_at_0, Hl.
Qed.

(** ** GPy's kernels and combinations *)
Lemma psd_diag n v : 0 <= v -> psd n (fun i j => if Nat.eqb i j then v else 0).
Proof.
  intros Hv c. apply sum_to_nonneg. intros i Hi. rewrite (sum_to_single n i); [rewrite Nat.eqb_refl|exact Hi|].
  - apply Rmult_le_pos; [apply Rle_0_sqr|exact Hv].
  - intros j _ Hj. destruct (Nat.eqb_spec i j); [congruence|ring].
Qed.
Lemma white_proper v : 0 <= v -> proper (white_kernel v).
Proof.
  intros Hv n x. eexists. split; [eexists; split; [reflexivity|repeat split; intros; reflexivity]|]. cbn [ent]. split; [intros i j _ _; rewrite Nat.eqb_sym; reflexivity|]. split; [apply psd_diag, Hv|].
  intros i _. rewrite Nat.eqb_refl. reflexivity.
Qed.
Lemma bias_proper v : 0 <= v -> proper (bias_kernel v).
Proof.
  intros Hv n x. eexists. split; [eexists; split; [reflexivity|repeat split; intros; reflexivity]|]. cbn [ent]. split; [intros i j _ _; reflexivity|]. split; [apply psd_const, Hv|]. reflexivity.
Qed.
Lemma rbf_entries v l n x : computes (kK (rbf_kernel v l) (column n x) None) n n (fun i j => rbf_entry v l (x i - x j)).
Proof.
  cbn [rbf_kernel kK or_self]. unfold msub.
  destruct (array_outer Rminus (column n x) (mT (column n x)) n n (fun i _ => x i) (fun _ j => x j)) as (D & -> & HD);
    [apply array_column|apply (array_T _ _ _ _ (array_column n x))|]. cbn [bind]. eexists. split; [reflexivity|]. apply (array_map (rbf_entry v l) _ _ _ _ HD).
Qed.
Lemma rbf_proper v l : 0 <= v -> proper (rbf_kernel v l).
Proof.
  intros Hv n x. eexists. split; [apply rbf_entries|]. unfold rbf_entry. split; [|split].
  - intros i j _ _. replace ((x i - x j) ^ 2) with ((x j - x i) ^ 2) by ring. reflexivity.
  - apply psd_scal; [exact Hv|]. apply psd_rbf.
  - intros i _. simpl. replace (- ((x i - x i) * ((x i - x i) * 1)) / (2 * (l * (l * 1)))) with 0 by (unfold Rdiv; ring). rewrite exp_0. ring.
Qed.
Lemma add_proper k1 k2 : proper k1 -> proper k2 -> proper (add_kernel k1 k2).
Proof.
  intros H1 H2 n x. destruct (H1 n x) as (K1 & (A1 & E1 & C1) & S1 & P1 & D1). destruct (H2 n x) as (K2 & (A2 & E2 & C2) & S2 & P2 & D2).
  destruct (array_ew Rplus A1 A2 n n K1 K2 C1 C2) as (B & E & HB).
  exists (fun i j => K1 i j + K2 i j). split; [exists B; cbn [add_kernel kK]; rewrite E1, E2; split; [exact E|exact HB]|]. split; [|split].
  - intros i j Hi Hj. rewrite (S1 i j), (S2 i j) by assumption. reflexivity.
  - apply psd_plus; assumption.
  - intros i Hi. cbn [add_kernel kKdiag]. rewrite D1, D2 by exact Hi. reflexivity.
Qed.
Lemma prod_proper k1 k2 : proper k1 -> proper k2 -> proper (prod_kernel k1 k2).
Proof.
  intros H1 H2 n x. destruct (H1 n x) as (K1 & (A1 & E1 & C1) & S1 & P1 & D1). destruct (H2 n x) as (K2 & (A2 & E2 & C2) & S2 & P2 & D2).
  destruct (array_ew Rmult A1 A2 n n K1 K2 C1 C2) as (B & E & HB).
  exists (fun i j => K1 i j * K2 i j). split; [exists B; cbn [prod_kernel kK]; rewrite E1, E2; split; [exact E|exact HB]|]. split; [|split].
  - apply sym_mult; assumption.
  - apply psd_mult; assumption.
  - intros i Hi. cbn [prod_kernel kKdiag]. rewrite D1, D2 by exact Hi. reflexivity.
Qed.

(** The statement about the periodic kernel. *)
Lemma per_facts v p l : 0 < p -> 0 < l ->
  forall n x m y (kx ky : nat -> Z), exists K,
    computes (kK (per_kernel bessel0 bessel1 v p l) (column n x) (Some (column m y))) n m K
    /\ computes (kK (per_kernel bessel0 bessel1 v p l) (column m y) (Some (column n x))) m n (fun j i => K i j)
    /\ computes (kK (per_kernel bessel0 bessel1 v p l) (column n (fun i => x i + p * IZR (kx i))) (Some (column m (fun j => y j + p * IZR (ky j))))) n m K
    /\ (forall i j, (i < n)%nat -> (j < m)%nat -> x i = y j -> K i j = v)
    /\ (forall i, kKdiag (per_kernel bessel0 bessel1 v p l) (column n x) i = v).
Proof.
  intros Hp Hl n x m y kx ky. cbn [per_kernel kK kKdiag].
  pose proof (per_entries bessel0 v p l n x (Some (m, y))) as H1. pose proof (per_entries bessel0 v p l m y (Some (n, x))) as H2.
  pose proof (per_entries bessel0 v p l n (fun i => x i + p * IZR (kx i)) (Some (m, fun j => y j + p * IZR (ky j)))) as H3. cbn [other other_mat] in *.
  eexists. split; [exact H1|]. split; [|split; [|split]].
  - destruct H2 as (B & E & HB). exists B. split; [exact E|]. eapply array_ext; [exact HB|]. intros j i _ _. cbv beta. replace (x i - y j) with (- (y j - x i)) by ring. symmetry. apply per_entry_even.
  - destruct H3 as (B & E & HB). exists B. split; [exact E|]. eapply array_ext; [exact HB|]. intros i j _ _. cbv beta.
    replace (x i + p * IZR (kx i) - (y j + p * IZR (ky j))) with (x i - y j + p * IZR (kx i - ky j)) by (rewrite minus_IZR; ring). apply per_shift. lra.
  - intros i j _ _ ->. rewrite Rminus_diag_eq by reflexivity. apply per_at_0, Hl.
  - reflexivity.
Qed.

Lemma built_proper k : built_kernel k -> proper k.
Proof.
  induction 1; auto using white_proper, bias_proper, lin_proper, lin0_proper, rbf_proper, S_proper, SI_proper, add_proper, prod_proper, change_proper.
  apply per_proper; try assumption. intros; lra.
Qed.

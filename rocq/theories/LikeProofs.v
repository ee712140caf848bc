(** Log-densities are continuous in the covariances (C67). *)
From Coq Require Import Reals Lra Arith Lia.
From Coquelicot Require Import Coquelicot.
From Verif Require Import KernSpec KernGrad KernPsd PredSpec PredBest UnitSpec.
Local Open Scope R_scope.

Definition close (n : nat) (d : R) (A B : nat -> nat -> R) : Prop := forall i j, (i < n)%nat -> (j < n)%nat -> Rabs (B i j - A i j) < d.
Definition cont (n : nat) (A : nat -> nat -> R) (F : (nat -> nat -> R) -> R) : Prop :=
  forall eps, 0 < eps -> exists d, 0 < d /\ forall B, close n d A B -> Rabs (F B - F A) < eps.

Section Continuity.
  Variable (n : nat) (A : nat -> nat -> R).
  Lemma cont_const c : cont n A (fun _ => c).
  Proof. intros eps He. exists 1. split; [lra|]. intros B _. rewrite Rminus_eq_0, Rabs_R0. exact He. Qed.
  Lemma cont_entry i j : (i < n)%nat -> (j < n)%nat -> cont n A (fun B => B i j).
  Proof. intros Hi Hj eps He. exists eps. split; [exact He|]. intros B H. apply H; assumption. Qed.
  Lemma cont_plus F G : cont n A F -> cont n A G -> cont n A (fun B => F B + G B).
  Proof.
    intros HF HG eps He. destruct (HF (eps / 2)) as (d & Hd & P); [lra|]. destruct (HG (eps / 2)) as (d' & Hd' & Q); [lra|].
    exists (Rmin d d'). split; [apply Rmin_glb_lt; assumption|]. intros B H.
    assert (H1 : close n d A B) by (intros i j Hi Hj; eapply Rlt_le_trans; [apply H; assumption|apply Rmin_l]).
    assert (H2 : close n d' A B) by (intros i j Hi Hj; eapply Rlt_le_trans; [apply H; assumption|apply Rmin_r]).
    replace (F B + G B - (F A + G A)) with ((F B - F A) + (G B - G A)) by ring.
    eapply Rle_lt_trans; [apply Rabs_triang|]. specialize (P B H1). specialize (Q B H2). lra.
  Qed.
  Lemma cont_mult F G : cont n A F -> cont n A G -> cont n A (fun B => F B * G B).
  Proof.
    intros HF HG eps He. set (a := Rabs (F A) + 1). set (b := Rabs (G A) + 1).
    assert (Ha : 0 < a) by (unfold a; pose proof (Rabs_pos (F A)); lra). assert (Hb : 0 < b) by (unfold b; pose proof (Rabs_pos (G A)); lra).
    destruct (HF (Rmin 1 (eps / (2 * b)))) as (d & Hd & P); [apply Rmin_glb_lt; [lra|apply Rdiv_lt_0_compat; lra]|].
    destruct (HG (eps / (2 * a))) as (d' & Hd' & Q); [apply Rdiv_lt_0_compat; lra|].
    exists (Rmin d d'). split; [apply Rmin_glb_lt; assumption|]. intros B H.
    assert (H1 : close n d A B) by (intros i j Hi Hj; eapply Rlt_le_trans; [apply H; assumption|apply Rmin_l]).
    assert (H2 : close n d' A B) by (intros i j Hi Hj; eapply Rlt_le_trans; [apply H; assumption|apply Rmin_r]).
    specialize (P B H1). specialize (Q B H2).
    pose proof (Rlt_le_trans _ _ _ P (Rmin_l _ _)) as P1. pose proof (Rlt_le_trans _ _ _ P (Rmin_r _ _)) as P2.
    replace (F B * G B - F A * G A) with (F B * (G B - G A) + G A * (F B - F A)) by ring.
    eapply Rle_lt_trans; [apply Rabs_triang|]. rewrite !Rabs_mult.
    assert (FB : Rabs (F B) < a). { unfold a. replace (F B) with (F A + (F B - F A)) by ring. eapply Rle_lt_trans; [apply Rabs_triang|]. lra. }
    assert (X : Rabs (F B) * Rabs (G B - G A) <= a * (eps / (2 * a))) by (apply Rmult_le_compat; try apply Rabs_pos; lra).
    assert (Y : Rabs (G A) * Rabs (F B - F A) < b * (eps / (2 * b))).
    { apply Rle_lt_trans with (Rabs (G A) * (eps / (2 * b))); [apply Rmult_le_compat_l; [apply Rabs_pos|lra]|].
      apply Rmult_lt_compat_r; [apply Rdiv_lt_0_compat; lra|unfold b; lra]. }
    replace (a * (eps / (2 * a))) with (eps / 2) in X by (field; lra). replace (b * (eps / (2 * b))) with (eps / 2) in Y by (field; lra). lra.
  Qed.
  Lemma cont_sum m F : (forall k, (k < m)%nat -> cont n A (F k)) -> cont n A (fun B => sum_to m (fun k => F k B)).
  Proof.
    induction m as [|m IH]; intros H; cbn [sum_to]; [apply cont_const|]. apply cont_plus; [apply IH; intros; apply H; lia|apply H; lia].
  Qed.
End Continuity.
Lemma det_cont n : forall A, cont n A (det n).
Proof.
  induction n as [|m IH]; intros A; [apply cont_const|]. cbn [det].
  apply (cont_sum (S m) A (S m) (fun j B => (-1) ^ j * B 0%nat j * det m (fun i k => B (S i) (if (k <? j)%nat then k else S k)))). intros j Hj.
  apply cont_mult; [apply cont_mult; [apply cont_const|apply cont_entry; lia]|].
  intros eps He. destruct (IH (fun i k => A (S i) (if (k <? j)%nat then k else S k)) eps He) as (d & Hd & P). exists d. split; [exact Hd|]. intros B H.
  apply P. intros i k Hi Hk. apply H; [lia|]. destruct (k <? j)%nat; lia.
Qed.

(** ** Inverses *)
Section Product.
  Variable n : nat.
  Definition mul (A B : nat -> nat -> R) : nat -> nat -> R := fun i j => sum_to n (fun k => A i k * B k j).
  Definition eqn (A B : nat -> nat -> R) : Prop := forall i j, (i < n)%nat -> (j < n)%nat -> A i j = B i j.
  Lemma mul_assoc A B C i j : mul (mul A B) C i j = mul A (mul B C) i j.
  Proof.
    unfold mul. rewrite (sum_to_ext n _ (fun k => sum_to n (fun m => A i m * (B m k * C k j)))).
    - rewrite sum_to_swap. apply sum_to_ext. intros m _. rewrite <- sum_to_scal. reflexivity.
    - intros k _. rewrite Rmult_comm, <- sum_to_scal. apply sum_to_ext. intros; ring.
  Qed.
  Lemma mul_eqn A A' B B' : eqn A A' -> eqn B B' -> eqn (mul A B) (mul A' B').
  Proof. intros H1 H2 i j Hi Hj. apply sum_to_ext. intros k Hk. rewrite H1, H2 by assumption. reflexivity. Qed.
  Lemma mul_delta_l A : eqn (mul delta A) A.
  Proof. intros i j Hi Hj. unfold mul. exact (delta_sum n i (fun k => A k j) Hi). Qed.
  Lemma mul_delta_r A : eqn (mul A delta) A.
  Proof. intros i j Hi Hj. unfold mul. exact (delta_sum' n j (fun k => A i k) Hj). Qed.
  Lemma mul_minus_r A B C i j : mul A (fun i j => B i j - C i j) i j = mul A B i j - mul A C i j.
  Proof. unfold mul. rewrite <- sum_to_minus. apply sum_to_ext. intros; ring. Qed.
  Lemma mul_minus_l A B C i j : mul (fun i j => A i j - B i j) C i j = mul A C i j - mul B C i j.
  Proof. unfold mul. rewrite <- sum_to_minus. apply sum_to_ext. intros; ring. Qed.
  Lemma inverse_mul A W : inverse n A W <-> eqn (mul A W) delta /\ eqn (mul W A) delta.
  Proof. split; [intros H; split; intros i j Hi Hj; apply H; assumption|]. intros [H1 H2] i j Hi Hj. split; [apply H1|apply H2]; assumption. Qed.
  Lemma sum_bound m f b : (forall k, (k < m)%nat -> Rabs (f k) <= b) -> Rabs (sum_to m f) <= INR m * b.
  Proof.
    induction m as [|m IH]; intros H; cbn [sum_to]; [rewrite Rabs_R0; simpl; lra|]. rewrite S_INR. eapply Rle_trans; [apply Rabs_triang|].
    specialize (IH ltac:(intros; apply H; lia)). specialize (H m ltac:(lia)). lra.
  Qed.

  Variables (E : nat -> nat -> R) (q : R).
  Hypothesis (Hq : 0 <= q) (Hq2 : q <= / 2).
  Hypothesis HE : forall i k, (i < n)%nat -> (k < n)%nat -> INR n * Rabs (E i k) <= q.
  Fixpoint P (k : nat) : nat -> nat -> R := match k with O => delta | S k => mul E (P k) end.
  Lemma P_comm k : eqn (mul (P k) E) (P (S k)).
  Proof.
    induction k as [|k IH]; intros i j Hi Hj.
    - cbn [P]. rewrite (mul_delta_l E i j Hi Hj). symmetry. apply mul_delta_r; assumption.
    - cbn [P]. rewrite mul_assoc. apply (mul_eqn E E _ _ (fun _ _ _ _ => eq_refl) IH); assumption.
  Qed.
  Lemma P_bound k i j : (i < n)%nat -> (j < n)%nat -> Rabs (P k i j) <= q ^ k.
  Proof.
    revert i. induction k as [|k IH]; intros i Hi Hj; cbn [P pow].
    - unfold delta. destruct (Nat.eqb i j); rewrite ?Rabs_R1, ?Rabs_R0; lra.
    - assert (Hn : 0 < INR n) by (apply lt_0_INR; lia). assert (K : 0 <= q ^ k) by (apply pow_le, Hq).
      eapply Rle_trans; [apply (sum_bound n _ (q / INR n * q ^ k))|right; field; lra]. intros m Hm. rewrite Rabs_mult.
      apply Rmult_le_compat; try apply Rabs_pos; [|apply IH; assumption]. apply Rmult_le_reg_l with (INR n); [exact Hn|].
      replace (INR n * (q / INR n)) with q by (field; lra). apply HE; assumption.
  Qed.
  Lemma geom : is_series (fun k => q ^ k) (/ (1 - q)).
  Proof. apply is_series_geom. rewrite Rabs_pos_eq by exact Hq. lra. Qed.
  Lemma P_series i j : (i < n)%nat -> (j < n)%nat -> ex_series (fun k => P k i j).
  Proof.
    intros Hi Hj. apply (ex_series_le (fun k => P k i j) (fun k => q ^ k)); [|eexists; exact geom].
    intros k. apply P_bound; assumption.
  Qed.
  Definition Sm : nat -> nat -> R := fun i j => Series (fun k => P k i j).
  Lemma sum_series m (c : nat -> R) (a : nat -> nat -> R) : (forall k, (k < m)%nat -> ex_series (a k)) ->
    ex_series (fun t => sum_to m (fun k => c k * a k t)) /\ Series (fun t => sum_to m (fun k => c k * a k t)) = sum_to m (fun k => c k * Series (a k)).
  Proof.
    induction m as [|m IH]; intros H; cbn [sum_to].
    - assert (Z : is_series (fun _ : nat => 0) 0).
      { pose proof (is_series_scal_l 0 _ _ (is_series_geom 0 ltac:(rewrite Rabs_R0; lra))) as Z. apply (is_series_ext _ (fun _ => 0)) in Z; [|intros k; unfold scal; simpl; unfold mult; simpl; ring].
        assert (Q : scal 0 (/ (1 - 0)) = 0) by (unfold scal; simpl; unfold mult; simpl; ring). exact (eq_ind _ (is_series (fun _ => 0)) Z _ Q). }
      split; [exists 0; exact Z|apply is_series_unique, Z].
    - destruct IH as [I1 I2]; [intros; apply H; lia|]. assert (J : ex_series (fun t => c m * a m t)) by exact (ex_series_scal_l (c m) (a m) (H m ltac:(lia))).
      split; [apply (ex_series_plus (fun t => sum_to m (fun k => c k * a k t)) (fun t => c m * a m t)); assumption|].
      rewrite (Series_plus (fun t => sum_to m (fun k => c k * a k t)) (fun t => c m * a m t)) by assumption. rewrite I2, Series_scal_l. reflexivity.
  Qed.
  Lemma S_step i j : (i < n)%nat -> (j < n)%nat -> Series (fun k => P (S k) i j) = Sm i j - delta i j.
  Proof. intros Hi Hj. unfold Sm. rewrite (Series_incr_1 (fun k => P k i j)) by (apply P_series; assumption). cbn [P]. ring. Qed.
  Lemma ES : eqn (mul E Sm) (fun i j => Sm i j - delta i j).
  Proof.
    intros i j Hi Hj. rewrite <- S_step by assumption. unfold mul, Sm.
    destruct (sum_series n (fun k => E i k) (fun k t => P t k j)) as [_ H]; [intros; apply P_series; assumption|]. rewrite <- H. reflexivity.
  Qed.
  Lemma SE : eqn (mul Sm E) (fun i j => Sm i j - delta i j).
  Proof.
    intros i j Hi Hj. rewrite <- S_step by assumption. unfold mul, Sm.
    destruct (sum_series n (fun k => E k j) (fun k t => P t i k)) as [_ H]; [intros; apply P_series; assumption|].
    rewrite (sum_to_ext n _ (fun k => E k j * Series (fun t => P t i k))) by (intros; ring). rewrite <- H. apply Series_ext. intros t.
    rewrite <- (P_comm t i j Hi Hj). apply sum_to_ext. intros; ring.
  Qed.
  Lemma S_near i j : (i < n)%nat -> (j < n)%nat -> Rabs (Sm i j - delta i j) <= 2 * q.
  Proof.
    intros Hi Hj. rewrite <- S_step by assumption.
    assert (G : is_series (fun k => q * q ^ k) (q * / (1 - q))) by exact (is_series_scal_l q _ _ geom).
    assert (Ex : ex_series (fun k => Rabs (P (S k) i j))).
    { apply (ex_series_le (fun k => Rabs (P (S k) i j)) (fun k => q * q ^ k)); [|eexists; exact G]. intros k. change (Rabs (Rabs (P (S k) i j)) <= q * q ^ k). rewrite Rabs_Rabsolu.
      apply (P_bound (S k)); assumption. }
    eapply Rle_trans; [apply Series_Rabs, Ex|]. eapply Rle_trans; [apply (Series_le _ (fun k => q * q ^ k)); [|eexists; exact G]|].
    - intros k. split; [apply Rabs_pos|]. apply (P_bound (S k)); assumption.
    - rewrite (is_series_unique _ _ G). rewrite (Rmult_comm 2). apply Rmult_le_compat_l; [exact Hq|].
      replace 2 with (/ / 2) by field. apply Rinv_le_contravar; lra.
  Qed.
End Product.

Lemma inverse_near n A W : inverse n A W -> forall eps, 0 < eps -> exists d, 0 < d /\ forall B, close n d A B -> exists V, inverse n B V /\ close n eps W V.
Proof.
  intros I eps He. assert (M : exists M, 0 < M /\ forall i j, (i < n)%nat -> (j < n)%nat -> Rabs (W i j) <= M).
  { assert (Row : forall m f, exists M, 0 < M /\ forall k, (k < m)%nat -> Rabs (f k) <= M).
    { clear. induction m as [|m IH]; intros f; [exists 1; split; [lra|intros; lia]|]. destruct (IH f) as (M & HM & B). exists (Rmax M (Rabs (f m))). split.
      - eapply Rlt_le_trans; [exact HM|apply Rmax_l].
      - intros k Hk. destruct (Nat.eq_dec k m) as [->|]; [apply Rmax_r|]. eapply Rle_trans; [apply B; lia|apply Rmax_l]. }
    assert (G : forall m, exists M, 0 < M /\ forall i j, (i < m)%nat -> (j < n)%nat -> Rabs (W i j) <= M).
    { induction m as [|m (M & HM & B)]; [exists 1; split; [lra|intros; lia]|]. destruct (Row n (W m)) as (M' & HM' & B'). exists (Rmax M M'). split.
      - eapply Rlt_le_trans; [exact HM|apply Rmax_l].
      - intros i j Hi Hj. destruct (Nat.eq_dec i m) as [->|]; [eapply Rle_trans; [apply B', Hj|apply Rmax_r]|]. eapply Rle_trans; [apply B; [lia|exact Hj]|apply Rmax_l]. }
    apply G. }
  destruct M as (M & HM & BM). set (N := INR n + 1). assert (HN : 0 < N) by (unfold N; pose proof (pos_INR n); lra).
  assert (Hn : 0 <= INR n < N) by (unfold N; pose proof (pos_INR n); lra).
  (* q bounds n |E| and the error is at most n * 2 q * M *)
  set (q := Rmin (/ 2) (eps / (4 * N * M))).
  assert (Hq : 0 < q) by (unfold q; apply Rmin_glb_lt; [lra|apply Rdiv_lt_0_compat; [exact He|apply Rmult_lt_0_compat; lra]]).
  assert (Hq2 : q <= / 2) by apply Rmin_l.
  assert (Hqe : q <= eps / (4 * N * M)) by apply Rmin_r.
  exists (q / (N * N * M)). assert (Hd : 0 < q / (N * N * M)) by (apply Rdiv_lt_0_compat; [exact Hq|repeat apply Rmult_lt_0_compat; lra]).
  split; [exact Hd|]. intros B HB. set (E := mul n W (fun i j => A i j - B i j)).
  apply inverse_mul in I as [I1 I2].
  assert (HE : forall i k, (i < n)%nat -> (k < n)%nat -> INR n * Rabs (E i k) <= q).
  { intros i k Hi Hk. assert (X : Rabs (E i k) <= INR n * (M * (q / (N * N * M)))).
    { unfold E, mul. apply sum_bound. intros m Hm. rewrite Rabs_mult. apply Rmult_le_compat; try apply Rabs_pos; [apply BM; assumption|].
      rewrite Rabs_minus_sym. left. apply HB; assumption. }
    apply Rle_trans with (N * (N * (M * (q / (N * N * M))))); [|right; field; lra].
    assert (Z : 0 < M * (q / (N * N * M))) by (apply Rmult_lt_0_compat; lra).
    apply Rmult_le_compat; [lra|apply Rabs_pos|lra|]. eapply Rle_trans; [exact X|]. apply Rmult_le_compat_r; lra. }
  pose proof (ES n E q (Rlt_le _ _ Hq) Hq2 HE) as HES. pose proof (SE n E q (Rlt_le _ _ Hq) Hq2 HE) as HSE. pose proof (S_near n E q (Rlt_le _ _ Hq) Hq2 HE) as HS.
  set (T := Sm n E) in *.
  (* A E = A - B *)
  assert (AE : eqn n (mul n A E) (fun i j => A i j - B i j)).
  { intros i j Hi Hj. unfold E. rewrite <- mul_assoc. rewrite (mul_eqn n (mul n A W) delta _ _ I1 (fun _ _ _ _ => eq_refl) i j Hi Hj). apply mul_delta_l; assumption. }
  assert (EB : eqn n B (mul n A (fun i j => delta i j - E i j))).
  { intros i j Hi Hj. rewrite mul_minus_r, (AE i j Hi Hj), (mul_delta_r n A i j Hi Hj). ring. }
  assert (L : eqn n (mul n (fun i j => delta i j - E i j) T) delta).
  { intros i j Hi Hj. rewrite mul_minus_l, (mul_delta_l n T i j Hi Hj), (HES i j Hi Hj). ring. }
  assert (R' : eqn n (mul n T (fun i j => delta i j - E i j)) delta).
  { intros i j Hi Hj. rewrite mul_minus_r, (mul_delta_r n T i j Hi Hj), (HSE i j Hi Hj). ring. }
  exists (mul n T W). split.
  - apply inverse_mul. split; intros i j Hi Hj.
    + rewrite (mul_eqn n B _ _ _ EB (fun _ _ _ _ => eq_refl) i j Hi Hj). rewrite mul_assoc.
      rewrite (mul_eqn n A A _ W (fun _ _ _ _ => eq_refl)); [apply I1; assumption| |assumption|assumption].
      intros a b Ha Hb. rewrite <- mul_assoc. rewrite (mul_eqn n _ delta W W L (fun _ _ _ _ => eq_refl) a b Ha Hb). apply mul_delta_l; assumption.
    + rewrite (mul_eqn n (mul n T W) _ _ _ (fun _ _ _ _ => eq_refl) EB i j Hi Hj). rewrite mul_assoc.
      rewrite (mul_eqn n T T _ (fun i j => delta i j - E i j) (fun _ _ _ _ => eq_refl)); [apply R'; assumption| |assumption|assumption].
      intros a b Ha Hb. rewrite <- mul_assoc. rewrite (mul_eqn n _ delta _ _ I2 (fun _ _ _ _ => eq_refl) a b Ha Hb). apply (mul_delta_l n (fun i j => delta i j - E i j)); assumption.
  - intros i j Hi Hj. replace (mul n T W i j - W i j) with (mul n (fun i j => T i j - delta i j) W i j) by (rewrite mul_minus_l, (mul_delta_l n W i j Hi Hj); reflexivity).
    apply Rle_lt_trans with (INR n * (2 * q * M)).
    + apply sum_bound. intros k Hk. rewrite Rabs_mult. apply Rmult_le_compat; try apply Rabs_pos; [apply HS; assumption|apply BM; assumption].
    + assert (Z : 0 < 2 * q * M) by (repeat apply Rmult_lt_0_compat; lra).
      apply Rlt_le_trans with (N * (2 * q * M)); [apply Rmult_lt_compat_r; lra|].
      apply Rle_trans with (N * (2 * (eps / (4 * N * M)) * M)); [|replace (N * (2 * (eps / (4 * N * M)) * M)) with (eps / 2) by (field; lra); lra].
      apply Rmult_le_compat_l; [lra|]. apply Rmult_le_compat_r; [lra|]. lra.
Qed.

(** ** Log-densities *)
Theorem log_density_near n A y L : log_density n A y L -> forall eps, 0 < eps ->
  exists d, 0 < d /\ forall B, close n d A B -> exists L', log_density n B y L' /\ Rabs (L' - L) < eps.
Proof.
  intros (W & IW & D & ->) eps He.
  set (Q := fun V : nat -> nat -> R => sum_to n (fun i => sum_to n (fun j => y i * V i j * y j))).
  assert (CQ : cont n W Q).
  { apply (cont_sum n W n (fun i V => sum_to n (fun j => y i * V i j * y j))). intros i Hi. apply (cont_sum n W n (fun j V => y i * V i j * y j)). intros j Hj.
    apply cont_mult; [apply cont_mult; [apply cont_const|apply cont_entry; assumption]|apply cont_const]. }
  destruct (CQ eps He) as (d1 & Hd1 & P1). destruct (inverse_near n A W IW d1 Hd1) as (d2 & Hd2 & P2).
  assert (Hc : exists e, 0 < e /\ forall z, Rabs (z - det n A) < e -> 0 < z /\ Rabs (ln z - ln (det n A)) < eps).
  { pose proof (derivable_continuous_pt ln (det n A) (exist _ _ (derivable_pt_lim_ln _ D))) as C.
    destruct (C eps He) as (al & Hal & C'). exists (Rmin al (det n A)). split; [apply Rmin_glb_lt; assumption|]. intros z Hz.
    assert (Hz1 : Rabs (z - det n A) < al) by (eapply Rlt_le_trans; [exact Hz|apply Rmin_l]). assert (Hz2 : Rabs (z - det n A) < det n A) by (eapply Rlt_le_trans; [exact Hz|apply Rmin_r]).
    apply Rabs_def2 in Hz2. split; [lra|]. destruct (Req_dec z (det n A)) as [->|Hne]; [rewrite Rminus_eq_0, Rabs_R0; exact He|].
    apply C'. split; [split; [exact I|auto]|exact Hz1]. }
  destruct Hc as (e & Hepos & Hln). destruct (det_cont n A e Hepos) as (d3 & Hd3 & P3).
  exists (Rmin d2 d3). split; [apply Rmin_glb_lt; assumption|]. intros B HB.
  assert (H2 : close n d2 A B) by (intros i j Hi Hj; eapply Rlt_le_trans; [apply HB; assumption|apply Rmin_l]).
  assert (H3 : close n d3 A B) by (intros i j Hi Hj; eapply Rlt_le_trans; [apply HB; assumption|apply Rmin_r]).
  destruct (P2 B H2) as (V & IV & CV). specialize (P1 V CV). destruct (Hln (det n B) (P3 B H3)) as [Db Lb].
  exists (- / 2 * Q V - / 2 * ln (det n B) - INR n / 2 * ln (2 * PI)). split; [exists V; exact (conj IV (conj Db eq_refl))|].
  fold (Q W). apply Rabs_def2 in P1, Lb. apply Rabs_def1; lra.
Qed.

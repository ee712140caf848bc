(** The modified Bessel functions of order 0 and 1. *)
From Coq Require Import Reals List Bool Arith Lra Lia.
From Coquelicot Require Import Coquelicot.
From Verif Require Import Py KernModel KernSpec.
Import ListNotations.
Local Open Scope R_scope.

Definition b0c (k : nat) : R := / (INR (fact k) * INR (fact k)).

Lemma bessel0_ps z : bessel0 z = PSeries b0c ((z / 2) ^ 2).
Proof. unfold bessel0, PSeries. apply Series_ext. intros k. unfold b0c. rewrite pow_mult. unfold Rdiv at 1. ring. Qed.

Lemma bessel1_ps z : bessel1 z = z / 2 * PSeries (PS_derive b0c) ((z / 2) ^ 2).
Proof.
  unfold bessel1, PSeries. rewrite <- Series_scal_l. apply Series_ext. intros k. unfold PS_derive, b0c. rewrite pow_add, pow_mult, pow_1.
  rewrite fact_simpl, mult_INR. pose proof (INR_fact_neq_0 k) as Hk. assert (Hs : INR (S k) <> 0) by (apply not_0_INR; lia). field. split; [exact Hk|exact Hs].
Qed.

Lemma lim_inv_S : is_lim_seq (fun n => / INR (S n)) 0.
Proof.
  assert (H : is_lim_seq (fun n => INR (S n)) p_infty) by (apply (is_lim_seq_incr_1 (fun n => INR n) p_infty), is_lim_seq_INR).
  apply (is_lim_seq_inv _ _ H). discriminate.
Qed.

Lemma b0c_radius : CV_radius b0c = p_infty.
Proof.
  apply CV_radius_infinite_DAlembert.
  - intros n. unfold b0c. apply Rinv_neq_0_compat. apply Rmult_integral_contrapositive_currified; apply INR_fact_neq_0.
  - apply (is_lim_seq_ext (fun n => / INR (S n) * / INR (S n))).
    + intros n. unfold b0c. rewrite fact_simpl, mult_INR. pose proof (INR_fact_lt_0 n) as Hk. assert (Hs : 0 < INR (S n)) by (apply lt_0_INR; lia).
      rewrite Rabs_pos_eq; [field; split; lra|]. apply Rlt_le. apply Rdiv_lt_0_compat; apply Rinv_0_lt_compat; repeat apply Rmult_lt_0_compat; assumption.
    + rewrite <- (Rmult_0_l 0). apply (is_lim_seq_mult' _ _ 0 0); apply lim_inv_S.
Qed.

Lemma bessel0_derive z : is_derive bessel0 z (bessel1 z).
Proof.
  apply (is_derive_ext (fun z => PSeries b0c ((z / 2) ^ 2))); [intros t; symmetry; apply bessel0_ps|].
  evar_last.
  - apply (is_derive_comp (PSeries b0c) (fun z => (z / 2) ^ 2)).
    + apply is_derive_PSeries. rewrite b0c_radius. exact I.
    + auto_derive; [trivial|reflexivity].
  - rewrite bessel1_ps. unfold scal. simpl. unfold mult. simpl. field.
Qed.

Lemma central_bound k : INR (fact (2 * k)) <= 4 ^ k * (INR (fact k) * INR (fact k)).
Proof.
  induction k as [|k IH]; [simpl; lra|].
  replace (2 * S k)%nat with (S (S (2 * k))) by lia. rewrite !fact_simpl, !mult_INR. simpl pow.
  replace (INR (S (S (2 * k)))) with (2 * (INR k + 1)) by (rewrite !S_INR, mult_INR; simpl; ring).
  replace (INR (S (2 * k))) with (2 * INR k + 1) by (rewrite !S_INR, mult_INR; simpl; ring).
  rewrite S_INR. pose proof (pos_INR k) as Hk. pose proof (INR_fact_lt_0 (2 * k)) as Hf.
  replace (4 * 4 ^ k * _) with (4 * ((INR k + 1) * (INR k + 1)) * (4 ^ k * (INR (fact k) * INR (fact k)))) by ring.
  rewrite <- Rmult_assoc.
  apply Rmult_le_compat; [nra|lra|nra|exact IH].
Qed.

Lemma exp_radius (a : nat -> R) : (forall k, 0 <= a k <= / INR (fact k)) -> forall x, ex_series (fun k => a k * x ^ k).
Proof.
  intros H x. apply (ex_series_le (fun k => a k * x ^ k) (fun k => / INR (fact k) * Rabs x ^ k)).
  - intros k. unfold norm. simpl. unfold abs. simpl. rewrite Rabs_mult, <- RPow_abs. apply Rmult_le_compat_r; [apply pow_le, Rabs_pos|].
    destruct (H k). rewrite Rabs_pos_eq by assumption. assumption.
  - exists (exp (Rabs x)). apply is_pseries_R, is_exp_Reals.
Qed.

Lemma fact_le_mul k n : (k <= n)%nat -> / INR (fact n) <= / INR (fact k).
Proof. intros H. apply Rinv_le_contravar; [apply INR_fact_lt_0|]. apply le_INR, fact_le, H. Qed.

Lemma bessel0_lt_exp z : 0 < z -> bessel0 z < exp z.
Proof.
  intros Hz. set (e := fun k => / INR (fact (2 * k))). set (o := fun k => / INR (fact (2 * k + 1))).
  assert (He : forall x, ex_series (fun k => e k * x ^ k)).
  { apply exp_radius. intros k. split; [apply Rlt_le, Rinv_0_lt_compat, INR_fact_lt_0|apply fact_le_mul; lia]. }
  assert (Ho : forall x, ex_series (fun k => o k * x ^ k)).
  { apply exp_radius. intros k. split; [apply Rlt_le, Rinv_0_lt_compat, INR_fact_lt_0|apply fact_le_mul; lia]. }
  assert (HE : exp z = PSeries e (z ^ 2) + z * PSeries o (z ^ 2)).
  { rewrite <- (is_pseries_unique _ _ _ (is_exp_Reals z)). apply is_pseries_unique.
    apply (is_pseries_odd_even (fun n => / INR (fact n)) z); apply is_pseries_R; apply Series_correct; [apply He|apply Ho]. }
  assert (Hb : bessel0 z <= PSeries e (z ^ 2)).
  { unfold bessel0, PSeries. apply Series_le; [|apply He]. intros k. pose proof (INR_fact_lt_0 k) as Hk. pose proof (INR_fact_lt_0 (2 * k)) as H2k.
    assert (Hp : 0 <= z ^ (2 * k)) by (apply pow_le; lra). split.
    - apply Rmult_le_pos; [apply pow_le; lra|]. apply Rlt_le, Rinv_0_lt_compat, Rmult_lt_0_compat; assumption.
    - unfold e. rewrite <- pow_mult. replace (z / 2) with (z * / 2) by reflexivity. rewrite Rpow_mult_distr, (pow_mult (/ 2)). replace ((/ 2) ^ 2) with (/ 4) by lra.
      rewrite pow_inv. pose proof (central_bound k) as Hc. assert (H4 : 0 < 4 ^ k) by (apply pow_lt; lra).
      replace (z ^ (2 * k) * / 4 ^ k / (INR (fact k) * INR (fact k))) with (/ (4 ^ k * (INR (fact k) * INR (fact k))) * z ^ (2 * k)) by (field; lra).
      apply Rmult_le_compat_r; [exact Hp|]. apply Rinv_le_contravar; assumption. }
  assert (Hpos : 1 <= PSeries o (z ^ 2)).
  { rewrite PSeries_decr_1 by (apply ex_pseries_R, Ho). replace (o 0%nat) with 1 by (unfold o; simpl; lra).
    assert (0 <= PSeries (PS_decr_1 o) (z ^ 2)); [|assert (0 <= z ^ 2) by (apply pow_le; lra); nra].
    unfold PSeries. apply Rle_trans with (Series (fun _ => 0)); [|].
    - right. symmetry. rewrite (Series_ext _ (fun k => 0 * 0)) by (intros; ring). rewrite Series_scal_l. ring.
    - apply Series_le.
      + intros k. split; [lra|]. apply Rmult_le_pos; [unfold PS_decr_1, o; apply Rlt_le, Rinv_0_lt_compat, INR_fact_lt_0|apply pow_le, pow_le; lra].
      + apply ex_pseries_R. apply ex_pseries_decr_1; [|apply ex_pseries_R, Ho]. right. exists (/ z ^ 2). apply Rinv_l. apply pow_nonzero. lra. }
  rewrite HE. nra.
Qed.

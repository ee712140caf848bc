(** Lemmas about the sigmoids. *)
From Coq Require Import Reals List Bool Arith Lra Lia Psatz.
From Coquelicot Require Import Coquelicot.
From Verif Require Import Py KernModel KernSpec.
Import ListNotations.
Local Open Scope R_scope.

Definition core (a : R) : R := a / (1 + Rabs a).

Lemma one_abs a : 0 < 1 + Rabs a.
Proof. pose proof (Rabs_pos a). lra. Qed.

Lemma sigmoid_core a : sigmoid_function a = (1 + core a) / 2.
Proof. reflexivity. Qed.

Lemma core_opp a : core (- a) = - core a.
Proof. unfold core. rewrite Rabs_Ropp. field. pose proof (one_abs a). lra. Qed.

Lemma core_pos a : 0 <= a -> core a = 1 - / (1 + a).
Proof. intros H. unfold core. rewrite Rabs_pos_eq by exact H. field. lra. Qed.

Lemma core_neg a : a <= 0 -> core a = / (1 - a) - 1.
Proof. intros H. unfold core. rewrite Rabs_left1 by exact H. field. lra. Qed.

Lemma core_bounds a : -1 < core a < 1.
Proof.
  unfold core. pose proof (one_abs a). split.
  - apply (Rmult_lt_reg_r (1 + Rabs a)); [lra|]. unfold Rdiv. rewrite Rmult_assoc, Rinv_l by lra. pose proof (Rle_abs (- a)). rewrite Rabs_Ropp in *. lra.
  - apply (Rmult_lt_reg_r (1 + Rabs a)); [lra|]. unfold Rdiv. rewrite Rmult_assoc, Rinv_l by lra. pose proof (Rle_abs a). lra.
Qed.

Lemma core_incr a b : a < b -> core a < core b.
Proof.
  intros H. destruct (Rle_or_lt 0 a) as [Ha|Ha].
  - rewrite !core_pos by lra. assert (/ (1 + b) < / (1 + a)) by (apply Rinv_lt_contravar; nra). lra.
  - destruct (Rle_or_lt 0 b) as [Hb|Hb].
    + rewrite (core_neg a), (core_pos b) by lra. assert (/ (1 - a) < 1) by (rewrite <- Rinv_1; apply Rinv_lt_contravar; lra).
      assert (/ (1 + b) <= 1) by (rewrite <- Rinv_1; apply Rinv_le_contravar; lra). lra.
    + rewrite !core_neg by lra. assert (/ (1 - a) < / (1 - b)) by (apply Rinv_lt_contravar; nra). lra.
Qed.

Lemma core_0 : core 0 = 0.
Proof. unfold core. lra. Qed.

Lemma core_derive a : is_derive core a (/ (1 + Rabs a) ^ 2).
Proof.
  destruct (Rtotal_order a 0) as [Ha|[->|Ha]].
  - apply (is_derive_ext_loc (fun t => / (1 - t) - 1)).
    + exists (mkposreal (- a) ltac:(lra)). intros t Ht. symmetry. apply core_neg. unfold ball in Ht. simpl in Ht. unfold AbsRing_ball, abs, minus, plus, opp in Ht. simpl in Ht.
      apply Rabs_lt_between in Ht. lra.
    + rewrite Rabs_left by exact Ha. auto_derive; [lra|]. field. lra.
  - rewrite Rabs_R0. rewrite is_derive_Reals. intros eps Heps. exists (mkposreal eps Heps). intros h Hh Hd. simpl in Hd.
    rewrite Rplus_0_l, core_0. unfold core. pose proof (one_abs h).
    replace ((h / (1 + Rabs h) - 0) / h - / (1 + 0) ^ 2) with (- (Rabs h / (1 + Rabs h))) by (field; split; lra).
    rewrite Rabs_Ropp, Rabs_pos_eq. 2:{ apply Rdiv_le_0_compat; [apply Rabs_pos|lra]. }
    apply (Rmult_lt_reg_r (1 + Rabs h)); [lra|]. unfold Rdiv. rewrite Rmult_assoc, Rinv_l by lra. pose proof (Rabs_pos h). nra.
  - apply (is_derive_ext_loc (fun t => 1 - / (1 + t))).
    + exists (mkposreal a Ha). intros t Ht. symmetry. apply core_pos. unfold ball in Ht. simpl in Ht. unfold AbsRing_ball, abs, minus, plus, opp in Ht. simpl in Ht.
      apply Rabs_lt_between in Ht. lra.
    + rewrite Rabs_pos_eq by lra. auto_derive; [lra|]. field. lra.
Qed.

Lemma sigmoid_d_core a : sigmoid_function_d a = / (1 + Rabs a) ^ 2 / 2.
Proof. unfold sigmoid_function_d. change 0.5 with (5 / 10). field. pose proof (one_abs a). lra. Qed.

Lemma sigmoid_derive a : is_derive sigmoid_function a (sigmoid_function_d a).
Proof.
  rewrite sigmoid_d_core. apply (is_derive_ext (fun t => (1 + core t) / 2)); [reflexivity|].
  auto_derive; [eexists; apply core_derive|].
  change (Derive (fun x => core x) a) with (Derive core a). rewrite (is_derive_unique _ _ _ (core_derive a)). lra.
Qed.

Lemma sigmoid_bounds a : 0 < sigmoid_function a < 1.
Proof. rewrite sigmoid_core. pose proof (core_bounds a). lra. Qed.
Lemma sigmoid_incr a b : a < b -> sigmoid_function a < sigmoid_function b.
Proof. intros H. rewrite !sigmoid_core. pose proof (core_incr a b H). lra. Qed.
Lemma sigmoid_0 : sigmoid_function 0 = / 2.
Proof. rewrite sigmoid_core, core_0. lra. Qed.

(** C38 *)
Lemma phi_S_props l s : 0 < s ->
  (forall x y, x < y -> phi_S l s false x < phi_S l s false y)
  /\ (forall x, 0 < phi_S l s false x < 1) /\ phi_S l s false l = / 2
  /\ (forall x, phi_S l s true x = 1 - phi_S l s false x)
  /\ (forall a, derivable_pt_lim sigmoid_function a (sigmoid_function_d a)).
Proof.
  intros Hs. unfold phi_S. split; [|split; [|split; [|split]]].
  - intros x y H. apply sigmoid_incr. apply Rmult_lt_compat_r; [apply Rinv_0_lt_compat; exact Hs|lra].
  - intros x. apply sigmoid_bounds.
  - replace ((l - l) / s) with 0 by (field; lra). apply sigmoid_0.
  - reflexivity.
  - intros a. apply is_derive_Reals, sigmoid_derive.
Qed.

(** The hat: with a + b = m, (core a + core b) / 2 is positive and at most core (m / 2), with equality only at a = b. *)
Lemma core_sum_pos a b : 0 < a + b -> 0 < core a + core b.
Proof. intros H. assert (core (- b) < core a) by (apply core_incr; lra). rewrite core_opp in H0. lra. Qed.

Lemma core_sum_max_pos a b : 0 <= a -> 0 <= b -> a <> b -> (core a + core b) / 2 < core ((a + b) / 2).
Proof.
  intros Ha Hb Hne. rewrite !core_pos by lra.
  assert (H : / (1 + (a + b) / 2) < (/ (1 + a) + / (1 + b)) / 2); [|lra].
  assert (Hd : (/ (1 + a) + / (1 + b)) / 2 - / (1 + (a + b) / 2) = (a - b) ^ 2 / (2 * (1 + a) * (1 + b) * (2 + a + b))) by (field; lra).
  assert (0 < (a - b) ^ 2 / (2 * (1 + a) * (1 + b) * (2 + a + b))); [|lra].
  apply Rdiv_lt_0_compat; [|apply Rmult_lt_0_compat; nra]. assert (a - b <> 0) by lra. nra.
Qed.

Lemma core_sum_max a b : 0 < a + b -> a <> b -> (core a + core b) / 2 < core ((a + b) / 2).
Proof.
  intros H Hne. destruct (Rle_or_lt 0 a) as [Ha|Ha]; [destruct (Rle_or_lt 0 b) as [Hb|Hb]; [apply core_sum_max_pos; assumption|]|].
  - assert (H1 := core_sum_max_pos 0 (a + b) ltac:(lra) ltac:(lra) ltac:(lra)). rewrite core_0 in H1. replace ((0 + (a + b)) / 2) with ((a + b) / 2) in H1 by lra.
    assert (H2 : core a + core b <= core (a + b)); [|lra].
    rewrite (core_pos a), (core_neg b), (core_pos (a + b)) by lra.
    assert (Hd : (1 - / (1 + (a + b))) - (1 - / (1 + a) + (/ (1 - b) - 1)) = - b * (a + b) * (2 + a) / ((1 + a) * (1 - b) * (1 + a + b))) by (field; lra).
    assert (0 <= - b * (a + b) * (2 + a) / ((1 + a) * (1 - b) * (1 + a + b))); [|lra].
    apply Rdiv_le_0_compat; [apply Rmult_le_pos; [nra|lra]|apply Rmult_lt_0_compat; nra].
  - assert (H1 := core_sum_max_pos 0 (a + b) ltac:(lra) ltac:(lra) ltac:(lra)). rewrite core_0 in H1. replace ((0 + (a + b)) / 2) with ((a + b) / 2) in H1 by lra.
    assert (H2 : core a + core b <= core (a + b)); [|lra].
    rewrite (core_pos b), (core_neg a), (core_pos (a + b)) by lra.
    assert (Hd : (1 - / (1 + (a + b))) - ((/ (1 - a) - 1) + (1 - / (1 + b))) = - a * (a + b) * (2 + b) / ((1 + b) * (1 - a) * (1 + a + b))) by (field; lra).
    assert (0 <= - a * (a + b) * (2 + b) / ((1 + b) * (1 - a) * (1 + a + b))); [|lra].
    apply Rdiv_le_0_compat; [apply Rmult_le_pos; [nra|lra]|apply Rmult_lt_0_compat; nra].
Qed.

Lemma phi_SI_core l s w x : s <> 0 ->
  phi_SI l s w false x = ((core ((x - l) / s) + core ((l + w - x) / s)) / 2) / core (w / (2 * s)).
Proof.
  intros Hs. unfold phi_SI. rewrite !sigmoid_core. unfold core_sigmoid_function. fold (core (w / (2 * s))).
  replace ((x - l - w) / - s) with ((l + w - x) / s) by (field; exact Hs). unfold Rdiv. f_equal. lra.
Qed.

(** C39 *)
Lemma phi_SI_props l s w : 0 < s -> 0 < w ->
  (forall x, 0 < phi_SI l s w false x <= 1)
  /\ (forall x, phi_SI l s w false x = 1 <-> x = l + w / 2)
  /\ (forall d, phi_SI l s w false (l + w / 2 + d) = phi_SI l s w false (l + w / 2 - d))
  /\ (forall x, phi_SI l s w true x = 1 - phi_SI l s w false x).
Proof.
  intros Hs Hw.
  assert (Hh : 0 < core (w / (2 * s))). { rewrite <- core_0. apply core_incr. apply Rdiv_lt_0_compat; lra. }
  assert (Hsum : forall x, (x - l) / s + (l + w - x) / s = w / s) by (intros; field; lra).
  assert (Hws : 0 < w / s) by (apply Rdiv_lt_0_compat; lra).
  assert (Hhalf : w / s / 2 = w / (2 * s)) by (field; lra).
  assert (Hmid : forall x, (x - l) / s = (l + w - x) / s <-> x = l + w / 2).
  { intros x. split.
    - intros H. apply (Rmult_eq_compat_r s) in H. unfold Rdiv in H. rewrite !Rmult_assoc, !Rinv_l in H by lra. lra.
    - intros ->. f_equal. lra. }
  assert (Hlt : forall x, x <> l + w / 2 -> phi_SI l s w false x < 1).
  { intros x Hx. rewrite phi_SI_core by lra. apply (Rmult_lt_reg_r (core (w / (2 * s)))); [exact Hh|]. unfold Rdiv at 1. rewrite Rmult_assoc, Rinv_l, Rmult_1_r, Rmult_1_l by lra.
    rewrite <- Hhalf, <- (Hsum x). apply core_sum_max; [rewrite Hsum; exact Hws|]. intros E. apply Hx, Hmid, E. }
  assert (H1 : phi_SI l s w false (l + w / 2) = 1).
  { rewrite phi_SI_core by lra. rewrite <- (proj2 (Hmid _) eq_refl). replace ((l + w / 2 - l) / s) with (w / (2 * s)) by (field; lra). field. lra. }
  split; [|split; [|split]].
  - intros x. split.
    + rewrite phi_SI_core by lra. apply Rdiv_lt_0_compat; [|exact Hh]. pose proof (core_sum_pos ((x - l) / s) ((l + w - x) / s)) as H. rewrite Hsum in H. specialize (H Hws). lra.
    + destruct (Req_dec x (l + w / 2)) as [->|Hx]; [lra|]. left. apply Hlt, Hx.
  - intros x. split; [|intros ->; exact H1]. intros E. destruct (Req_dec x (l + w / 2)) as [Hx|Hx]; [exact Hx|]. pose proof (Hlt x Hx). lra.
  - intros d. rewrite !phi_SI_core by lra. f_equal. f_equal. rewrite Rplus_comm. f_equal; f_equal; f_equal; lra.
  - reflexivity.
Qed.

(** Lemmas about scores and change data. *)
From Coq Require Import Reals List Bool Arith Lra Lia.
From Verif Require Import Py KernModel DataModel.
Local Open Scope R_scope.

Lemma Rltb_spec a b : Rltb a b = true <-> a < b.
Proof. unfold Rltb. destruct (Rlt_dec a b); split; auto; discriminate. Qed.

Lemma exp_1_lt_3_ln n : exp 1 < INR n -> 1 < ln (INR n).
Proof. intros H. rewrite <- (ln_exp 1). apply ln_increasing; [apply exp_pos|exact H]. Qed.

Lemma scores_ll n k l1 l2 : l1 < l2 ->
  BIC l2 n k < BIC l1 n k /\ AIC l2 n k < AIC l1 n k
  /\ (n <> (k + 1)%nat -> exists a1 a2, AICc l1 n k = Ok a1 /\ AICc l2 n k = Ok a2 /\ a2 < a1).
Proof.
  intros H. unfold BIC, AIC, AICc. repeat split; try lra. intros Hn. apply Nat.eqb_neq in Hn. rewrite Hn. do 2 eexists. split; [reflexivity|]. split; [reflexivity|]. lra.
Qed.

Lemma scores_k ll n k1 k2 : (k1 < k2)%nat ->
  ((1 < n)%nat -> BIC ll n k1 < BIC ll n k2) /\ AIC ll n k1 < AIC ll n k2
  /\ ((k2 + 1 < n)%nat -> exists a1 a2, AICc ll n k1 = Ok a1 /\ AICc ll n k2 = Ok a2 /\ a1 < a2).
Proof.
  intros H. pose proof (lt_INR _ _ H) as HR. pose proof (pos_INR k1) as H1. unfold BIC, AIC, AICc. repeat split.
  - intros Hn. assert (0 < ln (INR n)). { rewrite <- ln_1. apply ln_increasing; [lra|]. apply (lt_INR 1 n), Hn. } nra.
  - lra.
  - intros Hn. assert (E1 : Nat.eqb n (k1 + 1) = false) by (apply Nat.eqb_neq; lia). assert (E2 : Nat.eqb n (k2 + 1) = false) by (apply Nat.eqb_neq; lia). rewrite E1, E2.
    do 2 eexists. split; [reflexivity|]. split; [reflexivity|]. apply lt_INR in Hn. rewrite plus_INR in Hn. simpl in Hn.
    assert (HD : (INR k1 ^ 2 + INR k1) / (INR n - INR k1 - 1) <= (INR k2 ^ 2 + INR k2) / (INR n - INR k2 - 1)).
    { unfold Rdiv. apply Rmult_le_compat; [nra|apply Rlt_le, Rinv_0_lt_compat; lra|nra|apply Rinv_le_contravar; lra]. }
    lra.
Qed.

Lemma AICc_AIC ll n k : (k + 1 < n)%nat -> exists a, AICc ll n k = Ok a /\ AIC ll n k <= a.
Proof.
  intros Hn. unfold AICc, AIC. assert (E : Nat.eqb n (k + 1) = false) by (apply Nat.eqb_neq; lia). rewrite E. eexists. split; [reflexivity|].
  apply lt_INR in Hn. rewrite plus_INR in Hn. simpl in Hn. pose proof (pos_INR k) as Hk. assert (0 <= (INR k ^ 2 + INR k) / (INR n - INR k - 1)).
  { apply Rmult_le_pos; [nra|]. apply Rlt_le, Rinv_0_lt_compat. lra. } lra.
Qed.

Lemma AICc_below_AIC : exists ll n k a, AICc ll n k = Ok a /\ a < AIC ll n k.
Proof. exists 0, 2%nat, 3%nat. eexists. split; [reflexivity|]. unfold AIC. simpl. lra. Qed.

Lemma AICc_decreases : exists ll n k1 k2 a1 a2, (k1 < k2)%nat /\ AICc ll n k1 = Ok a1 /\ AICc ll n k2 = Ok a2 /\ a2 < a1.
Proof. exists 0, 4%nat, 2%nat, 4%nat. do 2 eexists. split; [lia|]. split; [reflexivity|]. split; [reflexivity|]. simpl. lra. Qed.

(** Glueing two continuous functions that agree at the border. *)
Lemma glue_continuous (a b : R -> R) c : continuity a -> continuity b -> a c = b c -> continuity (fun x => if Rltb x c then a x else b x).
Proof.
  intros Ha Hb E x eps Heps. destruct (Ha x eps Heps) as (da & Hda & HA). destruct (Hb x eps Heps) as (db & Hdb & HB). simpl in *. unfold R_dist in *.
  destruct (Rtotal_order x c) as [Hx|[Hx|Hx]].
  - exists (Rmin da (c - x)). split; [apply Rmin_glb_lt; lra|]. intros y [HD Hy]. pose proof (Rlt_le_trans _ _ _ Hy (Rmin_l _ _)) as H1. pose proof (Rlt_le_trans _ _ _ Hy (Rmin_r _ _)) as H2.
    apply Rabs_def2 in H2. assert (E1 : Rltb x c = true) by (apply Rltb_spec; lra). assert (E2 : Rltb y c = true) by (apply Rltb_spec; lra). rewrite E1, E2. apply HA. split; [exact HD|exact H1].
  - subst x. assert (E1 : Rltb c c = false). { destruct (Rltb c c) eqn:E1; [|reflexivity]. apply Rltb_spec in E1. lra. } rewrite E1.
    exists (Rmin da db). split; [apply Rmin_glb_lt; lra|]. intros y [HD Hy]. pose proof (Rlt_le_trans _ _ _ Hy (Rmin_l _ _)) as H1. pose proof (Rlt_le_trans _ _ _ Hy (Rmin_r _ _)) as H2.
    destruct (Rltb y c); [rewrite <- E; apply HA|apply HB]; split; assumption.
  - exists (Rmin db (x - c)). split; [apply Rmin_glb_lt; lra|]. intros y [HD Hy]. pose proof (Rlt_le_trans _ _ _ Hy (Rmin_l _ _)) as H1. pose proof (Rlt_le_trans _ _ _ Hy (Rmin_r _ _)) as H2.
    apply Rabs_def2 in H2. assert (E1 : Rltb x c = false). { destruct (Rltb x c) eqn:E1; [|reflexivity]. apply Rltb_spec in E1. lra. } assert (E2 : Rltb y c = false). { destruct (Rltb y c) eqn:E2; [|reflexivity]. apply Rltb_spec in E2. lra. }
    rewrite E1, E2. apply HB. split; [exact HD|exact H1].
Qed.
Lemma glue_continuous_r (a b : R -> R) c : continuity a -> continuity b -> a c = b c -> continuity (fun x => if Rltb c x then a x else b x).
Proof.
  intros Ha Hb E x eps Heps. destruct (Ha x eps Heps) as (da & Hda & HA). destruct (Hb x eps Heps) as (db & Hdb & HB). simpl in *. unfold R_dist in *.
  destruct (Rtotal_order c x) as [Hx|[Hx|Hx]].
  - exists (Rmin da (x - c)). split; [apply Rmin_glb_lt; lra|]. intros y [HD Hy]. pose proof (Rlt_le_trans _ _ _ Hy (Rmin_l _ _)) as H1. pose proof (Rlt_le_trans _ _ _ Hy (Rmin_r _ _)) as H2.
    apply Rabs_def2 in H2. assert (E1 : Rltb c x = true) by (apply Rltb_spec; lra). assert (E2 : Rltb c y = true) by (apply Rltb_spec; lra). rewrite E1, E2. apply HA. split; [exact HD|exact H1].
  - subst x. assert (E1 : Rltb c c = false). { destruct (Rltb c c) eqn:E1; [|reflexivity]. apply Rltb_spec in E1. lra. } rewrite E1.
    exists (Rmin da db). split; [apply Rmin_glb_lt; lra|]. intros y [HD Hy]. pose proof (Rlt_le_trans _ _ _ Hy (Rmin_l _ _)) as H1. pose proof (Rlt_le_trans _ _ _ Hy (Rmin_r _ _)) as H2.
    destruct (Rltb c y); [rewrite <- E; apply HA|apply HB]; split; assumption.
  - exists (Rmin db (c - x)). split; [apply Rmin_glb_lt; lra|]. intros y [HD Hy]. pose proof (Rlt_le_trans _ _ _ Hy (Rmin_l _ _)) as H1. pose proof (Rlt_le_trans _ _ _ Hy (Rmin_r _ _)) as H2.
    apply Rabs_def2 in H2. assert (E1 : Rltb c x = false). { destruct (Rltb c x) eqn:E1; [|reflexivity]. apply Rltb_spec in E1. lra. } assert (E2 : Rltb c y = false). { destruct (Rltb c y) eqn:E2; [|reflexivity]. apply Rltb_spec in E2. lra. }
    rewrite E1, E2. apply HB. split; [exact HD|exact H1].
Qed.

Lemma shift_continuous k (f : R -> R) : continuity f -> continuity (fun x => k + f x).
Proof. intros H. apply (continuity_plus (fun _ => k) f); [apply continuity_const; intros ? ?; reflexivity|exact H]. Qed.

Lemma continuity_pt_ext (f g : R -> R) x : (forall z, f z = g z) -> continuity_pt f x -> continuity_pt g x.
Proof. intros E H eps Heps. destruct (H eps Heps) as (d & Hd & HH). exists d. split; [exact Hd|]. intros y Hy. rewrite <- !E. apply HH, Hy. Qed.

Lemma cp_continuous f1 f2 cp : continuity f1 -> continuity f2 -> continuity (cp_f_maker f1 f2 cp true).
Proof. intros H1 H2. unfold cp_f_maker. apply glue_continuous; [exact H1|apply shift_continuous, H2|ring]. Qed.

Lemma cw_continuous f1 f2 s e : continuity f1 -> continuity f2 -> continuity (cw_f_maker f1 f2 s e true).
Proof.
  intros H1 H2. unfold cw_f_maker. destruct (Rltb e s) eqn:Ees.
  - assert (E : forall z, f1 z = (if Rltb z s then f1 z else if Rltb e z then f1 e - f1 e + f1 z else f1 s - f2 s + f2 z)).
    { intros z. destruct (Rltb z s) eqn:Ez; [reflexivity|]. destruct (Rltb e z) eqn:Ez2; [ring|]. exfalso. apply Rltb_spec in Ees. assert (~ z < s) by (intros Q; apply Rltb_spec in Q; congruence). assert (~ e < z) by (intros Q; apply Rltb_spec in Q; congruence). lra. }
    intros x. apply (continuity_pt_ext f1); [exact E|apply H1].
  - apply glue_continuous; [exact H1| |].
    + apply glue_continuous_r; [apply shift_continuous, H1|apply shift_continuous, H2|ring].
    + rewrite Ees. ring.
Qed.

(** Away from the change, the data keep their shape; without lining up they are the given functions. *)
Lemma cp_values f1 f2 cp x : (x < cp -> cp_f_maker f1 f2 cp false x = f1 x /\ cp_f_maker f1 f2 cp true x = f1 x)
  /\ (cp <= x -> cp_f_maker f1 f2 cp false x = f2 x /\ cp_f_maker f1 f2 cp true x - f2 x = f1 cp - f2 cp).
Proof.
  unfold cp_f_maker. split; intros H.
  - assert (E : Rltb x cp = true) by (apply Rltb_spec, H). rewrite E. auto.
  - destruct (Rltb x cp) eqn:E; [apply Rltb_spec in E; lra|]. split; [reflexivity|ring].
Qed.
Lemma cw_values f1 f2 s e x : s <= e ->
  (x < s -> cw_f_maker f1 f2 s e false x = f1 x /\ cw_f_maker f1 f2 s e true x = f1 x)
  /\ (s <= x <= e -> cw_f_maker f1 f2 s e false x = f2 x /\ cw_f_maker f1 f2 s e true x - f2 x = f1 s - f2 s)
  /\ (e < x -> cw_f_maker f1 f2 s e false x = f1 x /\ cw_f_maker f1 f2 s e true x - f1 x = f1 s - f2 s + f2 e - f1 e).
Proof.
  intros H. unfold cw_f_maker.
  assert (T : forall a b, a < b -> Rltb a b = true) by (intros a b Q; apply Rltb_spec, Q).
  assert (N : forall a b, b <= a -> Rltb a b = false). { intros a b Q. destruct (Rltb a b) eqn:E; [apply Rltb_spec in E; lra|reflexivity]. }
  split; [|split]; intros Hx.
  - rewrite (T x s Hx). auto.
  - rewrite (N x s), (N e x) by lra. cbn [orb]. split; [reflexivity|ring].
  - rewrite (N x s), (T e x), (N e s) by lra. cbn [orb]. split; [reflexivity|ring].
Qed.

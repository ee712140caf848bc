(** C83: an expression not reported stationary has a covariance function that is not invariant under shifts. *)
From Coq Require Import Reals Lra List Bool Arith ZArith Lia.
From Verif Require Import Py UtilModel UtilSpec UtilProofs KexModel KexSpec KexProofs KexSimp KexMore OpsModel KexCong OpsSpec OpsProofs KernModel KernSpec KernSig KernProper SemModel SemSpec SemProofs SemSimp SemMore SemOps KexCheck.
Import ListNotations.
Local Open Scope R_scope.

(** The variances at the inputs 1 and 2. *)
Definition D1 (K : kern) : R := K (fun _ => 1) O O.
Definition D2 (K : kern) : R := K (fun _ => 2) O O.
(** A member whose variance does not fall from 1 to 2, and rises if [s]. *)
Definition grows (f : family) (s : bool) : Prop := exists K, f K /\ 0 < D1 K <= D2 K /\ (s = true -> D1 K < D2 K).
Lemma grows_weak f s : grows f s -> grows f false.
Proof. intros (K & H & L & _). exists K. split; [exact H|]. split; [exact L|discriminate]. Qed.

Lemma base_grows o b : is_sigmoid b = false -> grows (base_family o b) (non_stationary b).
Proof.
  intros S. destruct (non_stationary b) eqn:E.
  - destruct b; try discriminate. exists (fun x i j => 1 * ((x i - 0) * (x j - 0))). split.
    + exists 1, 0. split; [lra|]. split; [reflexivity|reflexivity].
    + unfold D1, D2. split; [lra|intros; lra].
  - destruct (stationary_diagonal o b E) as [(K & HK) D]. destruct (D K HK) as (v & Hv & Ev). exists K. split; [exact HK|].
    unfold D1, D2. rewrite !Ev. split; [lra|discriminate].
Qed.

Lemma combine2_grows k f g s1 s2 : grows f s1 -> grows g s2 -> grows (combine2 k f g) (s1 || s2).
Proof.
  intros (K1 & H1 & L1 & S1) (K2 & H2 & L2 & S2). exists (fun x i j => op k (K1 x i j) (K2 x i j)).
  split; [exists K1, K2; split; [exact H1|split; [exact H2|reflexivity]]|].
  unfold D1, D2 in *. revert L1 L2 S1 S2.
  generalize (K1 (fun _ => 1) 0%nat 0%nat), (K1 (fun _ => 2) 0%nat 0%nat), (K2 (fun _ => 1) 0%nat 0%nat), (K2 (fun _ => 2) 0%nat 0%nat).
  intros a a' b b' L1 L2 S1 S2. destruct k; cbn [op].
  - split; [lra|]. intros E. apply orb_prop in E as [E|E]; [specialize (S1 E)|specialize (S2 E)]; lra.
  - split; [split; [apply Rmult_lt_0_compat; lra|apply Rmult_le_compat; lra]|].
    intros E. apply orb_prop in E as [E|E].
    + specialize (S1 E). apply Rlt_le_trans with (a' * b); [apply Rmult_lt_compat_r; lra|apply Rmult_le_compat_l; lra].
    + specialize (S2 E). apply Rlt_le_trans with (a * b'); [apply Rmult_lt_compat_l; lra|apply Rmult_le_compat_r; lra].
Qed.
Lemma combine_unit_grows k f s : grows f s -> grows (combine_all k [f]) s.
Proof.
  intros (K & H & L & S). exists (fun x i j => op k (K x i j) (unit k)).
  split; [exists K, (fun _ _ _ => unit k); split; [exact H|split; intros x i j; reflexivity]|].
  unfold D1, D2 in *. destruct k; cbn [op unit]; [rewrite !Rplus_0_r|rewrite !Rmult_1_r]; split; assumption.
Qed.
Lemma combine_all_grows k fs : fs <> [] -> (forall f, In f fs -> grows f false) ->
  forall s, (s = true -> exists f, In f fs /\ grows f true) -> grows (combine_all k fs) s.
Proof.
  induction fs as [|f fs IH]; intros N G s S; [congruence|]. destruct fs as [|f' fs].
  - apply combine_unit_grows. destruct s; [|apply G; left; reflexivity]. destruct (S eq_refl) as (g & [<-|[]] & Hg). exact Hg.
  - change (combine_all k (f :: f' :: fs)) with (combine2 k f (combine_all k (f' :: fs))).
    assert (IH' := IH ltac:(discriminate) (fun g Hg => G g (or_intror Hg))).
    assert (T0 : grows (combine_all k (f' :: fs)) false) by (apply IH'; discriminate).
    assert (F0 : grows f false) by (apply G; left; reflexivity).
    destruct s; [|exact (combine2_grows k _ _ _ _ F0 T0)]. destruct (S eq_refl) as (g & [<-|Hg] & Gg).
    + exact (combine2_grows k _ _ _ _ Gg T0).
    + apply (combine2_grows k _ _ false true F0). apply IH'. intros _. exists g. split; assumption.
Qed.

(** A change whose first member is scaled down grows. *)
Lemma small a1 a2 d p : 0 < a1 -> 0 < a2 -> 0 < d -> 0 <= p <= 1 -> exists c, 0 < c /\ c * a1 * p < a2 * d.
Proof.
  intros Ha1 Ha2 Hd Hp. assert (P : 0 < a2 * d) by (apply Rmult_lt_0_compat; assumption). exists (a2 * d / (2 * a1)). split.
  - apply Rdiv_lt_0_compat; lra.
  - replace (a2 * d / (2 * a1) * a1 * p) with (a2 * d * (p / 2)) by (field; lra).
    apply Rlt_le_trans with (a2 * d * 1); [apply Rmult_lt_compat_l; lra|lra].
Qed.
Lemma window c : exists l w, 0 < w /\
  let phi := match c with CP => phi_S l (1 / 2) | CW => phi_SI l (1 / 2) w end in
  0 < phi false 1 < phi false 2 /\ 0 <= phi true 1 <= 1 /\ 0 <= phi true 2.
Proof.
  destruct c.
  - exists 0, 1. split; [lra|]. cbv zeta. destruct (phi_S_props 0 (1 / 2) ltac:(lra)) as (M & B & _ & R & _).
    rewrite !R. pose proof (M 1 2 ltac:(lra)). pose proof (B 1). pose proof (B 2). lra.
  - exists (3 / 2), 1. split; [lra|]. cbv zeta. destruct (phi_SI_props (3 / 2) (1 / 2) 1 ltac:(lra) ltac:(lra)) as (B & U & _ & R).
    rewrite !R. pose proof (B 1). assert (E2 : phi_SI (3 / 2) (1 / 2) 1 false 2 = 1) by (apply U; lra). rewrite E2.
    assert (N1 : phi_SI (3 / 2) (1 / 2) 1 false 1 <> 1) by (intros E; apply U in E; lra).
    split; [|lra]. split; [lra|]. destruct H as [H0 [H1|H1]]; [exact H1|congruence].
Qed.
Lemma change_grows c f g : scalable f -> grows f false -> grows g false -> grows (change_family c f g) true.
Proof.
  intros Sc (K1 & H1 & L1 & _) (K2 & H2 & L2 & _). destruct (window c) as (l & w & Hw & W). cbv zeta in W.
  set (phi := match c with CP => phi_S l (1 / 2) | CW => phi_SI l (1 / 2) w end) in *.
  destruct W as (A & B & C).
  assert (Dp : 0 < phi false 2 * phi false 2 - phi false 1 * phi false 1).
  { assert (phi false 1 * phi false 1 < phi false 2 * phi false 2) by (apply Rmult_gt_0_lt_compat; lra). lra. }
  assert (Pp : 0 <= phi true 1 * phi true 1 <= 1).
  { split; [apply Rmult_le_pos; lra|]. apply Rle_trans with (1 * 1); [apply Rmult_le_compat; lra|lra]. }
  destruct (small (D1 K1) (D1 K2) (phi false 2 * phi false 2 - phi false 1 * phi false 1) (phi true 1 * phi true 1)) as (a & Ha & Hs); try lra.
  set (K := fun x i j => a * K1 x i j * (phi true (x i) * phi true (x j)) + K2 x i j * (phi false (x i) * phi false (x j)) : R).
  exists K. split.
  { exists (fun x i j => a * K1 x i j), K2, l, w. split; [apply Sc; assumption|]. split; [exact H2|]. split; [exact Hw|]. intros x i j. reflexivity. }
  assert (Q2 : 0 <= phi true 2 * phi true 2) by (apply Rmult_le_pos; lra).
  assert (Lt : D1 K < D2 K).
  { unfold D1, D2, K in *. set (u1 := K1 (fun _ => 1) 0%nat 0%nat) in *. set (u2 := K1 (fun _ => 2) 0%nat 0%nat) in *.
    set (v1 := K2 (fun _ => 1) 0%nat 0%nat) in *. set (v2 := K2 (fun _ => 2) 0%nat 0%nat) in *.
    assert (0 <= a * u2 * (phi true 2 * phi true 2)) by (apply Rmult_le_pos; [apply Rmult_le_pos; lra|exact Q2]).
    assert (v1 * (phi false 2 * phi false 2) <= v2 * (phi false 2 * phi false 2)) by (apply Rmult_le_compat_r; [apply Rmult_le_pos; lra|lra]).
    rewrite Rmult_minus_distr_l in Hs. lra. }
  split; [|intros _; exact Lt]. split; [|lra]. unfold D1, K in *.
  assert (0 <= a * K1 (fun _ => 1) 0%nat 0%nat * (phi true 1 * phi true 1)) by (apply Rmult_le_pos; [apply Rmult_le_pos; lra|lra]).
  assert (0 < K2 (fun _ => 1) 0%nat 0%nat * (phi false 1 * phi false 1)) by (apply Rmult_lt_0_compat; [lra|apply Rmult_lt_0_compat; lra]).
  lra.
Qed.

Lemma expression_grows o e : wf e -> non_empty e -> sigmoid_free e -> grows (covariances o e) (negb (is_stationary e)).
Proof.
  induction e using kex_ind'; intros W N S.
  - pose proof W as W0. apply wf_comm in W as [Wb Wc]. apply non_empty_comm in N as [T Nk]. apply sigmoid_free_comm in S as [Sb Sk].
    assert (Hb : forall b, In b (bases_in bts) -> is_sigmoid b = false).
    { intros b Hb. destruct (is_sigmoid b) eqn:E; [|reflexivity]. apply in_bases_in in Hb. destruct (Sb b E Hb). }
    cbn [covariances]. apply combine_all_grows.
    + intros E. apply app_eq_nil in E as [E1 E2]. destruct cts; [|discriminate]. apply map_eq_nil in E1.
      rewrite terms_csum in T by (apply wf_nodup, Wb). cbn [length] in T.
      assert (HN : exists b, (0 < cget bts b)%Z) by (apply pos_some; [apply wf_nodup, Wb|apply wf_nn, Wb|lia]). destruct HN as (b & Hp). apply in_bases_in in Hp. rewrite E1 in Hp. destruct Hp.
    + intros f Hf. apply in_app_iff in Hf as [Hf|Hf]; apply in_map_iff in Hf as (y & <- & Hy).
      * eapply grows_weak, base_grows, Hb, Hy.
      * eapply grows_weak, H; auto.
    + cbn [is_stationary]. intros E. apply negb_true_iff, andb_false_iff in E as [E|E].
      * assert (X : exists b, non_stationary b = true /\ chas bts b = true).
        { destruct (existsb (fun b => non_stationary b && chas bts b) all_bases) eqn:Ex.
          - apply existsb_exists in Ex as (b & _ & Eb). apply andb_prop in Eb. exists b. exact Eb.
          - exfalso. assert (forallb (fun ns => negb (chas bts ns)) (filter non_stationary all_bases) = true); [|congruence].
            apply forallb_forall. intros b Hin. apply filter_In in Hin as [Hin Hns]. destruct (chas bts b) eqn:Eb; [|reflexivity].
            assert (existsb (fun b => non_stationary b && chas bts b) all_bases = true) by (apply existsb_exists; exists b; rewrite Hns, Eb; auto). congruence. }
        destruct X as (b & Hns & Hc). apply (wf_has _ _ Wb) in Hc. apply in_bases_in in Hc. exists (base_family o b). split.
        -- apply in_app_iff. left. apply in_map, Hc.
        -- rewrite <- Hns. apply base_grows, Hb, Hc.
      * assert (X : exists c, In c cts /\ is_stationary c = false).
        { clear - E. induction cts as [|c t IH]; [discriminate|]. cbn [forallb] in E. apply andb_false_iff in E as [E|E].
          - exists c. split; [left; reflexivity|exact E].
          - destruct (IH E) as (d & Hd & Ed). exists d. split; [right; exact Hd|exact Ed]. }
        destruct X as (c & Hc & Ec). exists (covariances o c). split; [apply in_app_iff; right; apply in_map, Hc|].
        replace true with (negb (is_stationary c)) by (rewrite Ec; reflexivity). apply H; auto.
  - rewrite wf_change in W. rewrite non_empty_change in N. apply sigmoid_free_change in S as [S1 S2]. cbn [covariances is_stationary negb].
    assert (HB : forall br : branch, (forall b, is_sigmoid b = true -> br <> inl b) ->
        (forall x, br = inr x -> wf x /\ non_empty x /\ sigmoid_free x /\ grows (covariances o x) (negb (is_stationary x))) ->
        scalable (branch_covariances o br) /\ grows (branch_covariances o br) false).
    { intros [b|x] Hb Hx; cbn [branch_covariances].
      - destruct (is_sigmoid b) eqn:E; [destruct (Hb b E eq_refl)|]. split; [apply base_scalable, E|eapply grows_weak, base_grows, E].
      - destruct (Hx x eq_refl) as (_ & Nx & Sx & G). split; [apply cov_scalable; assumption|eapply grows_weak, G]. }
    destruct (HB l) as (Sl & Gl); [intros b Hb; apply (S1 b Hb)|intros y Ey; split; [auto|split; [auto|split; [auto|auto]]]|].
    destruct (HB r) as (_ & Gr); [intros b Hb; apply (S1 b Hb)|intros y Ey; split; [auto|split; [auto|split; [auto|auto]]]|].
    apply change_grows; assumption.
Qed.

Lemma stationary_exactly o e : wf e -> non_empty e -> sigmoid_free e ->
  (is_stationary e = true <-> forall K, covariances o e K -> translation_invariant K).
Proof.
  intros W N S. split; [apply stationary_invariant, W|]. intros H. destruct (is_stationary e) eqn:E; [reflexivity|].
  destruct (expression_grows o e W N S) as (K & HK & _ & L). rewrite E in L. specialize (L eq_refl).
  specialize (H K HK (fun _ => 1) 1 O O). cbn beta in H. unfold D1, D2 in L. replace (1 + 1) with 2 in H by ring. rewrite H in L. lra.
Qed.

(** Units of the data (C66). *)
From Coq Require Import Reals Lra List Bool Arith ZArith Lia FunctionalExtensionality.
From Verif Require Import Py KexModel KexSpec KexProofs KexSimp KexMore KexCong KexCheck KernModel KernSpec KernGrad KernPsd SemModel SemSpec SemProofs SemSimp SemKernel DataModel PredSpec UnitSpec.
Import ListNotations.
Local Open Scope R_scope.

(** ** Families under other units of the inputs *)
Definition unit_closed (a b : R) (f : family) : Prop := forall K, f K -> f (other_inputs a b K).
Lemma even_cos a d p : 0 < p -> cos ((2 * PI / (p / Rabs a)) * d) = cos ((2 * PI / p) * (a * d)).
Proof.
  intros Hp. destruct (Req_dec a 0) as [->|Ha].
  - rewrite Rabs_R0. unfold Rdiv at 2. rewrite Rinv_0, Rmult_0_r. unfold Rdiv at 1. rewrite Rinv_0, !Rmult_0_l, !Rmult_0_r. rewrite Rmult_0_l. reflexivity.
  - unfold Rabs. destruct (Rcase_abs a).
    + rewrite <- cos_neg. f_equal. field. lra.
    + f_equal. field. lra.
Qed.
Lemma per_entry_scale v p l a d : 0 < p -> per_entry bessel0 v p l (a * d) = per_entry bessel0 v (p / Rabs a) l d.
Proof. intros Hp. unfold per_entry. rewrite even_cos by exact Hp. reflexivity. Qed.
Lemma base_units offset a b B : a <> 0 -> (offset = false -> b = 0) -> a = 1 \/ is_sigmoid B = false -> unit_closed a b (base_family offset B).
Proof.
  intros Ha Hb HS K. unfold other_inputs. destruct B; cbn [base_family].
  - intros (v & H & G). exists v. split; [exact H|]. intros. apply G.
  - intros (v & H & G). exists v. split; [exact H|]. intros. apply G.
  - intros (v & o & H & Ho & G). exists (v * (a * a)), ((o - b) / a).
    split; [apply Rmult_lt_0_compat; [exact H|]; destruct (Rtotal_order a 0) as [|[|]]; nra|].
    split; [intros E; rewrite (Ho E), (Hb E); field; exact Ha|]. intros. rewrite G. field. exact Ha.
  - intros (v & l & H & Hl & G). exists v, (l / Rabs a). pose proof (Rabs_pos_lt a Ha) as P.
    split; [exact H|]. split; [apply Rdiv_lt_0_compat; assumption|]. intros. rewrite G.
    assert (E : (l / Rabs a) ^ 2 = l ^ 2 / a ^ 2) by (unfold Rdiv; rewrite Rpow_mult_distr, pow_inv, pow2_abs; reflexivity).
    rewrite E. apply Rmult_eq_compat_l. apply (f_equal exp). field. lra.
  - intros (v & p & l & H & Hp & Hl & G). exists v, (p / Rabs a), l. pose proof (Rabs_pos_lt a Ha) as P.
    split; [exact H|]. split; [apply Rdiv_lt_0_compat; assumption|]. split; [exact Hl|]. intros. rewrite G, <- per_entry_scale by exact Hp. f_equal. ring.
  - destruct HS as [->|HS]; [|discriminate]. intros (l & G). exists (l - b). intros x i j. rewrite G. unfold phi_S.
    f_equal; do 2 f_equal; ring.
  - destruct HS as [->|HS]; [|discriminate]. intros (l & G). exists (l - b). intros x i j. rewrite G. unfold phi_S.
    f_equal; do 3 f_equal; ring.
  - destruct HS as [->|HS]; [|discriminate]. intros (l & w & Hw & G). exists (l - b), w. split; [exact Hw|]. intros x i j. rewrite G. unfold phi_SI.
    replace (1 * x i + b - l) with (x i - (l - b)) by ring. replace (1 * x j + b - l) with (x j - (l - b)) by ring. reflexivity.
  - destruct HS as [->|HS]; [|discriminate]. intros (l & w & Hw & G). exists (l - b), w. split; [exact Hw|]. intros x i j. rewrite G. unfold phi_SI.
    replace (1 * x i + b - l) with (x i - (l - b)) by ring. replace (1 * x j + b - l) with (x j - (l - b)) by ring. reflexivity.
Qed.
Lemma combine_all_units k a b l : (forall f, In f l -> unit_closed a b f) -> unit_closed a b (combine_all k l).
Proof.
  induction l as [|f l IH]; intros H K; simpl.
  - intros G x i j. apply G.
  - intros (K1 & K2 & H1 & H2 & G). exists (other_inputs a b K1), (other_inputs a b K2).
    split; [apply H; [left; reflexivity|exact H1]|]. split; [apply IH; [intros g Hg; apply H; right; exact Hg|exact H2]|]. intros. apply G.
Qed.
Lemma change_shift c b f g : unit_closed 1 b f -> unit_closed 1 b g -> unit_closed 1 b (change_family c f g).
Proof.
  intros Hf Hg K (K1 & K2 & l & w & H1 & H2 & Hw & G). exists (other_inputs 1 b K1), (other_inputs 1 b K2), (l - b), w.
  split; [apply Hf, H1|]. split; [apply Hg, H2|]. split; [exact Hw|]. intros x i j phi. unfold other_inputs at 1. rewrite G.
  unfold other_inputs. subst phi. destruct c; unfold phi_S, phi_SI;
    replace (1 * x i + b - l) with (x i - (l - b)) by ring; replace (1 * x j + b - l) with (x j - (l - b)) by ring; reflexivity.
Qed.
Lemma change_free_comm k bts cts c : change_free (Comm k bts cts) -> In c cts -> change_free c.
Proof. intros H I d l r N. apply (H d l r). econstructor; eauto. Qed.

Section Units.
  Variables (offset : bool) (a b : R).
  Hypotheses (Ha : a <> 0) (Hb : offset = false -> b = 0).
  Lemma covariances_units e : sigmoid_free e -> a = 1 \/ change_free e -> unit_closed a b (covariances offset e).
  Proof.
    induction e using kex_ind'; intros S HC.
    - apply sigmoid_free_comm in S as [S1 S2]. cbn [covariances]. apply combine_all_units. intros f Hf.
      apply in_app_iff in Hf as [Hf|Hf]; apply in_map_iff in Hf as (y & <- & Hy).
      + apply base_units; [exact Ha|exact Hb|]. right. destruct (is_sigmoid y) eqn:E; [|reflexivity]. apply in_bases_in in Hy. destruct (S1 y E Hy).
      + apply H; [exact Hy|apply S2, Hy|]. destruct HC as [HC|HC]; [left; exact HC|right; eapply change_free_comm; eauto].
    - destruct HC as [HC|HC]; [|destruct (HC c l r); constructor]. subst a.
      apply sigmoid_free_change in S as [S1 S2]. cbn [covariances]. apply change_shift.
      + destruct l as [y|x]; [apply base_units; auto|]. apply H; auto.
      + destruct r as [y|x]; [apply base_units; auto|]. apply H0; auto.
  Qed.
End Units.

(** ** Every expression has covariance functions *)
Lemma base_inhabited offset b : exists K, base_family offset b K.
Proof.
  destruct b; cbn [base_family]; unfold bump.
  - exists (fun x i j => if Nat.eqb i j then 1 else 0), 1. split; [lra|auto].
  - exists (fun x i j => 1), 1. split; [lra|auto].
  - exists (fun x i j => 1 * ((x i - 0) * (x j - 0))), 1, 0. repeat split; auto; lra.
  - exists (fun x i j => 1 * exp (- (x i - x j) ^ 2 / (2 * 1 ^ 2))), 1, 1. repeat split; auto; lra.
  - exists (fun x i j => per_entry bessel0 1 1 1 (x i - x j)), 1, 1, 1. repeat split; auto; lra.
  - exists (fun x i j => phi_S 0 (1 / 2) false (x i) * phi_S 0 (1 / 2) false (x j)), 0. auto.
  - exists (fun x i j => phi_S 0 (1 / 2) true (x i) * phi_S 0 (1 / 2) true (x j)), 0. auto.
  - exists (fun x i j => phi_SI 0 (1 / 2) 1 false (x i) * phi_SI 0 (1 / 2) 1 false (x j)), 0, 1. split; [lra|auto].
  - exists (fun x i j => phi_SI 0 (1 / 2) 1 true (x i) * phi_SI 0 (1 / 2) 1 true (x j)), 0, 1. split; [lra|auto].
Qed.
Lemma combine_all_inhabited k (l : list family) : (forall f, In f l -> exists K, f K) -> exists K, combine_all k l K.
Proof.
  induction l as [|f l IH]; intros H.
  - exists (fun _ _ _ => unit k). simpl. auto.
  - destruct (H f) as (K1 & H1); [left; reflexivity|]. destruct IH as (K2 & H2); [intros g Hg; apply H; right; exact Hg|].
    exists (fun x i j => op k (K1 x i j) (K2 x i j)), K1, K2. auto.
Qed.
Lemma covariances_inhabited offset e : exists K, covariances offset e K.
Proof.
  induction e using kex_ind'.
  - cbn [covariances]. apply combine_all_inhabited. intros f Hf. apply in_app_iff in Hf as [Hf|Hf]; apply in_map_iff in Hf as (y & <- & Hy).
    + apply base_inhabited.
    + apply H, Hy.
  - assert (L : exists K, branch_covariances offset l K) by (destruct l; [apply base_inhabited|apply H; reflexivity]).
    assert (R : exists K, branch_covariances offset r K) by (destruct r; [apply base_inhabited|apply H0; reflexivity]).
    destruct L as (K1 & H1), R as (K2 & H2). cbn [covariances]. eexists. exists K1, K2, 0, 1. split; [exact H1|]. split; [exact H2|]. split; [lra|]. reflexivity.
Qed.

(** ** Kernel objects *)
Lemma kernel_covariances offset e g : wf e -> non_empty e -> sigmoid_free e -> to_kernel e = Ok g -> same_family (kernel_family offset g) (covariances offset e).
Proof. intros W N S E. destruct (to_kernel_family offset e W N S) as (g' & E' & F). rewrite E in E'. injection E' as <-. exact F. Qed.
Theorem kernel_outputs : forall offset e g c K, wf e -> non_empty e -> sigmoid_free e -> to_kernel e = Ok g -> 0 < c ->
  kernel_family offset g K -> kernel_family offset g (other_outputs c K).
Proof.
  intros offset e g c K W N S E Hc F. pose proof (kernel_covariances offset e g W N S E) as SF. apply SF. apply SF in F.
  exact (cov_scalable offset e S N K c Hc F).
Qed.
Theorem kernel_inputs : forall offset e g a b K, wf e -> non_empty e -> sigmoid_free e -> to_kernel e = Ok g ->
  a <> 0 -> (offset = false -> b = 0) -> a = 1 \/ change_free e ->
  kernel_family offset g K -> kernel_family offset g (other_inputs a b K).
Proof.
  intros offset e g a b K W N S E Ha Hb HC F. pose proof (kernel_covariances offset e g W N S E) as SF. apply SF. apply SF in F.
  exact (covariances_units offset a b Ha Hb e S HC K F).
Qed.
Theorem kernel_shift : forall e g b K, wf e -> non_empty e -> sigmoid_free e -> to_kernel e = Ok g ->
  kernel_family true g K -> kernel_family true g (other_inputs 1 b K).
Proof. intros e g b K W N S E. apply (kernel_inputs true e g 1 b K W N S E); [lra|discriminate|left; reflexivity]. Qed.

(** ** Determinants and densities *)
Lemma det_ext n : forall A B, (forall i j, A i j = B i j) -> det n A = det n B.
Proof.
  induction n as [|n IH]; intros A B H; [reflexivity|]. cbn [det]. apply sum_to_ext. intros j _. rewrite H. f_equal. apply IH. intros. apply H.
Qed.
Lemma det_scale n : forall c A, det n (fun i j => c * A i j) = c ^ n * det n A.
Proof.
  induction n as [|n IH]; intros c A; [simpl; ring|]. cbn [det].
  rewrite <- sum_to_scal. apply sum_to_ext. intros j _. rewrite (IH c (fun i k => A (S i) (if (k <? j)%nat then k else S k))). simpl. ring.
Qed.
Lemma inverse_scale n c A W : c <> 0 -> inverse n A W -> inverse n (fun i j => c * A i j) (fun i j => / c * W i j).
Proof.
  intros Hc H i j Hi Hj. destruct (H i j Hi Hj) as [H1 H2]. rewrite <- H1. split; [|rewrite H1, <- H2]; apply sum_to_ext; intros; field; exact Hc.
Qed.
Lemma inverse_ext n A B W : (forall i j, A i j = B i j) -> inverse n A W -> inverse n B W.
Proof.
  intros E H i j Hi Hj. destruct (H i j Hi Hj) as [H1 H2]. rewrite <- H1. split; [|rewrite H1, <- H2]; apply sum_to_ext; intros; rewrite E; reflexivity.
Qed.
Lemma density_units n A B c y L : c <> 0 -> (forall i j, B i j = c ^ 2 * A i j) -> log_density n A y L ->
  log_density n B (fun i => c * y i) (L - INR n * ln (Rabs c)).
Proof.
  intros Hc HB (W & HW & HD & HL). pose proof (Rabs_pos_lt c Hc) as P. assert (P2 : 0 < c ^ 2) by (destruct (Rtotal_order c 0) as [|[|]]; nra).
  assert (D : det n B = (c ^ 2) ^ n * det n A) by (rewrite <- det_scale; apply det_ext, HB).
  exists (fun i j => / (c ^ 2) * W i j). split; [|split].
  - apply (inverse_ext n (fun i j => c ^ 2 * A i j)); [intros; symmetry; apply HB|]. apply inverse_scale; [lra|exact HW].
  - rewrite D. apply Rmult_lt_0_compat; [apply pow_lt, P2|exact HD].
  - rewrite D, ln_mult by (try apply pow_lt; assumption).
    assert (LN : ln ((c ^ 2) ^ n) = 2 * INR n * ln (Rabs c)).
    { rewrite <- pow_mult, <- (Rabs_pos_eq (c ^ (2 * n))) by (rewrite pow_mult; apply pow_le; lra). rewrite <- RPow_abs, ln_pow by exact P.
      rewrite mult_INR. simpl INR. ring. }
    rewrite LN, HL.
    assert (Q : sum_to n (fun i => sum_to n (fun j => c * y i * (/ (c ^ 2) * W i j) * (c * y j))) = sum_to n (fun i => sum_to n (fun j => y i * W i j * y j))).
    { apply sum_to_ext; intros i _. apply sum_to_ext; intros j _. field. exact Hc. }
    rewrite Q. lra.
Qed.

Section Likelihood.
  Variables (offset : bool) (e : kex) (g : gkern).
  Hypotheses (W : wf e) (N : non_empty e) (S : sigmoid_free e) (E : to_kernel e = Ok g).
  Lemma attainable_units a b c n x y L : a <> 0 -> c <> 0 -> (offset = false -> b = 0) -> a = 1 \/ change_free e ->
    attainable offset g n x y L -> attainable offset g n (fun i => a * x i + b) (fun i => c * y i) (L - INR n * ln (Rabs c)).
  Proof.
    intros Ha Hc Hb HC (K & s & F & Hs & D). assert (P2 : 0 < c ^ 2) by (destruct (Rtotal_order c 0) as [|[|]]; nra).
    exists (other_outputs (c ^ 2) (other_inputs (/ a) (- b / a) K)), (c ^ 2 * s). split; [|split].
    - apply (kernel_outputs offset e); auto. apply (kernel_inputs offset e); auto.
      + apply Rinv_neq_0_compat, Ha.
      + intros O. rewrite (Hb O). field. exact Ha.
      + destruct HC as [->|HC]; [left; apply Rinv_1|right; exact HC].
    - apply Rmult_lt_0_compat; assumption.
    - eapply density_units; [exact Hc| |exact D]. intros i j. unfold other_outputs, other_inputs.
      assert (X : (fun n0 => / a * (a * x n0 + b) + - b / a) = x); [|rewrite X; ring].
      apply functional_extensionality. intros m. field. exact Ha.
  Qed.
End Likelihood.

Theorem likelihood_units : forall offset e g a b c n x y L, wf e -> non_empty e -> sigmoid_free e -> to_kernel e = Ok g ->
  a <> 0 -> c <> 0 -> (offset = false -> b = 0) -> a = 1 \/ change_free e ->
  (attainable offset g n x y L <-> attainable offset g n (fun i => a * x i + b) (fun i => c * y i) (L - INR n * ln (Rabs c))).
Proof.
  intros offset e g a b c n x y L W N S E Ha Hc Hb HC. split; [apply (attainable_units offset e g W N S E); auto|]. intros H.
  apply (attainable_units offset e g W N S E (/ a) (- b / a) (/ c)) in H.
  - assert (X : (fun i => / a * (a * x i + b) + - b / a) = x) by (apply functional_extensionality; intros; field; exact Ha).
    assert (Y : (fun i => / c * (c * y i)) = y) by (apply functional_extensionality; intros; field; exact Hc).
    assert (Z : L - INR n * ln (Rabs c) - INR n * ln (Rabs (/ c)) = L).
    { rewrite Rabs_inv, ln_Rinv by (apply Rabs_pos_lt, Hc). ring. }
    rewrite X, Y, Z in H. exact H.
  - apply Rinv_neq_0_compat, Ha.
  - apply Rinv_neq_0_compat, Hc.
  - intros O. rewrite (Hb O). field. exact Ha.
  - destruct HC as [->|HC]; [left; apply Rinv_1|right; exact HC].
Qed.
Lemma lub_shift (P Q : R -> Prop) d M : (forall L, P L <-> Q (L - d)) -> is_lub P M -> is_lub Q (M - d).
Proof.
  intros H [U V]. split.
  - intros L HL. replace L with (L + d - d) in HL by ring. apply H, U in HL. lra.
  - intros B HB. assert (M <= B + d); [|lra]. apply V. intros L HL. apply H in HL. apply HB in HL. lra.
Qed.
Theorem ranking_units : forall offset e1 e2 g1 g2 a b c n x y M1 M2 k1 k2,
  wf e1 -> non_empty e1 -> sigmoid_free e1 -> to_kernel e1 = Ok g1 -> wf e2 -> non_empty e2 -> sigmoid_free e2 -> to_kernel e2 = Ok g2 ->
  a <> 0 -> c <> 0 -> (offset = false -> b = 0) -> a = 1 \/ (change_free e1 /\ change_free e2) ->
  is_lub (attainable offset g1 n x y) M1 -> is_lub (attainable offset g2 n x y) M2 ->
  exists M1' M2', is_lub (attainable offset g1 n (fun i => a * x i + b) (fun i => c * y i)) M1'
    /\ is_lub (attainable offset g2 n (fun i => a * x i + b) (fun i => c * y i)) M2'
    /\ (BIC M1' n k1 < BIC M2' n k2 <-> BIC M1 n k1 < BIC M2 n k2)
    /\ (AIC M1' n k1 < AIC M2' n k2 <-> AIC M1 n k1 < AIC M2 n k2)
    /\ (forall s1 s2 s1' s2', AICc M1 n k1 = Ok s1 -> AICc M2 n k2 = Ok s2 -> AICc M1' n k1 = Ok s1' -> AICc M2' n k2 = Ok s2' -> (s1' < s2' <-> s1 < s2)).
Proof.
  intros offset e1 e2 g1 g2 a b c n x y M1 M2 k1 k2 W1 N1 S1 E1 W2 N2 S2 E2 Ha Hc Hb HC U1 U2.
  exists (M1 - INR n * ln (Rabs c)), (M2 - INR n * ln (Rabs c)).
  split; [|split; [|split; [|split]]].
  - eapply lub_shift; [|exact U1]. intros L. apply (likelihood_units offset e1); tauto.
  - eapply lub_shift; [|exact U2]. intros L. apply (likelihood_units offset e2); tauto.
  - unfold BIC. split; intros; lra.
  - unfold AIC. split; intros; lra.
  - intros s1 s2 s1' s2'. unfold AICc. destruct (Nat.eqb n (k1 + 1)), (Nat.eqb n (k2 + 1)); try discriminate.
    intros A1 A2 A3 A4. injection A1 as <-. injection A2 as <-. injection A3 as <-. injection A4 as <-. split; intros; lra.
Qed.

(** ** What fails *)
Definition lin_kex : kex := Comm KSum [(bLIN, 1%Z)] [].
Theorem shift_without_offset : exists e g b K, wf e /\ non_empty e /\ sigmoid_free e /\ to_kernel e = Ok g /\
  kernel_family false g K /\ ~ kernel_family false g (other_inputs 1 b K).
Proof.
  exists lin_kex, (GBase bLIN true), 1, (fun x i j => 1 * ((x i - 0) * (x j - 0))).
  destruct (okb_sound lin_kex eq_refl) as (W & N & S). refine (conj W (conj N (conj S (conj eq_refl (conj _ _))))).
  - apply base_kernel; [reflexivity|]. exists 1, 0. repeat split; auto; lra.
  - intros H. apply base_kernel in H; [|reflexivity]. destruct H as (v & o & Hv & Ho & H). specialize (Ho eq_refl). subst o.
    specialize (H (fun _ => 0) 0%nat 0%nat). unfold other_inputs in H. lra.
Qed.
Definition cp_kex : kex := Change CP (inl bC) (inl bC).
Lemma quartic c4 c3 c2 c1 c0 b : (forall k : nat, let B := b + 2 * INR k in c4 * B ^ 4 + c3 * B ^ 3 + c2 * B ^ 2 + c1 * B + c0 = 0) -> c4 = 0 /\ c3 = 0.
Proof.
  intros H. pose proof (H 0%nat) as H0. pose proof (H 1%nat) as H1. pose proof (H 2%nat) as H2. pose proof (H 3%nat) as H3. pose proof (H 4%nat) as H4.
  cbv zeta in *. simpl INR in *. clear H.
  assert (X : 384 * c4 = 0) by (rewrite <- (Rmult_0_r 0); ring_simplify in H0; ring_simplify in H1; ring_simplify in H2; ring_simplify in H3; ring_simplify in H4; lra).
  assert (Y : c4 = 0) by lra. subst c4. split; [reflexivity|].
  ring_simplify in H0; ring_simplify in H1; ring_simplify in H2; ring_simplify in H3; lra.
Qed.
Lemma phi_tail l x : l <= x -> phi_S l (1 / 2) false x = 1 - / (2 * (1 + 2 * (x - l))) /\ phi_S l (1 / 2) true x = / (2 * (1 + 2 * (x - l))).
Proof.
  intros H. unfold phi_S, sigmoid_function. replace ((x - l) / (1 / 2)) with (2 * (x - l)) by field. rewrite Rabs_pos_eq by lra. split; field; lra.
Qed.
Theorem scale_with_change : exists e g a K, wf e /\ non_empty e /\ sigmoid_free e /\ to_kernel e = Ok g /\ 0 < a /\
  kernel_family true g K /\ ~ kernel_family true g (other_inputs a 0 K).
Proof.
  exists cp_kex, (GChange CP (GBase bC true) (GBase bC true)), 2,
    (fun x i j => 1 * (phi_S 0 (1 / 2) true (x i) * phi_S 0 (1 / 2) true (x j)) + 1 * (phi_S 0 (1 / 2) false (x i) * phi_S 0 (1 / 2) false (x j))).
  destruct (okb_sound cp_kex eq_refl) as (W & N & S). refine (conj W (conj N (conj S (conj eq_refl (conj _ (conj _ _)))))); [lra| |].
  - apply kf_change. exists (fun _ _ _ => 1), (fun _ _ _ => 1), 0, 1. split; [apply base_kernel; [reflexivity|]; exists 1; split; [lra|auto]|].
    split; [apply base_kernel; [reflexivity|]; exists 1; split; [lra|auto]|]. split; [lra|]. reflexivity.
  - intros H. apply kf_change in H. destruct H as (K1 & K2 & l & w & H1 & H2 & _ & H).
    apply base_kernel in H1; [|reflexivity]. apply base_kernel in H2; [|reflexivity].
    destruct H1 as (v1 & _ & H1). destruct H2 as (v2 & _ & H2).
    set (x0 := Rabs l). assert (P0 : 0 <= x0) by apply Rabs_pos. assert (P1 : l <= x0) by apply Rle_abs. clearbody x0.
    assert (Q : forall k : nat, let B := (1 + 2 * (x0 - l)) + 2 * INR k in
      (4 - 4 * v2) * B ^ 4 + (4 * (4 * l - 1) - 2 - v2 * (4 * (4 * l - 1) - 4)) * B ^ 3
      + ((4 * l - 1) ^ 2 - (4 * l - 1) + 1 / 2 - (v1 + v2) - v2 * ((4 * l - 1) ^ 2 - 4 * (4 * l - 1))) * B ^ 2
      + (v2 * (4 * l - 1) ^ 2 - (v1 + v2) * (4 * l - 1)) * B + - ((v1 + v2) / 4 * (4 * l - 1) ^ 2) = 0).
    { intros k B. specialize (H (fun _ => x0 + INR k) 0%nat 0%nat). unfold other_inputs in H. cbv zeta in H. rewrite H1, H2 in H.
      pose proof (pos_INR k) as Pk.
      destruct (phi_tail 0 (2 * (x0 + INR k) + 0)) as [A1 A2]; [lra|]. destruct (phi_tail l (x0 + INR k)) as [A3 A4]; [lra|].
      rewrite A1, A2, A3, A4 in H.
      assert (PB : 0 < B) by (unfold B; lra). replace (1 + 2 * (x0 + INR k - l)) with B in H by (unfold B; ring).
      replace (1 + 2 * (2 * (x0 + INR k) + 0 - 0)) with (2 * B + (4 * l - 1)) in H by (unfold B; ring).
      assert (PA : 0 < 2 * B + (4 * l - 1)) by (unfold B; lra). clearbody B. set (A := 2 * B + (4 * l - 1)) in *.
      assert (X : (A ^ 2 - A + 1 / 2) * B ^ 2 = (v2 * B ^ 2 - v2 * B + (v1 + v2) / 4) * A ^ 2).
      { assert (Z : (A ^ 2 - A + 1 / 2) / A ^ 2 = (v2 * B ^ 2 - v2 * B + (v1 + v2) / 4) / B ^ 2).
        { etransitivity; [|etransitivity; [exact H|]]; field; lra. }
        apply (f_equal (fun z => z * (A ^ 2 * B ^ 2))) in Z. field_simplify in Z; [|lra..]. nra. }
      unfold A in X. lra. }
    apply quartic in Q as [Q1 Q2]. assert (v2 = 1) by lra. subst v2. lra.
Qed.

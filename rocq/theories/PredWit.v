(** Statements about predictions and the leave-one-out score, with witnesses. *)
From Coq Require Import Reals List Bool Arith ZArith Lra Lia Permutation Sorted.
From Coquelicot Require Import Coquelicot.
From Verif Require Import Py KexModel KernModel KernSpec KernGrad KernGrad4 KernPsd KernProper PredModel PredSpec PredProofs PredBest SearchModel SearchSpec SearchProofs.
Import ListNotations.
Local Open Scope R_scope.

(** A quantile: ppf gives the point at which the distribution function has the given value. *)
Lemma quantile m v q z : 0 < v -> Phi q = z -> normal_cdf m v (q * sqrt v + m) = z.
Proof. intros Hv <-. unfold normal_cdf. f_equal. assert (0 < sqrt v) by (apply sqrt_lt_R0, Hv). field. lra. Qed.
Definition noise_of (r : regression) (lik : option R) : R := default (r_noise r) lik.
Lemma predict_quantiles ppf r n x y s m z q1 q2 qs full lik p : built_kernel (r_kern r) -> inferred r n x y s -> 0 < noise_of r lik ->
  Phi (ppf (q1 / 100)) = q1 / 100 -> Phi (ppf (q2 / 100)) = q2 / 100 ->
  predict ppf (Some r) (column m z) (q1 :: q2 :: qs) full None lik true = Ok p -> forall t, (t < m)%nat ->
  normal_cdf (ent (p_mean p) t 0) (variance_at p full t) (ent (p_low p) t 0) = q1 / 100
  /\ normal_cdf (ent (p_mean p) t 0) (variance_at p full t) (ent (p_high p) t 0) = q2 / 100.
Proof.
  intros B I Hn H1 H2 Hp t Ht. destruct (predict_values r n x y s B I _ _ _ _ _ _ _ _ _ _ Hp t Ht) as (v & Hv & -> & -> & ->). unfold noise_of in Hn.
  split; apply quantile; try assumption; lra.
Qed.
Lemma predict_quantiles_noise ppf r n x y s m z q1 q2 qs full lik p : built_kernel (r_kern r) -> inferred r n x y s -> 0 < noise_of r lik ->
  Phi (ppf (q1 / 100)) = q1 / 100 -> Phi (ppf (q2 / 100)) = q2 / 100 ->
  predict ppf (Some r) (column m z) (q1 :: q2 :: qs) full None lik false = Ok p -> forall t, (t < m)%nat ->
  normal_cdf (ent (p_mean p) t 0) (variance_at p full t + noise_of r lik) (ent (p_low p) t 0) = q1 / 100
  /\ normal_cdf (ent (p_mean p) t 0) (variance_at p full t + noise_of r lik) (ent (p_high p) t 0) = q2 / 100.
Proof.
  intros B I Hn H1 H2 Hp t Ht. destruct (predict_values r n x y s B I _ _ _ _ _ _ _ _ _ _ Hp t Ht) as (v & Hv & -> & -> & ->). unfold noise_of in *.
  split; apply quantile; try assumption; lra.
Qed.
Lemma predict_ordered ppf r n x y s m z q1 q2 qs full lik incl p : built_kernel (r_kern r) -> inferred r n x y s ->
  Phi (ppf (q1 / 100)) = q1 / 100 -> Phi (ppf (q2 / 100)) = q2 / 100 ->
  predict ppf (Some r) (column m z) (q1 :: q2 :: qs) full None lik incl = Ok p -> forall t, (t < m)%nat ->
  (q1 <= q2 -> ent (p_low p) t 0 <= ent (p_high p) t 0)
  /\ (q1 <= 50 -> ent (p_low p) t 0 <= ent (p_mean p) t 0) /\ (50 <= q2 -> ent (p_mean p) t 0 <= ent (p_high p) t 0)
  /\ (q1 + q2 = 100 -> ent (p_mean p) t 0 = (ent (p_low p) t 0 + ent (p_high p) t 0) / 2).
Proof.
  intros B I H1 H2 Hp t Ht. destruct (predict_values r n x y s B I _ _ _ _ _ _ _ _ _ _ Hp t Ht) as (v & Hv & _ & -> & ->).
  set (d := sqrt _). assert (Hd : 0 <= d) by apply sqrt_pos. set (a := ppf (q1 / 100)) in *. set (b := ppf (q2 / 100)) in *. repeat split; intros H.
  - assert (a <= b) by (apply Phi_le; lra). nra.
  - assert (a <= 0) by (apply Phi_le; rewrite Phi_0; lra). nra.
  - assert (0 <= b) by (apply Phi_le; rewrite Phi_0; lra). nra.
  - assert (b = - a); [|subst; nra]. assert (E : Phi b = Phi (- a)) by (rewrite Phi_opp; lra). apply Rle_antisym; apply Phi_le; lra.
Qed.
Lemma predict_unfitted ppf Z qs full k lik incl : predict ppf None Z qs full k lik incl = Raise EAttributeError.
Proof. reflexivity. Qed.

(** One observation of 1 at 0, a constant kernel of variance 1 and noise 1. *)
Definition const_reg : regression :=
  {| r_kern := bias_kernel 1; r_X := column 1 (fun _ => 0); r_Y := column 1 (fun _ => 1); woodbury_inv := Mat 1 1 (fun _ _ => / 2); woodbury_vector := column 1 (fun _ => / 2); r_noise := 1 |}.
Lemma const_inferred : built_kernel (r_kern const_reg) /\ inferred const_reg 1 (fun _ => 0) (fun _ => 1) 1.
Proof.
  split; [apply bk_bias; lra|]. split; [reflexivity|]. split; [lra|]. exists (fun _ _ => 1), (fun _ _ => / 2). split; [eexists; split; [reflexivity|repeat split]|].
  split; [repeat split|]. split; [|split; [reflexivity|split; [reflexivity|intros; simpl; lra]]].
  intros i j Hi Hj. assert (i = 0%nat) by lia. assert (j = 0%nat) by lia. subst. unfold delta. simpl. split; lra.
Qed.
(** The quantile function at the two levels used below. *)
Definition some_ppf (p : R) : R := if Rle_dec p (/ 2) then -1 else 1.
Lemma some_ppf_ok : Phi (some_ppf (100 * Phi (-1) / 100)) = 100 * Phi (-1) / 100 /\ Phi (some_ppf (100 * Phi 1 / 100)) = 100 * Phi 1 / 100.
Proof.
  assert (L : Phi (-1) < / 2 < Phi 1) by (rewrite <- Phi_0; split; apply Phi_increasing; lra).
  replace (100 * Phi (-1) / 100) with (Phi (-1)) by field. replace (100 * Phi 1 / 100) with (Phi 1) by field.
  unfold some_ppf. destruct (Rle_dec (Phi (-1)) (/ 2)) as [_|]; [|lra]. destruct (Rle_dec (Phi 1) (/ 2)) as [|_]; [lra|]. split; reflexivity.
Qed.
Lemma quantiles_refuted : exists ppf r n x y s m z q1 q2 p t, built_kernel (r_kern r) /\ inferred r n x y s /\ 0 < noise_of r None
  /\ Phi (ppf (q1 / 100)) = q1 / 100 /\ Phi (ppf (q2 / 100)) = q2 / 100
  /\ predict ppf (Some r) (column m z) [q1; q2] false None None false = Ok p /\ (t < m)%nat
  /\ normal_cdf (ent (p_mean p) t 0) (variance_at p false t) (ent (p_low p) t 0) < q1 / 100
  /\ q2 / 100 < normal_cdf (ent (p_mean p) t 0) (variance_at p false t) (ent (p_high p) t 0).
Proof.
  destruct const_inferred as [B I]. destruct some_ppf_ok as [P1 P2]. exists some_ppf, const_reg, 1%nat, (fun _ => 0), (fun _ => 1), 1, 1%nat, (fun _ => 0), (100 * Phi (-1)), (100 * Phi 1).
  destruct (predict_total const_reg 1 _ _ _ B I some_ppf 1 (fun _ => 0) (100 * Phi (-1)) (100 * Phi 1) [] false None false) as (p & Hp). exists p, 0%nat.
  split; [exact B|]. split; [exact I|]. split; [unfold noise_of; simpl; lra|]. split; [exact P1|]. split; [exact P2|]. split; [exact Hp|]. split; [lia|].
  pose proof Hp as Hp'. unfold predict in Hp'. apply bind_ok' in Hp' as (mc & Hmc & _). unfold gpy_predict in Hmc. apply bind_ok' in Hmc as (mv & Hmv & _).
  assert (V : ent (p_mean p) 0 0 = / 2 /\ variance_at p false 0 = / 2 /\ ent (p_low p) 0 0 = some_ppf (100 * Phi (-1) / 100) * sqrt (/ 2 + 1) + / 2
    /\ ent (p_high p) 0 0 = some_ppf (100 * Phi 1 / 100) * sqrt (/ 2 + 1) + / 2).
  { unfold predict, gpy_predict, gpy_predict_quantiles, raw_predict in Hp. cbn in Hp. injection Hp as <-. unfold variance_at. cbn.
    replace (0 + 1 * / 2) with (/ 2) by field. replace (1 - (0 + (0 + / 2 * 1) * 1)) with (/ 2) by field. repeat split. }
  destruct V as (E1 & E2 & E3 & E4). rewrite E1, E2, E3, E4. clear Hmv mv mc Hp p E1 E2 E3 E4.
  assert (Q1 : some_ppf (100 * Phi (-1) / 100) = -1).
  { unfold some_ppf. destruct (Rle_dec (100 * Phi (-1) / 100) (/ 2)) as [|C]; [reflexivity|]. pose proof (Phi_increasing (-1) 0 ltac:(lra)). rewrite Phi_0 in H. lra. }
  assert (Q2 : some_ppf (100 * Phi 1 / 100) = 1).
  { unfold some_ppf. destruct (Rle_dec (100 * Phi 1 / 100) (/ 2)) as [C|]; [|reflexivity]. pose proof (Phi_increasing 0 1 ltac:(lra)). rewrite Phi_0 in H. lra. }
  rewrite Q1, Q2. assert (S1 : 0 < sqrt (/ 2)) by (apply sqrt_lt_R0; lra). assert (S2 : sqrt (/ 2) < sqrt (/ 2 + 1)) by (apply sqrt_lt_1; lra).
  assert (D : 1 < sqrt (/ 2 + 1) / sqrt (/ 2)) by (apply (Rmult_lt_reg_r (sqrt (/ 2))); [exact S1|]; unfold Rdiv; rewrite Rmult_assoc, Rinv_l by lra; lra).
  unfold normal_cdf. replace (100 * Phi (-1) / 100) with (Phi (-1)) by field. replace (100 * Phi 1 / 100) with (Phi 1) by field. split; apply Phi_increasing.
  - replace ((-1 * sqrt (/ 2 + 1) + / 2 - / 2) / sqrt (/ 2)) with (- (sqrt (/ 2 + 1) / sqrt (/ 2))) by (field; lra). lra.
  - replace ((1 * sqrt (/ 2 + 1) + / 2 - / 2) / sqrt (/ 2)) with (sqrt (/ 2 + 1) / sqrt (/ 2)) by (field; lra). lra.
Qed.

(** ** Leave one out *)
(** Mean squared error of predicting one noisy observation, number i, by the weighted sum of all observations with weights a, when their
    covariances are A. *)
Definition observation_mse (n : nat) (A : nat -> nat -> R) (i : nat) (a : nat -> R) : R :=
  A i i - 2 * sum_to n (fun j => a j * A j i) + sum_to n (fun j => sum_to n (fun k => a j * a k * A j k)).
Lemma others_bil n A i w a : symmetric n A -> (i < n)%nat -> others_weights n A i w -> a i = 0 -> sum_to n (fun j => a j * A j i) = bil n A w a.
Proof.
  intros SA Hi [_ W] Ha. unfold bil. rewrite sum_to_swap. apply sum_to_ext. intros j Hj. destruct (Nat.eq_dec j i) as [->|Hne].
  - rewrite Ha, Rmult_0_l. rewrite (sum_to_ext n _ (fun _ => 0)) by (intros; ring). rewrite sum_to_zero. reflexivity.
  - rewrite (SA j i Hj Hi), <- (W j Hj Hne), <- sum_to_scal. apply sum_to_ext. intros; ring.
Qed.
Lemma others_best n A i w : symmetric n A -> psd n A -> (i < n)%nat -> others_weights n A i w ->
  observation_mse n A i w = A i i - sum_to n (fun j => w j * A j i) /\ forall a, a i = 0 -> observation_mse n A i w <= observation_mse n A i a.
Proof.
  intros SA PA Hi W. assert (E : observation_mse n A i w = A i i - bil n A w w) by (unfold observation_mse; rewrite (others_bil n A i w w SA Hi W (proj1 W)); change (sum_to n (fun j => sum_to n (fun k => w j * w k * A j k))) with (bil n A w w); ring).
  split; [rewrite (others_bil n A i w w SA Hi W (proj1 W)); exact E|]. intros a Ha. rewrite E. unfold observation_mse. rewrite (others_bil n A i w a SA Hi W Ha).
  change (sum_to n (fun j => sum_to n (fun k => a j * a k * A j k))) with (bil n A a a).
  pose proof (PA (fun j => a j - w j)) as H. change (0 <= bil n A (fun j => a j - w j) (fun j => a j - w j)) in H. rewrite (bil_minus n A a w SA), (bil_sym n A a w SA) in H. lra.
Qed.
Lemma loo_score r n x y s : built_kernel (r_kern r) -> inferred r n x y s -> 0 < s ->
  exists K, computes (kK (r_kern r) (column n x) None) n n K /\ forall i, (i < n)%nat ->
    let error := observation_mse n (fun j k => K j k + s * delta j k) i in
    exists w, w i = 0 /\ (forall a, a i = 0 -> error w <= error a) /\ ent (gpy_LOO r) i 0 = ln (normal_density (sum_to n (fun j => w j * y j)) (error w) (y i)).
Proof.
  intros B I Hs. destruct (built_proper _ B n x) as (K & HK & Sy & Ps & _). exists K. split; [exact HK|]. intros i Hi error.
  pose proof I as (HX & _ & K' & C & HK' & HC & HI & HV).
  assert (EK : forall i j, (i < n)%nat -> (j < n)%nat -> K' i j = K i j).
  { destruct HK as (A1 & E1 & HA1), HK' as (A2 & E2 & HA2). rewrite E1 in E2. injection E2 as <-. intros a b Ha Hb. rewrite <- (array_value _ _ _ _ _ _ HA1 Ha Hb). symmetry. apply (array_value _ _ _ _ _ _ HA2 Ha Hb). }
  assert (HI' : inverse n (fun j k => K j k + s * delta j k) C).
  { intros a b Ha Hb. destruct (HI a b Ha Hb) as [E1 E2]. split; [rewrite <- E1|rewrite <- E2]; apply sum_to_ext; intros l Hl; rewrite EK by assumption; reflexivity. }
  set (A := fun j k => K j k + s * delta j k) in *.
  assert (SA : symmetric n A) by (intros a b Ha Hb; unfold A; rewrite (Sy a b Ha Hb); unfold delta; rewrite Nat.eqb_sym; reflexivity).
  assert (Q : forall a, bil n A a a = bil n K a a + s * dot n a a) by (intros a; apply (bil_A n K s a a)).
  assert (PA : psd n A). { intros a. change (0 <= bil n A a a). rewrite Q. pose proof (Ps a) as P. change (0 <= bil n K a a) in P. pose proof (Rmult_le_pos _ _ (Rlt_le _ _ Hs) (dot_self n a)). lra. }
  assert (SC : symmetric n C) by (apply (inverse_sym n A C SA HI')).
  assert (Hc : 0 < C i i).
  { assert (E : bil n A (C i) (C i) = C i i).
    { rewrite bil_app. unfold dot. rewrite <- (delta_sum' n i (C i) Hi). apply sum_to_ext. intros j Hj. f_equal. rewrite <- (proj1 (HI' j i Hj Hi)). unfold app. apply sum_to_ext. intros l Hl. rewrite (SC i l Hi Hl). reflexivity. }
    rewrite <- E, Q. pose proof (Ps (C i)) as P. change (0 <= bil n K (C i) (C i)) in P. assert (D : C i i * C i i <= dot n (C i) (C i)).
    { unfold dot. rewrite (sum_to_remove n i (fun j => C i j * C i j) Hi). assert (0 <= sum_to n (fun j => if (j =? i)%nat then 0 else C i j * C i j)); [|lra]. apply sum_to_nonneg. intros j _. destruct (j =? i)%nat; [lra|apply Rle_0_sqr]. }
    destruct (Req_dec (C i i) 0) as [Z|NZ].
    - exfalso. rewrite Q in E. rewrite Z in E. pose proof (dot_self n (C i)) as D0. assert (dot n (C i) (C i) = 0) as D1 by nra.
      assert (Cz : forall j, (j < n)%nat -> C i j = 0).
      { intros j Hj. unfold dot in D1. rewrite (sum_to_remove n j (fun j => C i j * C i j) Hj) in D1. assert (0 <= sum_to n (fun l => if (l =? j)%nat then 0 else C i l * C i l)); [|nra]. apply sum_to_nonneg. intros l _. destruct (l =? j)%nat; [lra|apply Rle_0_sqr]. }
      pose proof (proj2 (HI' i i Hi Hi)) as F. rewrite (sum_to_ext n _ (fun _ => 0)) in F by (intros l Hl; rewrite (Cz l Hl); ring). rewrite sum_to_zero in F. unfold delta in F. rewrite Nat.eqb_refl in F. lra.
    - assert (0 < C i i * C i i) by (destruct (Rtotal_order (C i i) 0) as [|[|]]; nra). nra. }
  exists (loo_w C i). pose proof (loo_solves n A C HI' i Hi Hc) as W. destruct (others_best n A i _ SA PA Hi W) as [E1 E2]. split; [apply W|]. split; [exact E2|].
  unfold error. rewrite E1. unfold A at 1. replace (K i i + s * delta i i) with (K i i + s) by (unfold delta; rewrite Nat.eqb_refl; ring).
  apply (loo_entry r n x y s I K HK Sy i (loo_w C i) Hi); [|exact W]. rewrite (array_value _ _ _ _ _ _ HC Hi Hi). exact Hc.
Qed.
Definition Rleb (a b : R) : bool := if Rle_dec a b then true else false.
Lemma rleb_total : total_preorder Rleb.
Proof. unfold Rleb. split; intros a b; [destruct (Rle_dec a b), (Rle_dec b a); auto; lra|]. intros c. destruct (Rle_dec a b), (Rle_dec b c), (Rle_dec a c); auto; try discriminate; lra. Qed.
(** Two observations of 10, a noise kernel of variance v and noise s. *)
Definition white_reg (v s : R) : regression :=
  {| r_kern := white_kernel v; r_X := column 2 INR; r_Y := column 2 (fun _ => 10); woodbury_inv := Mat 2 2 (fun i j => delta i j / (v + s));
     woodbury_vector := column 2 (fun _ => 10 / (v + s)); r_noise := s |}.
Lemma white_inferred v s : 0 < v -> 0 < s -> built_kernel (r_kern (white_reg v s)) /\ inferred (white_reg v s) 2 INR (fun _ => 10) s.
Proof.
  intros Hv Hs. split; [apply bk_white; lra|]. split; [reflexivity|]. split; [lra|]. exists (fun i j => if Nat.eqb i j then v else 0), (fun i j => delta i j / (v + s)).
  split; [eexists; split; [reflexivity|repeat split]|]. split; [repeat split|]. split; [|split; [reflexivity|split; [reflexivity|]]].
  - intros i j Hi Hj. assert (i = 0 \/ i = 1)%nat as [-> | ->] by lia; assert (j = 0 \/ j = 1)%nat as [-> | ->] by lia; unfold delta; simpl; split; field; lra.
  - intros i j Hi _. assert (i = 0 \/ i = 1)%nat as [-> | ->] by lia; unfold delta; simpl; field; lra.
Qed.
Lemma white_loo v s i : 0 < v + s -> (i < 2)%nat -> ent (gpy_LOO (white_reg v s)) i 0 = - (/ 2 * ln (2 * PI) + / 2 * ln (v + s) + 50 / (v + s)).
Proof.
  intros H Hi. unfold gpy_LOO, white_reg. cbn [ent woodbury_inv woodbury_vector column]. assert (E : delta i i = 1) by (unfold delta; rewrite Nat.eqb_refl; reflexivity). rewrite E.
  unfold Rdiv at 1. rewrite Rmult_1_l, ln_Rinv by exact H. field. lra.
Qed.
Lemma loo_refuted : exists (a b : gp regression) n x y sa sb,
  built_kernel (r_kern (gdata a)) /\ inferred (gdata a) n x y sa /\ built_kernel (r_kern (gdata b)) /\ inferred (gdata b) n x y sb
  /\ (forall i, (i < n)%nat -> ent (gpy_LOO (gdata b)) i 0 < ent (gpy_LOO (gdata a)) i 0)
  /\ forall W (w : W * (nat -> option R)) w' l, sorted_by_score Rleb (fun m => Ok (LA_LOO (gdata m))) [a; b] w = (w', Ok l) -> l = [b; a].
Proof.
  exists {| gid := 0; gkex := Comm KSum [(bWN, 1%Z)] []; gdata := white_reg 1 1 |}, {| gid := 1; gkex := Comm KSum [(bWN, 1%Z)] []; gdata := white_reg (/ 2) (/ 2) |}, 2%nat, INR, (fun _ => 10), 1, (/ 2).
  cbn [gdata]. destruct (white_inferred 1 1) as [B1 I1]; [lra|lra|]. destruct (white_inferred (/ 2) (/ 2)) as [B2 I2]; [lra|lra|].
  split; [exact B1|]. split; [exact I1|]. split; [exact B2|]. split; [exact I2|].
  assert (L : forall i, (i < 2)%nat -> ent (gpy_LOO (white_reg (/ 2) (/ 2))) i 0 < ent (gpy_LOO (white_reg 1 1)) i 0).
  { intros i Hi. rewrite !white_loo by (try assumption; lra). replace (/ 2 + / 2) with 1 by field. replace (1 + 1) with 2 by ring. rewrite ln_1.
    assert (ln 2 < 2) by (pose proof ln_lt_2 as Hl; pose proof (ln_increasing 2 (exp 1) ltac:(lra)) as Hm; pose proof (exp_ineq1 1 ltac:(lra)) as He; rewrite ln_exp in Hm; lra). lra. }
  split; [exact L|]. intros W w w' l H. apply (sorted_by_score_ok Rleb rleb_total) in H as (P & R & _).
  assert (S : LA_LOO (white_reg (/ 2) (/ 2)) < LA_LOO (white_reg 1 1)).
  { unfold LA_LOO. pose proof (L 0%nat ltac:(lia)) as L0. pose proof (L 1%nat ltac:(lia)) as L1. unfold msum. change (nr (gpy_LOO (white_reg (/ 2) (/ 2)))) with 2%nat. change (nc (gpy_LOO (white_reg (/ 2) (/ 2)))) with 1%nat.
    change (nr (gpy_LOO (white_reg 1 1))) with 2%nat. change (nc (gpy_LOO (white_reg 1 1))) with 1%nat. cbn [rsum INR]. lra. }
  apply Permutation_sym, Permutation_length_2_inv in P as [->| ->]; [|reflexivity].
  exfalso. inversion R as [|? ? _ F]; subst. inversion F as [|? ? F1 _]; subst. destruct F1 as (u & v & [= <-] & [= <-] & E). cbn [gdata] in E. unfold Rleb in E.
  destruct (Rle_dec (LA_LOO (white_reg 1 1)) (LA_LOO (white_reg (/ 2) (/ 2)))); [lra|discriminate].
Qed.

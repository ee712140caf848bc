(** The mean of the periodic kernel over a period, and when its matrices are positive semidefinite. *)
From Coq Require Import Reals List Bool Arith Lra Lia Psatz ZArith QArith Qreals.
From Coquelicot Require Import Coquelicot.
From Verif Require Import Py KernModel KernSpec KernGrad KernGrad3 KernBessel KernGrad4 KernPsd KernProper.
Import ListNotations.
Local Close Scope Q_scope.
Local Open Scope R_scope.

(** ** Sums over n equidistant points of a period *)
Lemma cos_telescope n a b : 2 * sin (a / 2) * sum_to n (fun i => cos (a * INR i + b)) = sin (a * INR n - a / 2 + b) - sin (- (a / 2) + b).
Proof.
  induction n as [|n IH]; [simpl; replace (a * 0 - a / 2 + b) with (- (a / 2) + b) by ring; ring|].
  cbn [sum_to]. rewrite Rmult_plus_distr_l, IH, S_INR. set (u := a * INR n + b).
  replace (a * (INR n + 1) - a / 2 + b) with (u + a / 2) by (unfold u; field). replace (a * INR n - a / 2 + b) with (u - a / 2) by (unfold u; ring). rewrite (sin_plus u (a / 2)), (sin_minus u (a / 2)). fold u. ring.
Qed.
Lemma sin_pi_fraction n (m : Z) : (0 < Z.abs m < Z.of_nat n)%Z -> sin (PI * IZR m / INR n) <> 0.
Proof.
  intros Hm. assert (Hn : 0 < INR n) by (apply lt_0_INR; lia). pose proof PI_RGT_0 as Hpi.
  assert (P : forall q : Z, (0 < q < Z.of_nat n)%Z -> 0 < sin (PI * IZR q / INR n)).
  { intros q [H1 H2]. apply IZR_lt in H1, H2. rewrite <- INR_IZR_INZ in H2. apply sin_gt_0.
    - apply Rdiv_lt_0_compat; [nra|exact Hn].
    - apply (Rmult_lt_reg_r (INR n)); [exact Hn|]. unfold Rdiv. rewrite Rmult_assoc, Rinv_l by lra. nra. }
  destruct (Z.lt_ge_cases 0 m) as [H|H].
  - pose proof (P m ltac:(lia)). lra.
  - pose proof (P (- m)%Z ltac:(lia)) as Q. rewrite opp_IZR in Q. replace (PI * - IZR m / INR n) with (- (PI * IZR m / INR n)) in Q by (unfold Rdiv; ring). rewrite sin_neg in Q. lra.
Qed.
Lemma cos_sum_zero n (m : Z) b : (0 < Z.abs m < Z.of_nat n)%Z -> sum_to n (fun i => cos (IZR m * (2 * PI * INR i / INR n) + b)) = 0.
Proof.
  intros Hm. assert (Hn : 0 < INR n) by (apply lt_0_INR; lia). set (a := 2 * PI * IZR m / INR n).
  rewrite (sum_to_ext n _ (fun i => cos (a * INR i + b))) by (intros i _; f_equal; unfold a; field; lra).
  pose proof (cos_telescope n a b) as T. replace (a * INR n - a / 2 + b) with (- (a / 2) + b + 2 * PI * IZR m) in T by (unfold a; field; lra).
  assert (E : sin (- (a / 2) + b + 2 * PI * IZR m) = sin (- (a / 2) + b)).
  { rewrite (sin_cos (- (a / 2) + b + 2 * PI * IZR m)), (sin_cos (- (a / 2) + b)).
    pose proof (cos_shift (PI / 2 + (- (a / 2) + b)) m) as C2. replace (PI / 2 + (- (a / 2) + b + 2 * PI * IZR m)) with (PI / 2 + (- (a / 2) + b) + 2 * PI * IZR m) by ring. rewrite C2. reflexivity. }
  rewrite E in T. pose proof (sin_pi_fraction n m Hm) as S. replace (PI * IZR m / INR n) with (a / 2) in S by (unfold a; field; lra).
  assert (Z : sin (a / 2) * sum_to n (fun i => cos (a * INR i + b)) = 0) by lra. apply Rmult_integral in Z as [Z|Z]; [contradiction|exact Z].
Qed.

Definition node (n : nat) (i : nat) : R := 2 * PI * INR i / INR n.
(** The k-th power of the cosine sums to n times its mean if k < n. *)
Lemma cos_pow_sum n k b : (k < n)%nat -> sum_to n (fun i => cos (node n i + b) ^ k) = INR n * cmean k.
Proof.
  intros Hk. rewrite (sum_to_ext n _ (fun i => / 2 ^ k * sum_to (S k) (fun h => bin k h * cos (IZR (Z.of_nat k - 2 * Z.of_nat h) * node n i + (INR k - 2 * INR h) * b)))).
  2:{ intros i _. rewrite cos_pow. unfold Rdiv. rewrite Rmult_comm. f_equal. apply sum_to_ext. intros h _. do 2 f_equal. rewrite minus_IZR, mult_IZR, <- !INR_IZR_INZ. ring. }
  rewrite sum_to_scal, sum_to_swap.
  rewrite (sum_to_ext (S k) _ (fun h => if (Nat.even k && (h =? Nat.div2 k)%nat)%bool then bin k h * INR n else 0)).
  2:{ intros h Hh. rewrite sum_to_scal. destruct (Nat.eq_dec k (2 * h)) as [E|E].
      - assert (Ev : Nat.even k = true) by (rewrite E, Nat.even_mul; reflexivity). assert (Ed : Nat.div2 k = h) by (rewrite E; apply Nat.div2_double). rewrite Ev, Ed, Nat.eqb_refl. cbn [andb].
        f_equal. replace (Z.of_nat k - 2 * Z.of_nat h)%Z with 0%Z by lia. replace (INR k - 2 * INR h) with 0 by (rewrite E, mult_INR; simpl (INR 2); ring).
        rewrite (sum_to_ext n _ (fun _ => 1)) by (intros; rewrite !Rmult_0_l, Rplus_0_l; apply cos_0). clear. induction n as [|n IH]; [reflexivity|]. cbn [sum_to]. rewrite IH, S_INR. reflexivity.
      - assert (Ed : (Nat.even k && (h =? Nat.div2 k)%nat)%bool = false).
        { destruct (Nat.even k) eqn:Ev; [|reflexivity]. cbn [andb]. apply Nat.eqb_neq. intros ->. apply Nat.even_spec in Ev. destruct Ev as [q ->]. rewrite Nat.div2_double in E. lia. }
        rewrite Ed. unfold node. rewrite (cos_sum_zero n) by lia. ring. }
  unfold cmean. destruct (Nat.even k); cbn [andb].
  - rewrite (sum_to_single (S k) (Nat.div2 k)).
    + rewrite Nat.eqb_refl. unfold Rdiv. ring.
    + rewrite Nat.div2_div. apply Nat.lt_succ_r, Nat.div_le_upper_bound; lia.
    + intros i _ Hi. apply Nat.eqb_neq in Hi. rewrite Hi. reflexivity.
  - rewrite sum_to_zero. ring.
Qed.
Lemma sum_to_bound n f c : (forall i, (i < n)%nat -> Rabs (f i) <= c) -> Rabs (sum_to n f) <= INR n * c.
Proof.
  induction n as [|n IH]; intros H; [simpl; rewrite Rabs_R0; lra|]. cbn [sum_to]. rewrite S_INR. pose proof (Rabs_triang (sum_to n f) (f n)). pose proof (IH (fun i Hi => H i ltac:(lia))). pose proof (H n ltac:(lia)). lra.
Qed.
Lemma cmean_bound k : Rabs (cmean k) <= 1.
Proof.
  pose proof (cos_pow_sum (S k) k 0 ltac:(lia)) as E. assert (Hn : 0 < INR (S k)) by (apply lt_0_INR; lia).
  assert (B : Rabs (sum_to (S k) (fun i => cos (node (S k) i + 0) ^ k)) <= INR (S k) * 1).
  { apply sum_to_bound. intros i _. rewrite <- RPow_abs. rewrite <- (pow1 k). apply pow_incr. split; [apply Rabs_pos|]. apply Rabs_le. apply COS_bound. }
  rewrite E, Rabs_mult, (Rabs_pos_eq (INR (S k))) in B by lra. nra.
Qed.

(** ** The mean of exp(z cos) *)
Definition exp_partial (z : R) (N : nat) : R := sum_n (fun k => / INR (fact k) * z ^ k) N.
Lemma exp_partial_lim z : is_lim_seq (exp_partial z) (exp z).
Proof. assert (H : is_series (fun k => / INR (fact k) * z ^ k) (exp z)) by (apply is_pseries_R, is_exp_Reals). exact H. Qed.
Lemma exp_coef_pos z k : 0 <= z -> 0 <= / INR (fact k) * z ^ k.
Proof. intros Hz. apply Rmult_le_pos; [apply Rlt_le, Rinv_0_lt_compat, INR_fact_lt_0|apply pow_le, Hz]. Qed.
Lemma sum_to_series n (a : nat -> nat -> R) (l : nat -> R) : (forall i, is_series (a i) (l i)) -> is_series (fun k => sum_to n (fun i => a i k)) (sum_to n l).
Proof.
  intros H. induction n as [|n IH].
  - apply (is_lim_seq_ext (fun _ => 0) _ (Finite 0)); [|apply is_lim_seq_const]. intros N. induction N as [|N IHN]; [rewrite sum_O; reflexivity|]. rewrite sum_Sn, <- IHN. unfold plus. simpl. ring.
  - cbn [sum_to]. apply (is_series_plus (fun k => sum_to n (fun i => a i k)) (a n)); [exact IH|apply H].
Qed.
Lemma exp_cos_sum z n b : 0 <= z -> Rabs (sum_to (S n) (fun i => exp (cos (node (S n) i + b) * z)) - INR (S n) * bessel0 z) <= 2 * INR (S n) * (exp z - exp_partial z n).
Proof.
  intros Hz. set (t := fun i => cos (node (S n) i + b)).
  set (d := fun k => / INR (fact k) * z ^ k * (sum_to (S n) (fun i => t i ^ k) - INR (S n) * cmean k)).
  assert (D : is_series d (sum_to (S n) (fun i => exp (t i * z)) - INR (S n) * bessel0 z)).
  { apply (is_series_ext (fun k => sum_to (S n) (fun i => / INR (fact k) * (t i * z) ^ k) - INR (S n) * (/ INR (fact k) * cmean k * z ^ k))).
    - intros k. unfold d. rewrite Rmult_minus_distr_l. f_equal; [|ring]. rewrite <- sum_to_scal. apply sum_to_ext. intros i _. rewrite Rpow_mult_distr. ring.
    - apply (is_series_minus (fun k => sum_to (S n) (fun i => / INR (fact k) * (t i * z) ^ k)) (fun k => INR (S n) * (/ INR (fact k) * cmean k * z ^ k))).
      + apply (sum_to_series (S n) (fun i k => / INR (fact k) * (t i * z) ^ k) (fun i => exp (t i * z))). intros i. apply is_pseries_R, is_exp_Reals.
      + exact (is_series_scal (INR (S n)) (fun k => / INR (fact k) * cmean k * z ^ k) (bessel0 z) (bessel_series z)). }
  assert (Z : forall k, (k <= n)%nat -> d k = 0) by (intros k Hk; unfold d, t; rewrite (cos_pow_sum (S n) k b) by lia; ring).
  assert (B : forall k, Rabs (d k) <= 2 * INR (S n) * (/ INR (fact k) * z ^ k)).
  { intros k. unfold d. rewrite Rabs_mult, (Rabs_pos_eq (/ INR (fact k) * z ^ k)) by (apply exp_coef_pos, Hz).
    assert (Q : Rabs (sum_to (S n) (fun i => t i ^ k) - INR (S n) * cmean k) <= 2 * INR (S n)); [|pose proof (exp_coef_pos z k Hz); nra].
    assert (B1 : Rabs (sum_to (S n) (fun i => t i ^ k)) <= INR (S n) * 1).
    { apply sum_to_bound. intros i _. rewrite <- RPow_abs. rewrite <- (pow1 k). apply pow_incr. split; [apply Rabs_pos|]. apply Rabs_le. apply COS_bound. }
    assert (B2 : Rabs (INR (S n) * cmean k) <= INR (S n)). { rewrite Rabs_mult, (Rabs_pos_eq (INR (S n))) by apply pos_INR. pose proof (cmean_bound k). pose proof (pos_INR (S n)). nra. }
    unfold Rminus. pose proof (Rabs_triang (sum_to (S n) (fun i => t i ^ k)) (- (INR (S n) * cmean k))) as T. rewrite Rabs_Ropp in T. lra. }
  assert (P0 : sum_n d n = 0).
  { assert (G : forall N, (N <= n)%nat -> sum_n d N = 0); [|apply G, le_n]. induction N as [|N IH]; intros HN; [rewrite sum_O; apply Z, HN|]. rewrite sum_Sn, IH, Z by lia. unfold plus. simpl. ring. }
  assert (P : forall N, Rabs (sum_n d (N + n)) <= 2 * INR (S n) * (exp_partial z (N + n) - exp_partial z n)).
  { induction N as [|N IH]; [change (0 + n)%nat with n; rewrite P0, Rabs_R0; lra|]. replace (S N + n)%nat with (S (N + n)) by lia. unfold exp_partial in *. rewrite !sum_Sn. unfold plus. simpl.
    pose proof (Rabs_triang (sum_n d (N + n)) (d (S (N + n)))). pose proof (B (S (N + n))). simpl in *. lra. }
  assert (L : is_lim_seq (fun N => Rabs (sum_n d (N + n))) (Rabs (sum_to (S n) (fun i => exp (t i * z)) - INR (S n) * bessel0 z))).
  { apply (is_lim_seq_abs (fun N => sum_n d (N + n)) (Finite (sum_to (S n) (fun i => exp (t i * z)) - INR (S n) * bessel0 z))). apply (is_lim_seq_incr_n (sum_n d) n). exact D. }
  assert (M : is_lim_seq (fun N => 2 * INR (S n) * (exp_partial z (N + n) - exp_partial z n)) (2 * INR (S n) * (exp z - exp_partial z n))).
  { apply (is_lim_seq_scal_l _ _ (Finite (exp z - exp_partial z n))). apply (is_lim_seq_minus' _ _ (exp z) (exp_partial z n)); [|apply is_lim_seq_const]. apply (is_lim_seq_incr_n (exp_partial z) n), exp_partial_lim. }
  exact (is_lim_seq_le _ _ (Finite _) (Finite _) P L M).
Qed.

(** The average of the periodic kernel over n equidistant points of a period, starting anywhere. *)
Definition period_mean (f : R -> R) (p : R) (d : R) (n : nat) : R := sum_to n (fun i => f (d + p * (INR i / INR n))) / INR n.
Lemma exp_cos_mean z b : 0 <= z -> is_lim_seq (fun n => sum_to n (fun i => exp (cos (node n i + b) * z)) / INR n) (bessel0 z).
Proof.
  intros Hz. apply is_lim_seq_incr_1. apply (is_lim_seq_le_le (fun n => bessel0 z - 2 * (exp z - exp_partial z n)) _ (fun n => bessel0 z + 2 * (exp z - exp_partial z n))).
  - intros n. pose proof (exp_cos_sum z n b Hz) as H. assert (Hn : 0 < INR (S n)) by (apply lt_0_INR; lia). apply Rabs_le_between in H.
    set (s := sum_to _ _) in *. set (e := exp z - exp_partial z n) in *. split; apply (Rmult_le_reg_r (INR (S n))); try assumption; unfold Rdiv; rewrite Rmult_assoc, Rinv_l by lra; nra.
  - replace (Finite (bessel0 z)) with (Finite (bessel0 z - 2 * (exp z - exp z))) by (f_equal; ring). apply (is_lim_seq_minus' _ _ (bessel0 z) (2 * (exp z - exp z))); [apply is_lim_seq_const|].
    apply (is_lim_seq_scal_l _ _ (Finite (exp z - exp z))). apply is_lim_seq_minus'; [apply is_lim_seq_const|apply exp_partial_lim].
  - replace (Finite (bessel0 z)) with (Finite (bessel0 z + 2 * (exp z - exp z))) by (f_equal; ring). apply (is_lim_seq_plus' _ _ (bessel0 z) (2 * (exp z - exp z))); [apply is_lim_seq_const|].
    apply (is_lim_seq_scal_l _ _ (Finite (exp z - exp z))). apply is_lim_seq_minus'; [apply is_lim_seq_const|apply exp_partial_lim].
Qed.
Lemma sum_to_const n c : sum_to n (fun _ => c) = INR n * c.
Proof. induction n as [|n IH]; [simpl; ring|]. cbn [sum_to]. rewrite IH, S_INR. ring. Qed.
(** The mean of an affine function of exp(z cos). *)
Lemma affine_mean z a c p d (f : R -> R) : 0 <= z -> p <> 0 -> (forall x, f x = a * exp (cos (2 * PI / p * x) * z) + c) -> is_lim_seq (period_mean f p d) (a * bessel0 z + c).
Proof.
  intros Hz Hp Hf. apply is_lim_seq_incr_1.
  apply (is_lim_seq_ext (fun n => a * (sum_to (S n) (fun i => exp (cos (node (S n) i + 2 * PI / p * d) * z)) / INR (S n)) + c)).
  - intros n. unfold period_mean. assert (Hn : 0 < INR (S n)) by (apply lt_0_INR; lia). apply (Rmult_eq_reg_r (INR (S n))); [|lra]. unfold Rdiv at 3. rewrite Rmult_assoc, Rinv_l, Rmult_1_r by lra.
    rewrite (sum_to_ext (S n) (fun i => f _) (fun i => a * exp (cos (node (S n) i + 2 * PI / p * d) * z) + c)).
    + rewrite sum_to_plus, sum_to_scal, sum_to_const. field. lra.
    + intros i _. rewrite Hf. do 5 f_equal. unfold node. field. split; lra.
  - apply (is_lim_seq_plus' _ _ (a * bessel0 z) c); [|apply is_lim_seq_const]. apply (is_lim_seq_scal_l _ _ (Finite (bessel0 z))). apply (is_lim_seq_incr_1 (fun n => sum_to n (fun i => exp (cos (node n i + 2 * PI / p * d) * z)) / INR n)), exp_cos_mean, Hz.
Qed.
Lemma cos_mean a p d (f : R -> R) : p <> 0 -> (forall x, f x = a * cos (2 * PI / p * x)) -> is_lim_seq (period_mean f p d) 0.
Proof.
  intros Hp Hf. apply is_lim_seq_incr_1, is_lim_seq_incr_1. apply (is_lim_seq_ext (fun _ => 0)); [|apply is_lim_seq_const]. intros n. unfold period_mean.
  assert (Hn : 0 < INR (S (S n))) by (apply lt_0_INR; lia).
  rewrite (sum_to_ext _ _ (fun i => a * cos (IZR 1 * (2 * PI * INR i / INR (S (S n))) + 2 * PI / p * d))).
  - rewrite sum_to_scal, cos_sum_zero by lia. unfold Rdiv. ring.
  - intros i _. rewrite Hf. do 2 f_equal. field. split; lra.
Qed.
Lemma per_mean v p l d : p <> 0 -> 0 < l -> is_lim_seq (period_mean (per_entry bessel0 v p l) p d)
  (if (Rltb 10000 l || Rltb (1 / l ^ 2) 3.75)%bool then 0 else v * ((exp (- (1 / l ^ 2)) * bessel0 (1 / l ^ 2) - embi0 (1 / l ^ 2)) / (1 - embi0 (1 / l ^ 2)))).
Proof.
  intros Hp Hl. pose proof (sqr_pos l Hl) as Hz. unfold per_entry. destruct (Rltb 10000 l); cbn [orb].
  - apply (cos_mean v); [exact Hp|]. intros x. reflexivity.
  - destruct (Rltb (1 / l ^ 2) 3.75) eqn:E.
    + pose proof (bessel0_lt_exp _ Hz) as B. set (z := 1 / l ^ 2) in *.
      replace (Finite 0) with (Finite (v / (exp z - bessel0 z) * bessel0 z + - v * bessel0 z / (exp z - bessel0 z))) by (f_equal; unfold Rdiv; ring).
      apply affine_mean; [lra|exact Hp|]. intros x. cbv zeta. unfold Rdiv. ring.
    + assert (Hn : 3.75 <= 1 / l ^ 2) by (unfold Rltb in E; destruct (Rlt_dec (1 / l ^ 2) 3.75); [discriminate|lra]). pose proof (embi0_bound _ Hn) as B. set (z := 1 / l ^ 2) in *.
      replace (Finite (v * ((exp (- z) * bessel0 z - embi0 z) / (1 - embi0 z)))) with (Finite (v * exp (- z) / (1 - embi0 z) * bessel0 z + - v * embi0 z / (1 - embi0 z))) by (f_equal; unfold Rdiv; ring).
      apply affine_mean; [lra|exact Hp|]. intros x. cbv zeta. replace ((cos (2 * PI / p * x) - 1) * z) with (- z + cos (2 * PI / p * x) * z) by ring. rewrite exp_plus. unfold Rdiv. ring.
Qed.

(** ** Positive semidefinite *)
(** A function of the distance whose matrices are positive semidefinite has no negative mean over a period. *)
Lemma psd_mean (f : R -> R) p m : (forall n x, psd n (fun i j => f (x i - x j))) -> (forall x (k : Z), f (x + p * IZR k) = f x) -> is_lim_seq (period_mean f p 0) m -> Rbar_le 0 m.
Proof.
  intros HP Hf L. apply is_lim_seq_incr_1 in L. apply (is_lim_seq_le (fun _ => 0) _ 0 m) with (2 := is_lim_seq_const 0) (3 := L). intros n.
  assert (Hn : 0 < INR (S n)) by (apply lt_0_INR; lia). set (x := fun i => p * (INR i / INR (S n))).
  pose proof (HP (S n) x (fun _ => 1)) as H. cbv beta in H.
  assert (E : forall j, (j < S n)%nat -> sum_to (S n) (fun i => 1 * 1 * f (x i - x j)) = sum_to (S n) (fun i => f (0 + p * (INR i / INR (S n))))).
  { induction j as [|j IH]; intros Hj.
    - apply sum_to_ext. intros i _. unfold x. simpl (INR 0). replace (p * (INR i / INR (S n)) - p * (0 / INR (S n))) with (0 + p * (INR i / INR (S n))) by (unfold Rdiv; ring). ring.
    - rewrite <- (IH ltac:(lia)). rewrite (sum_to_shift n), Rplus_comm. cbn [sum_to]. f_equal.
      + apply sum_to_ext. intros i _. do 2 f_equal. unfold x. rewrite !S_INR. field. rewrite <- S_INR. lra.
      + rewrite <- (Hf (x 0%nat - x (S j)) 1%Z). do 2 f_equal. unfold x. rewrite !S_INR. simpl (INR 0). field. rewrite <- S_INR. lra. }
  rewrite sum_to_swap in H. rewrite (sum_to_ext (S n) _ (fun _ => sum_to (S n) (fun i => f (0 + p * (INR i / INR (S n)))))) in H.
  2:{ intros j Hj. apply E, Hj. }
  rewrite sum_to_const in H. unfold period_mean. apply (Rmult_le_reg_r (INR (S n) * INR (S n))); [nra|]. unfold Rdiv. replace (0 * (INR (S n) * INR (S n))) with 0 by ring.
  set (s := sum_to _ _) in *. replace (s * / INR (S n) * (INR (S n) * INR (S n))) with (INR (S n) * s) by (field; lra). exact H.
Qed.
Lemma proper_psd_entry v p l i1 : proper (per_kernel bessel0 i1 v p l) -> forall n x, psd n (fun i j => per_entry bessel0 v p l (x i - x j)).
Proof.
  intros H n x. destruct (H n x) as (K & (A & E & HA) & _ & Ps & _). pose proof (per_entries bessel0 v p l n x None) as HE. simpl in HE. destruct HE as (A' & E' & HA'). cbn [kK per_kernel] in E. rewrite E in E'. injection E' as <-.
  apply (psd_ext n K); [|exact Ps]. intros i j Hi Hj. rewrite <- (array_value _ _ _ _ _ _ HA Hi Hj). apply (array_value _ _ _ _ _ _ HA' Hi Hj).
Qed.
Lemma per_proper_iff v p l i1 : 0 < v -> p <> 0 -> 0 < l -> 3.75 <= 1 / l ^ 2 ->
  (proper (per_kernel bessel0 i1 v p l) <-> embi0 (1 / l ^ 2) <= exp (- (1 / l ^ 2)) * bessel0 (1 / l ^ 2)).
Proof.
  intros Hv Hp Hl Hz. split; [|intros H; apply per_proper; [lra|exact Hl|intros _ _; exact H]].
  intros HP. pose proof (psd_mean _ p _ (proper_psd_entry _ _ _ _ HP) (fun x k => per_shift v p l x k Hp) (per_mean v p l 0 Hp Hl)) as M.
  assert (E1 : Rltb 10000 l = false).
  { unfold Rltb. destruct (Rlt_dec 10000 l) as [H|]; [|reflexivity]. exfalso. assert (1 < l ^ 2) by nra. assert (1 / l ^ 2 < 1); [|lra]. apply (Rmult_lt_reg_r (l ^ 2)); [lra|]. unfold Rdiv. rewrite Rmult_assoc, Rinv_l by lra. lra. }
  assert (E2 : Rltb (1 / l ^ 2) 3.75 = false) by (unfold Rltb; destruct (Rlt_dec (1 / l ^ 2) 3.75); [lra|reflexivity]).
  rewrite E1, E2 in M. cbn [orb Rbar_le] in M. pose proof (embi0_bound _ Hz) as B. set (z := 1 / l ^ 2) in *. set (q := exp (- z) * bessel0 z) in *.
  destruct (Rle_dec (embi0 z) q) as [|Hn]; [assumption|exfalso]. assert (0 < / (1 - embi0 z)) by (apply Rinv_0_lt_compat; lra). assert (0 < v * / (1 - embi0 z)) by nra.
  unfold Rdiv in M. replace (v * ((q - embi0 z) * / (1 - embi0 z))) with (v * / (1 - embi0 z) * (q - embi0 z)) in M by ring. nra.
Qed.

(** ** The polynomial is above the function at 4 *)
Definition b_term (k : nat) : R := 4 ^ k / (INR (fact k) * INR (fact k)).
Lemma b_term_S k : b_term (S k) = b_term k * (4 / (INR (S k) * INR (S k))).
Proof. unfold b_term. rewrite fact_simpl, mult_INR. simpl (4 ^ S k). field. split; first [apply INR_fact_neq_0|apply not_0_INR; lia]. Qed.
Lemma b_term_pos k : 0 < b_term k.
Proof. unfold b_term. apply Rdiv_lt_0_compat; [apply pow_lt; lra|]. apply Rmult_lt_0_compat; apply INR_fact_lt_0. Qed.
Lemma b_tail K N : (2 <= K)%nat -> sum_n b_term (K + N) + b_term (K + N) <= sum_n b_term K + b_term K.
Proof.
  intros HK. induction N as [|N IH]; [rewrite Nat.add_0_r; lra|]. rewrite Nat.add_succ_r, sum_Sn. unfold plus. simpl. rewrite b_term_S. pose proof (b_term_pos (K + N)) as Hb.
  assert (H : 4 / (INR (S (K + N)) * INR (S (K + N))) <= / 2).
  { assert (3 <= INR (S (K + N))) by (replace 3 with (INR 3) by (simpl; ring); apply le_INR; lia). apply (Rmult_le_reg_r (INR (S (K + N)) * INR (S (K + N)))); [nra|]. unfold Rdiv. rewrite Rmult_assoc, Rinv_l by nra. nra. }
  nra.
Qed.
Lemma bessel_4_series : is_series b_term (bessel0 4).
Proof.
  rewrite bessel0_ps. replace ((4 / 2) ^ 2) with 4 by field. apply (is_series_ext (fun k => b0c k * 4 ^ k)); [intros k; unfold b_term, b0c, Rdiv; match goal with |- ?a = ?b => change (@eq R a b) end; ring|].
  apply Series_correct. apply ex_pseries_R. apply CV_radius_inside. rewrite b0c_radius. exact I.
Qed.
Lemma bessel_4_le K : (2 <= K)%nat -> bessel0 4 <= sum_n b_term K + b_term K.
Proof.
  intros HK. assert (L : is_lim_seq (fun N => sum_n b_term (N + K)) (bessel0 4)) by (apply (is_lim_seq_incr_n (sum_n b_term) K), bessel_4_series).
  apply (is_lim_seq_le (fun N => sum_n b_term (N + K)) (fun _ => sum_n b_term K + b_term K) (bessel0 4) (sum_n b_term K + b_term K)); [|exact L|apply is_lim_seq_const].
  intros N. rewrite Nat.add_comm. pose proof (b_tail K N HK). pose proof (b_term_pos (K + N)). lra.
Qed.
Lemma exp_ge_partial z N : 0 <= z -> exp_partial z N <= exp z.
Proof.
  intros Hz. apply (is_lim_seq_incr_compare (exp_partial z)); [apply exp_partial_lim|]. intros n. unfold exp_partial. rewrite sum_Sn. unfold plus. simpl. pose proof (exp_coef_pos z (S n) Hz). simpl in *. lra.
Qed.

(** Both computed with rationals. *)
Fixpoint bq (k : nat) : Q := match k with O => 1 | S k => Qred (bq k * (4 / (inject_Z (Z.of_nat (S k)) * inject_Z (Z.of_nat (S k))))) end%Q.
Fixpoint eq4 (k : nat) : Q := match k with O => 1 | S k => Qred (eq4 k * (4 / inject_Z (Z.of_nat (S k)))) end%Q.
Fixpoint qsum (f : nat -> Q) (n : nat) : Q := match n with O => f 0%nat | S m => Qred (qsum f m + f (S m)) end%Q.
Lemma Q2R_red q : Q2R (Qred q) = Q2R q.
Proof. apply Qeq_eqR, Qred_correct. Qed.
Lemma Q2R_nat k : Q2R (inject_Z (Z.of_nat k)) = INR k.
Proof. unfold Q2R, inject_Z. cbn [Qnum Qden]. rewrite <- INR_IZR_INZ. field. Qed.
Lemma Q2R_4 : Q2R 4 = 4.
Proof. unfold Q2R. simpl. field. Qed.
Lemma nat_not_0 k : ~ (inject_Z (Z.of_nat (S k)) == 0)%Q.
Proof. intros H. apply Qeq_eqR in H. rewrite Q2R_nat in H. unfold Q2R in H. simpl (IZR (Qnum 0)) in H. rewrite Rmult_0_l in H. apply (not_0_INR (S k)); [lia|exact H]. Qed.
Lemma bq_ok k : Q2R (bq k) = b_term k.
Proof.
  induction k as [|k IH]; [unfold b_term, Q2R; simpl; field|]. cbn [bq]. rewrite Q2R_red, Q2R_mult, IH, b_term_S. f_equal. unfold Qdiv. rewrite Q2R_mult, Q2R_inv, Q2R_mult, Q2R_nat, Q2R_4; [reflexivity|].
  intros H. apply Qmult_integral in H as [H|H]; exact (nat_not_0 k H).
Qed.
Lemma eq4_ok k : Q2R (eq4 k) = / INR (fact k) * 4 ^ k.
Proof.
  induction k as [|k IH]; [unfold Q2R; simpl; field|]. cbn [eq4]. rewrite Q2R_red, Q2R_mult, IH, fact_simpl, mult_INR. unfold Qdiv. rewrite Q2R_mult, Q2R_inv, Q2R_nat, Q2R_4; [|apply nat_not_0].
  simpl (4 ^ S k). field. split; first [apply INR_fact_neq_0|apply not_0_INR; lia].
Qed.
Lemma qsum_ok f g n : (forall k, Q2R (f k) = g k) -> Q2R (qsum f n) = sum_n g n.
Proof. intros H. induction n as [|n IH]; [rewrite sum_O; apply H|]. cbn [qsum]. rewrite Q2R_red, Q2R_plus, IH, H, sum_Sn. reflexivity. Qed.
Lemma bessel_4_bound : bessel0 4 <= 11.3019219523.
Proof.
  eapply Rle_trans; [apply (bessel_4_le 12); lia|]. rewrite <- (qsum_ok bq b_term 12 bq_ok), <- (bq_ok 12), <- Q2R_plus. replace 11.3019219523 with (Q2R (113019219523 # 10000000000)) by (unfold Q2R; simpl; lra).
  apply Qle_Rle. vm_compute. discriminate.
Qed.
Lemma exp_4_bound : 54.598150033 <= exp 4.
Proof.
  eapply Rle_trans; [|apply (exp_ge_partial 4 24); lra]. unfold exp_partial. rewrite <- (qsum_ok eq4 _ 24 eq4_ok). replace 54.598150033 with (Q2R (54598150033 # 1000000000)) by (unfold Q2R; simpl; lra).
  apply Qle_Rle. vm_compute. discriminate.
Qed.
Lemma embi0_4 : exp (- 4) * bessel0 4 < embi0 4.
Proof.
  assert (E : 0.207001925 <= embi0 4).
  { unfold embi0. replace (sqrt 4) with 2 by (replace 4 with (2 * 2) by ring; rewrite sqrt_square; lra). replace (3.75 / 4) with (15 / 16) by lra. lra. }
  eapply Rlt_le_trans; [|exact E]. pose proof bessel_4_bound as B. pose proof exp_4_bound as X. replace (exp (- 4)) with (/ exp 4) by (rewrite <- exp_Ropp; f_equal; lra). apply (Rmult_lt_reg_l (exp 4)); [apply exp_pos|]. rewrite <- Rmult_assoc, Rinv_r, Rmult_1_l by (apply Rgt_not_eq, exp_pos). lra.
Qed.
Lemma per_not_proper : exists v p l, 0 < v /\ 0 < p /\ 0 < l /\ forall i1, ~ proper (per_kernel bessel0 i1 v p l).
Proof.
  exists 1, 1, (/ 2). split; [lra|]. split; [lra|]. split; [lra|]. intros i1 H. assert (E : 1 / (/ 2) ^ 2 = 4) by field.
  apply per_proper_iff in H; [|lra|lra|lra|rewrite E; lra]. rewrite E in H. replace (- (4)) with (-4) in H by lra. pose proof embi0_4. lra.
Qed.
(** The covariances of one point with n equidistant points of a period starting anywhere. *)
Definition period_row (v p l x y : R) (n : nat) (K : nat -> nat -> R) : Prop :=
  computes (kK (per_kernel bessel0 bessel1 v p l) (column 1 (fun _ => x)) (Some (column n (fun j => y + p * (INR j / INR n))))) 1 n K.
Lemma per_row_mean v p l x y : p <> 0 -> 0 < l -> exists K, (forall n, period_row v p l x y n (K n))
  /\ is_lim_seq (fun n => sum_to n (K n 0%nat) / INR n)
       (if (Rltb 10000 l || Rltb (1 / l ^ 2) 3.75)%bool then 0 else v * ((exp (- (1 / l ^ 2)) * bessel0 (1 / l ^ 2) - embi0 (1 / l ^ 2)) / (1 - embi0 (1 / l ^ 2)))).
Proof.
  intros Hp Hl. exists (fun n _ j => per_entry bessel0 v p l (x - (y + p * (INR j / INR n)))). split.
  - intros n. exact (per_entries bessel0 v p l 1 (fun _ => x) (Some (n, fun j => y + p * (INR j / INR n)))).
  - eapply is_lim_seq_ext; [|apply (per_mean v p l (y - x) Hp Hl)]. intros n. unfold period_mean. f_equal. apply sum_to_ext. intros i _. rewrite <- per_entry_even. f_equal. ring.
Qed.
Lemma per_row_zero v p l x y : p <> 0 -> 0 < l -> 1 / l ^ 2 < 3.75 \/ 10000 < l ->
  exists K, (forall n, period_row v p l x y n (K n)) /\ is_lim_seq (fun n => sum_to n (K n 0%nat) / INR n) 0.
Proof.
  intros Hp Hl H. destruct (per_row_mean v p l x y Hp Hl) as (K & H1 & H2). exists K. split; [exact H1|]. unfold Rltb in H2. destruct (Rlt_dec 10000 l); [exact H2|]. destruct (Rlt_dec (1 / l ^ 2) 3.75); [exact H2|]. exfalso. lra.
Qed.
Lemma per_row_poly v p l x y : p <> 0 -> 0 < l -> 3.75 <= 1 / l ^ 2 ->
  exists K, (forall n, period_row v p l x y n (K n)) /\ is_lim_seq (fun n => sum_to n (K n 0%nat) / INR n) (v * ((exp (- (1 / l ^ 2)) * bessel0 (1 / l ^ 2) - embi0 (1 / l ^ 2)) / (1 - embi0 (1 / l ^ 2)))).
Proof.
  intros Hp Hl Hz. destruct (per_row_mean v p l x y Hp Hl) as (K & H1 & H2). exists K. split; [exact H1|].
  assert (E1 : Rltb 10000 l = false).
  { unfold Rltb. destruct (Rlt_dec 10000 l) as [H|]; [|reflexivity]. exfalso. assert (1 < l ^ 2) by nra. assert (1 / l ^ 2 < 1); [|lra]. apply (Rmult_lt_reg_r (l ^ 2)); [lra|]. unfold Rdiv. rewrite Rmult_assoc, Rinv_l by lra. lra. }
  assert (E2 : Rltb (1 / l ^ 2) 3.75 = false) by (unfold Rltb; destruct (Rlt_dec (1 / l ^ 2) 3.75); [lra|reflexivity]). rewrite E1, E2 in H2. exact H2.
Qed.
Lemma per_row_not_zero : exists v p l x y, 0 < v /\ 0 < p /\ 0 < l /\ exists K m, (forall n, period_row v p l x y n (K n)) /\ is_lim_seq (fun n => sum_to n (K n 0%nat) / INR n) (Finite m) /\ m < 0.
Proof.
  exists 1, 1, (/ 2), 0, 0. split; [lra|]. split; [lra|]. split; [lra|]. assert (E : 1 / (/ 2) ^ 2 = 4) by field.
  destruct (per_row_poly 1 1 (/ 2) 0 0 ltac:(lra) ltac:(lra) ltac:(lra)) as (K & H1 & H2). exists K. eexists. split; [exact H1|]. split; [exact H2|]. rewrite E. pose proof (embi0_bound 4 ltac:(lra)) as B. pose proof embi0_4 as P.
  replace (- (4)) with (-4) by lra. assert (0 < / (1 - embi0 4)) by (apply Rinv_0_lt_compat; lra). unfold Rdiv. nra.
Qed.

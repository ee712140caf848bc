(** Positive semidefinite arrays. *)
From Coq Require Import Reals List Bool Arith Lra Lia.
From Coquelicot Require Import Coquelicot.
From Verif Require Import Py KernModel KernSpec KernGrad KernBessel.
Import ListNotations.
Local Open Scope R_scope.

Definition quad (n : nat) (c : nat -> R) (A : nat -> nat -> R) : R := sum_to n (fun i => sum_to n (fun j => c i * c j * A i j)).

Lemma psd_ext n A B : (forall i j, (i < n)%nat -> (j < n)%nat -> A i j = B i j) -> psd n A -> psd n B.
Proof. intros H HA c. erewrite sum2_ext; [apply (HA c)|]. intros i j Hi Hj. cbv beta. rewrite H by assumption. reflexivity. Qed.

Lemma sum_to_nonneg n f : (forall i, (i < n)%nat -> 0 <= f i) -> 0 <= sum_to n f.
Proof. induction n as [|n IH]; intros H; simpl; [lra|]. assert (0 <= sum_to n f) by (apply IH; intros; apply H; lia). pose proof (H n (Nat.lt_succ_diag_r n)). lra. Qed.

Lemma psd_zero n : psd n (fun _ _ => 0).
Proof. intros c. apply sum_to_nonneg. intros i _. apply sum_to_nonneg. intros j _. rewrite Rmult_0_r. apply Rle_refl. Qed.

Lemma psd_plus n A B : psd n A -> psd n B -> psd n (fun i j => A i j + B i j).
Proof.
  intros HA HB c. pose proof (HA c). pose proof (HB c). replace (sum_to n _) with (quad n c A + quad n c B); [unfold quad; lra|].
  unfold quad. rewrite <- sum_to_plus. apply sum_to_ext. intros i _. rewrite <- sum_to_plus. apply sum_to_ext. intros j _. ring.
Qed.

Lemma psd_scal n a A : 0 <= a -> psd n A -> psd n (fun i j => a * A i j).
Proof.
  intros Ha HA c. pose proof (HA c). replace (sum_to n _) with (a * quad n c A); [apply Rmult_le_pos; assumption|].
  unfold quad. rewrite <- sum_to_scal. apply sum_to_ext. intros i _. rewrite <- sum_to_scal. apply sum_to_ext. intros j _. ring.
Qed.

Lemma sum_to_mult n f g : sum_to n f * sum_to n g = sum_to n (fun i => sum_to n (fun j => f i * g j)).
Proof.
  rewrite Rmult_comm, <- sum_to_scal. apply sum_to_ext. intros i _. rewrite Rmult_comm, <- sum_to_scal. reflexivity.
Qed.

Lemma psd_rank1 n f : psd n (fun i j => f i * f j).
Proof.
  intros c. replace (sum_to n _) with (sum_to n (fun i => c i * f i) * sum_to n (fun i => c i * f i)); [apply Rle_0_sqr|].
  rewrite sum_to_mult. apply sum2_ext. intros i j _ _. ring.
Qed.

Lemma psd_const n a : 0 <= a -> psd n (fun _ _ => a).
Proof. intros H. apply (psd_ext n (fun i j => a * (1 * 1))); [intros; ring|]. apply (psd_scal n a (fun _ _ => 1 * 1) H). apply (psd_rank1 n (fun _ => 1)). Qed.

Lemma psd_sum n m (A : nat -> nat -> nat -> R) : (forall k, (k < m)%nat -> psd n (A k)) -> psd n (fun i j => sum_to m (fun k => A k i j)).
Proof. induction m as [|m IH]; intros H; simpl; [apply psd_zero|]. apply psd_plus; [apply IH; intros; apply H; lia|apply H; lia]. Qed.

(** Multiplying by a rank one array. *)
Lemma psd_times_rank1 n A f : psd n A -> psd n (fun i j => A i j * (f i * f j)).
Proof.
  intros HA c. pose proof (HA (fun i => c i * f i)) as H. erewrite sum2_ext; [exact H|]. intros i j _ _. cbv beta. ring.
Qed.

Lemma sum_to_single n k (f : nat -> R) : (k < n)%nat -> (forall i, (i < n)%nat -> i <> k -> f i = 0) -> sum_to n f = f k.
Proof.
  induction n as [|n IH]; intros Hk H; [lia|]. simpl. destruct (Nat.eq_dec k n) as [->|Hne].
  - rewrite (sum_to_ext n f (fun _ => 0)), sum_to_zero by (intros; apply H; lia). lra.
  - rewrite IH by (try lia; intros; apply H; lia). rewrite (H n) by lia. lra.
Qed.

(** ** Every positive semidefinite array is a finite sum of rank one arrays *)
Lemma psd_last n A c t : psd (S n) A -> symmetric (S n) A ->
  0 <= quad n c A + 2 * t * sum_to n (fun i => c i * A i n) + t * t * A n n.
Proof.
  intros HA Hs. pose proof (HA (fun i => if (i <? n)%nat then c i else t)) as H. simpl in H. rewrite Nat.ltb_irrefl in H.
  rewrite sum_to_plus in H.
  replace (sum_to n (fun i => sum_to n (fun j => (if (i <? n)%nat then c i else t) * (if (j <? n)%nat then c j else t) * A i j))) with (quad n c A) in H.
  2:{ unfold quad. apply sum2_ext. intros i j Hi Hj. apply Nat.ltb_lt in Hi, Hj. rewrite Hi, Hj. reflexivity. }
  replace (sum_to n (fun i => (if (i <? n)%nat then c i else t) * t * A i n)) with (t * sum_to n (fun i => c i * A i n)) in H.
  2:{ rewrite <- sum_to_scal. apply sum_to_ext. intros i Hi. apply Nat.ltb_lt in Hi. rewrite Hi. ring. }
  replace (sum_to n (fun j => t * (if (j <? n)%nat then c j else t) * A n j)) with (t * sum_to n (fun i => c i * A i n)) in H.
  2:{ rewrite <- sum_to_scal. apply sum_to_ext. intros i Hi. rewrite (Hs n i) by lia. apply Nat.ltb_lt in Hi. rewrite Hi. ring. }
  lra.
Qed.

Lemma psd_restrict n A : psd (S n) A -> symmetric (S n) A -> psd n A.
Proof. intros HA Hs c. pose proof (psd_last n A c 0 HA Hs). unfold quad in H. lra. Qed.

Lemma psd_diag_nonneg n A : psd (S n) A -> symmetric (S n) A -> 0 <= A n n.
Proof.
  intros HA Hs. pose proof (psd_last n A (fun _ => 0) 1 HA Hs) as H. unfold quad in H.
  rewrite (sum_to_ext n (fun i => 0 * A i n) (fun _ => 0)), sum_to_zero in H by (intros; ring).
  rewrite (sum_to_ext n _ (fun _ => 0)), sum_to_zero in H; [lra|]. intros i _. rewrite (sum_to_ext n _ (fun _ => 0)), sum_to_zero; [reflexivity|]. intros; ring.
Qed.

Lemma psd_zero_column n A k : psd (S n) A -> symmetric (S n) A -> A n n = 0 -> (k < n)%nat -> A k n = 0.
Proof.
  intros HA Hs H0 Hk. set (e := fun i => if (i =? k)%nat then 1 else 0).
  assert (H : forall t, 0 <= A k k + 2 * t * A k n).
  { intros t. pose proof (psd_last n A e t HA Hs) as H. rewrite H0 in H. unfold quad in H.
    rewrite (sum_to_single n k (fun i => e i * A i n)) in H; [|exact Hk|intros i _ Hi; unfold e; apply Nat.eqb_neq in Hi; rewrite Hi; ring].
    rewrite (sum_to_single n k) in H; [|exact Hk|].
    2:{ intros i _ Hi. rewrite (sum_to_ext n _ (fun _ => 0)), sum_to_zero; [reflexivity|]. intros j _. unfold e at 1. apply Nat.eqb_neq in Hi. rewrite Hi. ring. }
    rewrite (sum_to_single n k) in H; [|exact Hk|].
    2:{ intros i _ Hi. unfold e at 2. apply Nat.eqb_neq in Hi. rewrite Hi. ring. }
    unfold e in H. rewrite !Nat.eqb_refl in H. lra. }
  destruct (Req_dec (A k n) 0) as [E|E]; [exact E|exfalso]. pose proof (H (- (A k k + 1) / (2 * A k n))) as HH.
  replace (A k k + 2 * (- (A k k + 1) / (2 * A k n)) * A k n) with (-1) in HH by (field; exact E). lra.
Qed.

Lemma psd_schur n A : psd (S n) A -> symmetric (S n) A -> 0 < A n n -> psd n (fun i j => A i j - A i n * A j n / A n n).
Proof.
  intros HA Hs Ha c. set (b := sum_to n (fun i => c i * A i n)). pose proof (psd_last n A c (- b / A n n) HA Hs) as H. fold b in H.
  replace (sum_to n _) with (quad n c A - b * b / A n n).
  - replace (quad n c A + 2 * (- b / A n n) * b + - b / A n n * (- b / A n n) * A n n) with (quad n c A - b * b / A n n) in H by (field; lra). exact H.
  - unfold b. rewrite sum_to_mult. unfold quad, Rdiv. unfold Rminus.
    replace (- (sum_to n (fun i => sum_to n (fun j => c i * A i n * (c j * A j n))) * / A n n)) with (- / A n n * sum_to n (fun i => sum_to n (fun j => c i * A i n * (c j * A j n)))) by ring.
    rewrite <- sum_to_scal, <- sum_to_plus. apply sum_to_ext. intros i _. rewrite <- sum_to_scal, <- sum_to_plus. apply sum_to_ext. intros j _. ring.
Qed.

Lemma gram n : forall A, psd n A -> symmetric n A -> exists m V, forall i j, (i < n)%nat -> (j < n)%nat -> A i j = sum_to m (fun k => V k i * V k j).
Proof.
  induction n as [|n IH]; intros A HA Hs.
  - exists 0%nat, (fun _ _ => 0). intros; lia.
  - destruct (psd_diag_nonneg n A HA Hs) as [Ha|Ha].
    + destruct (IH (fun i j => A i j - A i n * A j n / A n n)) as (m & V & HV).
      * apply psd_schur; assumption.
      * intros i j Hi Hj. rewrite (Hs i j) by lia. field. lra.
      * exists (S m), (fun k i => if (k <? m)%nat then (if (i <? n)%nat then V k i else 0) else A i n / sqrt (A n n)).
        intros i j Hi Hj. simpl. rewrite Nat.ltb_irrefl.
        rewrite (sum_to_ext m _ (fun k => (if (i <? n)%nat then V k i else 0) * (if (j <? n)%nat then V k j else 0))) by (intros k Hk; apply Nat.ltb_lt in Hk; rewrite Hk; reflexivity).
        assert (Hq : sqrt (A n n) * sqrt (A n n) = A n n) by (apply sqrt_def; lra). assert (Hq0 : sqrt (A n n) <> 0) by (apply Rgt_not_eq, sqrt_lt_R0, Ha).
        replace (A i n / sqrt (A n n) * (A j n / sqrt (A n n))) with (A i n * A j n / A n n) by (rewrite <- Hq at 1; field; exact Hq0).
        destruct (Nat.ltb_spec i n) as [Hin|Hin]; destruct (Nat.ltb_spec j n) as [Hjn|Hjn].
        -- rewrite <- (HV i j Hin Hjn). lra.
        -- assert (j = n) as -> by lia. rewrite (sum_to_ext m _ (fun _ => 0)), sum_to_zero by (intros; ring). field. lra.
        -- assert (i = n) as -> by lia. rewrite (sum_to_ext m _ (fun _ => 0)), sum_to_zero by (intros; ring). rewrite (Hs n j) by lia. field. lra.
        -- assert (i = n) as -> by lia. assert (j = n) as -> by lia. rewrite (sum_to_ext m _ (fun _ => 0)), sum_to_zero by (intros; ring). field. lra.
    + destruct (IH A (psd_restrict n A HA Hs)) as (m & V & HV). { intros i j Hi Hj. apply Hs; lia. }
      exists m, (fun k i => if (i <? n)%nat then V k i else 0). intros i j Hi Hj.
      assert (Hz : forall k, (k <= n)%nat -> A k n = 0). { intros k Hk. destruct (Nat.eq_dec k n) as [->|Hne]; [symmetry; exact Ha|]. apply psd_zero_column; auto; lia. }
      destruct (Nat.ltb_spec i n) as [Hin|Hin]; destruct (Nat.ltb_spec j n) as [Hjn|Hjn].
      * apply HV; assumption.
      * assert (j = n) as -> by lia. rewrite (sum_to_ext m _ (fun _ => 0)), sum_to_zero by (intros; ring). apply Hz; lia.
      * assert (i = n) as -> by lia. rewrite (sum_to_ext m _ (fun _ => 0)), sum_to_zero by (intros; ring). rewrite (Hs n j) by lia. apply Hz; lia.
      * assert (i = n) as -> by lia. assert (j = n) as -> by lia. rewrite (sum_to_ext m _ (fun _ => 0)), sum_to_zero by (intros; ring). apply Hz; lia.
Qed.

(** The Schur product theorem. *)
Lemma psd_mult n A B : psd n A -> symmetric n A -> psd n B -> psd n (fun i j => A i j * B i j).
Proof.
  intros HA Hs HB. destruct (gram n A HA Hs) as (m & V & HV).
  apply (psd_ext n (fun i j => sum_to m (fun k => B i j * (V k i * V k j)))).
  - intros i j Hi Hj. rewrite sum_to_scal, <- HV by assumption. ring.
  - apply psd_sum. intros k _. apply psd_times_rank1, HB.
Qed.

Lemma sym_mult n A B : symmetric n A -> symmetric n B -> symmetric n (fun i j => A i j * B i j).
Proof. intros HA HB i j Hi Hj. rewrite (HA i j), (HB i j) by assumption. reflexivity. Qed.

Lemma psd_pow n A k : psd n A -> symmetric n A -> psd n (fun i j => A i j ^ k).
Proof.
  intros HA Hs. induction k as [|k IH]; simpl; [apply psd_const; lra|]. apply psd_mult; assumption.
Qed.

(** ** Limits *)
Lemma lim_sum n (f : nat -> nat -> R) (l : nat -> R) : (forall i, (i < n)%nat -> is_lim_seq (fun k => f k i) (l i)) ->
  is_lim_seq (fun k => sum_to n (f k)) (sum_to n l).
Proof.
  induction n as [|n IH]; intros H; simpl; [apply is_lim_seq_const|].
  apply (is_lim_seq_plus' (fun k => sum_to n (f k)) (fun k => f k n)); [apply IH; intros; apply H; lia|apply H; lia].
Qed.

Lemma psd_limit n (A : nat -> nat -> nat -> R) (L : nat -> nat -> R) : (forall k, psd n (A k)) -> (forall i j, is_lim_seq (fun k => A k i j) (L i j)) -> psd n L.
Proof.
  intros H HL c.
  assert (Hl : is_lim_seq (fun k => sum_to n (fun i => sum_to n (fun j => c i * c j * A k i j))) (sum_to n (fun i => sum_to n (fun j => c i * c j * L i j)))).
  { apply (lim_sum n (fun k i => sum_to n (fun j => c i * c j * A k i j)) (fun i => sum_to n (fun j => c i * c j * L i j))). intros i _.
    apply (lim_sum n (fun k j => c i * c j * A k i j) (fun j => c i * c j * L i j)). intros j _. apply (is_lim_seq_scal_l (fun k => A k i j) (c i * c j) (L i j)), HL. }
  apply (is_lim_seq_le (fun _ => 0) _ 0 _ (fun k => H k c) (is_lim_seq_const 0) Hl).
Qed.

Lemma psd_series n (A : nat -> nat -> nat -> R) (L : nat -> nat -> R) : (forall k, psd n (A k)) -> (forall i j, is_series (fun k => A k i j) (L i j)) -> psd n L.
Proof.
  intros H HL. apply (psd_limit n (fun N i j => sum_n (fun k => A k i j) N)).
  - intros N. induction N as [|N IH].
    + eapply psd_ext; [|apply (H 0%nat)]. intros i j _ _. rewrite sum_O. reflexivity.
    + eapply psd_ext; [|apply (psd_plus n _ _ IH (H (S N)))]. intros i j _ _. rewrite sum_Sn. reflexivity.
  - intros i j. apply HL.
Qed.

(** ** Exponentials *)
Lemma psd_exp n A : psd n A -> symmetric n A -> psd n (fun i j => exp (A i j)).
Proof.
  intros HA Hs. apply (psd_series n (fun k i j => / INR (fact k) * A i j ^ k)).
  - intros k. apply (psd_scal n (/ INR (fact k)) (fun i j => A i j ^ k)); [apply Rlt_le, Rinv_0_lt_compat, INR_fact_lt_0|]. apply psd_pow; assumption.
  - intros i j. apply is_pseries_R, is_exp_Reals.
Qed.

Lemma psd_cos n (t : nat -> R) : psd n (fun i j => cos (t i - t j)).
Proof.
  apply (psd_ext n (fun i j => cos (t i) * cos (t j) + sin (t i) * sin (t j))); [intros; rewrite cos_minus; reflexivity|].
  apply psd_plus; [apply (psd_rank1 n (fun i => cos (t i)))|apply (psd_rank1 n (fun i => sin (t i)))].
Qed.

Lemma sym_cos n (t : nat -> R) : symmetric n (fun i j => cos (t i - t j)).
Proof. intros i j _ _. replace (t i - t j) with (- (t j - t i)) by ring. apply cos_neg. Qed.

(** Squared exponential. *)
Lemma psd_rbf n l (x : nat -> R) : psd n (fun i j => exp (- (x i - x j) ^ 2 / (2 * l ^ 2))).
Proof.
  destruct (Req_dec l 0) as [->|Hl].
  { replace (2 * 0 ^ 2) with 0 by ring. apply (psd_ext n (fun _ _ => 1)); [|apply psd_const; lra]. intros. unfold Rdiv. rewrite Rinv_0, Rmult_0_r, exp_0. reflexivity. }
  apply (psd_ext n (fun i j => exp (x i * x j / l ^ 2) * (exp (- x i ^ 2 / (2 * l ^ 2)) * exp (- x j ^ 2 / (2 * l ^ 2))))).
  - intros i j _ _. rewrite <- !exp_plus. f_equal. field. exact Hl.
  - apply (psd_times_rank1 n (fun i j => exp (x i * x j / l ^ 2)) (fun i => exp (- x i ^ 2 / (2 * l ^ 2)))).
    apply (psd_exp n (fun i j => x i * x j / l ^ 2)); [|intros i j _ _; unfold Rdiv; ring].
    apply (psd_ext n (fun i j => (x i / l) * (x j / l))); [intros; field; exact Hl|]. apply (psd_rank1 n (fun i => x i / l)).
Qed.

(** ** Powers of the cosine *)
Lemma sum_to_shift n f : sum_to (S n) f = f 0%nat + sum_to n (fun i => f (S i)).
Proof. induction n as [|n IH]; [simpl; ring|]. change (sum_to (S (S n)) f) with (sum_to (S n) f + f (S n)). rewrite IH. simpl. ring. Qed.

Fixpoint bin (n k : nat) : R := match n, k with
  | _, O => 1 | O, S _ => 0 | S n, S k => bin n k + bin n (S k) end.
Lemma bin_nonneg n : forall k, 0 <= bin n k.
Proof. induction n as [|n IH]; intros [|k]; simpl; try lra. pose proof (IH k). pose proof (IH (S k)). lra. Qed.
Lemma bin_gt n : forall k, (n < k)%nat -> bin n k = 0.
Proof. induction n as [|n IH]; intros [|k] H; simpl; try lia; try reflexivity. rewrite !IH by lia. ring. Qed.
Lemma bin_fact n : forall k, (k <= n)%nat -> bin n k * (INR (fact k) * INR (fact (n - k))) = INR (fact n).
Proof.
  induction n as [|n IH]; intros [|k] H; try lia; [simpl; lra|simpl bin; rewrite Nat.sub_0_r; simpl fact at 1; simpl INR at 1; ring|].
  simpl bin. destruct (Nat.eq_dec k n) as [->|Hne].
  - rewrite (bin_gt n (S n)) by lia. pose proof (IH n (le_n n)) as E. rewrite Nat.sub_diag in *. rewrite fact_simpl, mult_INR. simpl (fact 0) in *. simpl INR in E. rewrite <- E at 2. simpl (INR 1). ring.
  - pose proof (IH k ltac:(lia)) as E1. pose proof (IH (S k) ltac:(lia)) as E2. replace (S n - S k)%nat with (S (n - S k)) by lia. replace (n - k)%nat with (S (n - S k)) in E1 by lia.
    rewrite (fact_simpl k) in *. rewrite (fact_simpl (n - S k)) in *. rewrite (fact_simpl n). rewrite !mult_INR in *.
    replace (INR (S n)) with (INR (S k) + INR (S (n - S k))) by (rewrite <- plus_INR; f_equal; lia).
    rewrite !Rmult_plus_distr_r. rewrite <- E1 at 1. rewrite <- E2. ring.
Qed.

Lemma cos_pow_step k d j : cos d * cos ((INR k - 2 * INR j) * d) = (cos ((INR (S k) - 2 * INR j) * d) + cos ((INR (S k) - 2 * INR (S j)) * d)) / 2.
Proof.
  rewrite !S_INR. replace ((INR k + 1 - 2 * INR j) * d) with ((INR k - 2 * INR j) * d + d) by ring. replace ((INR k + 1 - 2 * (INR j + 1)) * d) with ((INR k - 2 * INR j) * d - d) by ring.
  rewrite cos_plus, cos_minus. field.
Qed.

Lemma cos_pow d k : cos d ^ k = sum_to (S k) (fun j => bin k j * cos ((INR k - 2 * INR j) * d)) / 2 ^ k.
Proof.
  induction k as [|k IH]; [simpl; replace ((0 - 2 * 0) * d) with 0 by ring; rewrite cos_0; field|].
  simpl pow. rewrite IH.
  assert (E : cos d * sum_to (S k) (fun j => bin k j * cos ((INR k - 2 * INR j) * d)) = sum_to (S (S k)) (fun j => bin (S k) j * cos ((INR (S k) - 2 * INR j) * d)) / 2).
  { rewrite <- sum_to_scal. set (g := fun j => cos ((INR (S k) - 2 * INR j) * d)).
    transitivity ((sum_to (S k) (fun j => bin k j * g j) + sum_to (S k) (fun j => bin k j * g (S j))) / 2).
    - unfold Rdiv. rewrite Rmult_comm, <- sum_to_plus, <- sum_to_scal. apply sum_to_ext. intros j _.
      transitivity (bin k j * (cos d * cos ((INR k - 2 * INR j) * d))); [ring|]. rewrite cos_pow_step. unfold g. field.
    - f_equal. rewrite (sum_to_shift (S k)). replace (sum_to (S k) (fun j => bin k j * g j)) with (bin (S k) 0 * g 0%nat + sum_to (S k) (fun j => bin k (S j) * g (S j))).
      + rewrite Rplus_assoc. f_equal. rewrite <- sum_to_plus. apply sum_to_ext. intros j _. change (bin (S k) (S j)) with (bin k j + bin k (S j)). fold (g (S j)). ring.
      + rewrite (sum_to_shift k (fun j => bin k j * g j)). change (sum_to (S k) (fun j => bin k (S j) * g (S j))) with (sum_to k (fun j => bin k (S j) * g (S j)) + bin k (S k) * g (S k)).
        rewrite (bin_gt k (S k)) by lia. replace (bin k 0) with 1 by (destruct k; reflexivity). change (bin (S k) 0) with 1. ring. }
  unfold Rdiv in *. rewrite <- Rmult_assoc, E. field. apply pow_nonzero. lra.
Qed.

(** The mean of the k-th power of the cosine. *)
Definition cmean (k : nat) : R := if Nat.even k then bin k (Nat.div2 k) / 2 ^ k else 0.

Lemma sum_to_remove n k f : (k < n)%nat -> sum_to n f = f k + sum_to n (fun i => if (i =? k)%nat then 0 else f i).
Proof.
  intros Hk. replace (f k) with (sum_to n (fun i => if (i =? k)%nat then f i else 0)).
  - rewrite <- sum_to_plus. apply sum_to_ext. intros i _. destruct (i =? k)%nat; ring.
  - rewrite (sum_to_single n k); [rewrite Nat.eqb_refl; reflexivity|exact Hk|]. intros i _ Hi. apply Nat.eqb_neq in Hi. rewrite Hi. reflexivity.
Qed.

Lemma psd_cos_pow n k (t : nat -> R) : psd n (fun i j => cos (t i - t j) ^ k - cmean k).
Proof.
  assert (Hp : 0 < / 2 ^ k) by (apply Rinv_0_lt_compat, pow_lt; lra).
  apply (psd_ext n (fun i j => / 2 ^ k * sum_to (S k) (fun h => (if (Nat.even k && (h =? Nat.div2 k)%nat)%bool then 0 else bin k h) * cos ((INR k - 2 * INR h) * t i - (INR k - 2 * INR h) * t j)))).
  - intros i j _ _. rewrite cos_pow. unfold cmean. unfold Rdiv. rewrite (Rmult_comm (sum_to _ _)).
    replace (sum_to (S k) (fun h => bin k h * cos ((INR k - 2 * INR h) * (t i - t j)))) with (sum_to (S k) (fun h => bin k h * cos ((INR k - 2 * INR h) * t i - (INR k - 2 * INR h) * t j))) by (apply sum_to_ext; intros h _; rewrite Rmult_minus_distr_l; reflexivity).
    destruct (Nat.even k) eqn:Ek; simpl andb; [|lra].
    rewrite (sum_to_remove (S k) (Nat.div2 k) (fun h => bin k h * _)).
    + rewrite Rmult_plus_distr_l. replace (cos ((INR k - 2 * INR (Nat.div2 k)) * t i - (INR k - 2 * INR (Nat.div2 k)) * t j)) with 1.
      * replace (sum_to (S k) (fun i0 => if (i0 =? Nat.div2 k)%nat then 0 else bin k i0 * cos ((INR k - 2 * INR i0) * t i - (INR k - 2 * INR i0) * t j)))
          with (sum_to (S k) (fun h => (if (h =? Nat.div2 k)%nat then 0 else bin k h) * cos ((INR k - 2 * INR h) * t i - (INR k - 2 * INR h) * t j))); [ring|].
        apply sum_to_ext. intros h _. destruct (h =? Nat.div2 k)%nat; ring.
      * apply Nat.even_spec in Ek. destruct Ek as [q Hq]. rewrite Hq. rewrite Nat.div2_double, mult_INR. simpl (INR 2). replace ((1 + 1) * INR q - 2 * INR q) with 0 by ring. rewrite !Rmult_0_l, Rminus_0_r, cos_0. reflexivity.
    + rewrite Nat.div2_div. apply Nat.lt_succ_r, Nat.div_le_upper_bound; lia.
  - apply psd_scal; [lra|]. apply psd_sum. intros h _. apply psd_scal.
    + destruct (Nat.even k && (h =? Nat.div2 k)%nat)%bool; [lra|apply bin_nonneg].
    + apply (psd_cos n (fun i => (INR k - 2 * INR h) * t i)).
Qed.

Lemma even_coef j : / INR (fact (2 * j)) * cmean (2 * j) = / (4 ^ j * (INR (fact j) * INR (fact j))).
Proof.
  unfold cmean. rewrite Nat.even_mul. simpl orb. cbv iota. rewrite Nat.div2_double. pose proof (bin_fact (2 * j) j ltac:(lia)) as E. replace (2 * j - j)%nat with j in E by lia.
  rewrite <- E. rewrite pow_mult. replace (2 ^ 2) with 4 by ring. pose proof (INR_fact_lt_0 j) as Hj. pose proof (INR_fact_lt_0 (2 * j)) as H2.
  assert (Hb : bin (2 * j) j <> 0). { intros Hb. rewrite Hb, Rmult_0_l in E. lra. } assert (H4 : 4 ^ j <> 0) by (apply pow_nonzero; lra). field. repeat split; lra || assumption.
Qed.

Lemma bessel_series z : is_series (fun k => / INR (fact k) * cmean k * z ^ k) (bessel0 z).
Proof.
  apply (is_pseries_R (fun k => / INR (fact k) * cmean k) z). replace (bessel0 z) with (bessel0 z + z * 0) by ring.
  apply is_pseries_odd_even.
  - apply is_pseries_R. rewrite bessel0_ps.
    apply (is_series_ext (fun k => b0c k * ((z / 2) ^ 2) ^ k)).
    + intros k. rewrite even_coef. unfold b0c. replace ((z / 2) ^ 2) with (/ 4 * z ^ 2) by field. rewrite Rpow_mult_distr, pow_inv. rewrite !Rinv_mult. match goal with |- ?a = ?b => change (@eq R a b) end. ring.
    + apply Series_correct. apply ex_pseries_R. apply CV_radius_inside. rewrite b0c_radius. exact I.
  - apply is_pseries_R. apply (is_series_ext (fun _ => 0)).
    + intros k. unfold cmean. rewrite Nat.add_1_r, Nat.even_succ, <- Nat.negb_even, Nat.even_mul. simpl. match goal with |- ?a = ?b => change (@eq R a b) end. ring.
    + apply (is_lim_seq_ext (fun _ => 0) _ (Finite 0)); [|apply is_lim_seq_const]. intros n. rewrite sum_n_const. match goal with |- ?a = ?b => change (@eq R a b) end. ring.
Qed.

(** The periodic kernel: exp(z cos d) without its mean. *)
Lemma psd_exp_cos n z (t : nat -> R) : 0 <= z -> psd n (fun i j => exp (cos (t i - t j) * z) - bessel0 z).
Proof.
  intros Hz. apply (psd_series n (fun k i j => / INR (fact k) * z ^ k * (cos (t i - t j) ^ k - cmean k))).
  - intros k. apply (psd_scal n (/ INR (fact k) * z ^ k)); [|apply psd_cos_pow]. apply Rmult_le_pos; [apply Rlt_le, Rinv_0_lt_compat, INR_fact_lt_0|apply pow_le, Hz].
  - intros i j.
    apply (is_series_ext (fun k => / INR (fact k) * (cos (t i - t j) * z) ^ k - / INR (fact k) * cmean k * z ^ k)); [intros k; rewrite Rpow_mult_distr; match goal with |- ?a = ?b => change (@eq R a b) end; ring|].
    apply (is_series_minus (fun k => / INR (fact k) * (cos (t i - t j) * z) ^ k) (fun k => / INR (fact k) * cmean k * z ^ k)); [apply is_pseries_R, is_exp_Reals|apply bessel_series].
Qed.

(** Proofs about the linear kernel in several dimensions. *)
From Coq Require Import Reals List Bool Arith Lra Lia.
From Coquelicot Require Import Coquelicot.
From Verif Require Import Py KernModel KernSpec KernSig KernGrad KernGrad2 KernGrad3 KernPsd PredSpec PredBest LinModel LinSpec.
Import ListNotations.
Local Open Scope R_scope.

Lemma array_row l : array (row l) 1 (length l) (fun _ j => nth j l 0).
Proof. split; [reflexivity|]. split; reflexivity. Qed.
Lemma array_row' l n : length l = n -> array (row l) 1 n (fun _ j => nth j l 0).
Proof. intros <-. apply array_row. Qed.
Lemma array_points n q x : array (points n q x) n q x.
Proof. split; [reflexivity|]. split; reflexivity. Qed.
Lemma array_as_column l : array (as_column l) (length l) 1 (fun i _ => nth i l 0).
Proof. split; [reflexivity|]. split; reflexivity. Qed.
(** n x m times 1 x m, and the other way round *)
Lemma array_rows f A B n m a b : array A n m a -> array B 1 m b -> computes (elementwise f A B) n m (fun i j => f (a i j) (b 0%nat j)).
Proof.
  intros (A1 & A2 & A3) (B1 & B2 & B3). unfold computes, elementwise. rewrite A1, A2, B1, B2, bc_one_r, bc_same. eexists. split; [reflexivity|].
  split; [reflexivity|]. split; [reflexivity|]. intros i j Hi Hj. cbn [ent]. change (ix 1 i) with 0%nat. rewrite !ix_lt by assumption. rewrite A3, B3 by (lia || assumption). reflexivity.
Qed.
Lemma array_rows' f A B n m a b : array A 1 m a -> array B n m b -> computes (elementwise f A B) n m (fun i j => f (a 0%nat j) (b i j)).
Proof.
  intros (A1 & A2 & A3) (B1 & B2 & B3). unfold computes, elementwise. rewrite A1, A2, B1, B2, bc_one_l, bc_same. eexists. split; [reflexivity|].
  split; [reflexivity|]. split; [reflexivity|]. intros i j Hi Hj. cbn [ent]. change (ix 1 i) with 0%nat. rewrite !ix_lt by assumption. rewrite A3, B3 by (lia || assumption). reflexivity.
Qed.
(** n x m times 1 x 1 *)
Lemma array_scalar f A B n m a b : array A n m a -> array B 1 1 b -> computes (elementwise f A B) n m (fun i j => f (a i j) (b 0%nat 0%nat)).
Proof.
  intros (A1 & A2 & A3) (B1 & B2 & B3). unfold computes, elementwise. rewrite A1, A2, B1, B2, !bc_one_r. eexists. split; [reflexivity|].
  split; [reflexivity|]. split; [reflexivity|]. intros i j Hi Hj. cbn [ent]. change (ix 1 i) with 0%nat. change (ix 1 j) with 0%nat. rewrite !ix_lt by assumption. rewrite A3, B3 by (lia || assumption). reflexivity.
Qed.
Lemma array_scalar' f A B n m a b : array A 1 1 a -> array B n m b -> computes (elementwise f A B) n m (fun i j => f (a 0%nat 0%nat) (b i j)).
Proof.
  intros (A1 & A2 & A3) (B1 & B2 & B3). unfold computes, elementwise. rewrite A1, A2, B1, B2, !bc_one_l. eexists. split; [reflexivity|].
  split; [reflexivity|]. split; [reflexivity|]. intros i j Hi Hj. cbn [ent]. change (ix 1 i) with 0%nat. change (ix 1 j) with 0%nat. rewrite !ix_lt by assumption. rewrite A3, B3 by (lia || assumption). reflexivity.
Qed.
(** n x 1 times n x m *)
Lemma array_cols f A B n m a b : array A n 1 a -> array B n m b -> computes (elementwise f A B) n m (fun i j => f (a i 0%nat) (b i j)).
Proof.
  intros (A1 & A2 & A3) (B1 & B2 & B3). unfold computes, elementwise. rewrite A1, A2, B1, B2, bc_one_l, bc_same. eexists. split; [reflexivity|].
  split; [reflexivity|]. split; [reflexivity|]. intros i j Hi Hj. cbn [ent]. change (ix 1 j) with 0%nat. rewrite !ix_lt by assumption. rewrite A3, B3 by (lia || assumption). reflexivity.
Qed.
Lemma array_outer' f A B n m a b : array A 1 m a -> array B n 1 b -> computes (elementwise f A B) n m (fun i j => f (a 0%nat j) (b i 0%nat)).
Proof.
  intros (A1 & A2 & A3) (B1 & B2 & B3). unfold computes, elementwise. rewrite A1, A2, B1, B2, bc_one_l, bc_one_r. eexists. split; [reflexivity|].
  split; [reflexivity|]. split; [reflexivity|]. intros i j Hi Hj. cbn [ent]. change (ix 1 i) with 0%nat. change (ix 1 j) with 0%nat. rewrite !ix_lt by assumption. rewrite A3, B3 by (lia || assumption). reflexivity.
Qed.
Lemma computes_array (r : res mat) n m k : computes r n m k -> exists A, r = Ok A /\ array A n m k.
Proof. exact (fun H => H). Qed.
Lemma computes_ext (r : res mat) n m k k' : computes r n m k -> (forall i j, (i < n)%nat -> (j < m)%nat -> k i j = k' i j) -> computes r n m k'.
Proof. intros (A & E & HA) H. exists A. split; [exact E|]. eapply array_ext; [exact HA|exact H]. Qed.

(** Kernels as the constructor makes them. *)
Definition fine (k : linear) : Prop := length (l_variance k) = if l_ARD k then l_dim k else 1%nat.
Lemma new_fine q ard v k : new_linear q ard v = Ok k -> fine k /\ l_dim k = q /\ l_ARD k = ard.
Proof.
  unfold new_linear, fine. destruct ard, v as [v|]; cbn [negb].
  - destruct (Nat.eqb_spec (length v) q); [|discriminate]. intros [= <-]. cbn. auto.
  - intros [= <-]. cbn. rewrite repeat_length. auto.
  - destruct (Nat.eqb_spec (length v) 1); [|discriminate]. intros [= <-]. cbn. auto.
  - intros [= <-]. cbn. auto.
Qed.
Definition var (k : linear) (d : nat) : R := nth (if l_ARD k then d else 0%nat) (l_variance k) 0.
Lemma var_of k d : fine k -> (d < l_dim k)%nat -> variance_of k d (var k d).
Proof.
  unfold fine, variance_of, var. destruct (l_ARD k); intros L Hd.
  - apply nth_error_nth'. lia.
  - destruct (l_variance k) as [|v [|]]; try discriminate. reflexivity.
Qed.
Lemma variance_is k d v : variance_of k d v -> v = var k d.
Proof.
  unfold variance_of, var. destruct (l_ARD k); intros H; [|rewrite H; reflexivity]. symmetry. apply nth_error_nth. exact H.
Qed.
Lemma var_nonneg k d : fine k -> (forall v, In v (l_variance k) -> 0 <= v) -> (d < l_dim k)%nat -> 0 <= var k d.
Proof.
  intros L Hv Hd. apply Hv. unfold fine, var in *. destruct (l_ARD k); apply nth_In; lia.
Qed.

Section Kernel.
  Context (k : linear) (L : fine k).
  Notation q := (l_dim k).
  Notation v := (var k).

  Lemma K_entries n x Y : (forall v, In v (l_variance k) -> 0 <= v) -> let (m, y) := others n x Y in
    computes (linear_K k (points n q x) (second q Y)) n m (fun i j => inner q v (x i) (y j)).
  Proof.
    intros Hv. unfold linear_K, dot_product, mmul. unfold fine in L. unfold var. destruct (l_ARD k) eqn:EA.
    - assert (R1 : array (row (map sqrt (l_variance k))) 1 q (fun _ j => nth j (map sqrt (l_variance k)) 0)).
      { apply array_row'. rewrite map_length. exact L. }
      assert (Hs : forall j, (j < q)%nat -> nth j (map sqrt (l_variance k)) 0 = sqrt (nth j (l_variance k) 0)).
      { intros j Hj. rewrite <- (map_nth sqrt). apply nth_indep. rewrite map_length. lia. }
      destruct Y as [[m y]|]; cbn [second others].
      + destruct (array_rows Rmult _ _ _ _ _ _ (array_points n q x) R1) as (A & -> & HA). cbn [bind].
        destruct (array_rows Rmult _ _ _ _ _ _ (array_points m q y) R1) as (B & -> & HB). cbn [bind].
        eapply computes_ext; [apply (array_dot A (mT B) n q m _ _ HA (array_T _ _ _ _ HB))|]. intros i j Hi Hj. cbv beta. unfold inner.
        apply sum_to_ext. intros d Hd. rewrite !Hs by exact Hd. rewrite <- (sqrt_sqrt (nth d (l_variance k) 0)) at 3; [ring|]. apply Hv, nth_In. lia.
      + destruct (array_rows Rmult _ _ _ _ _ _ (array_points n q x) R1) as (A & -> & HA). cbn [bind].
        eapply computes_ext; [apply (array_dot A (mT A) n q n _ _ HA (array_T _ _ _ _ HA))|]. intros i j Hi Hj. cbv beta. unfold inner.
        apply sum_to_ext. intros d Hd. rewrite !Hs by exact Hd. rewrite <- (sqrt_sqrt (nth d (l_variance k) 0)) at 3; [ring|]. apply Hv, nth_In. lia.
    - assert (R1 : array (row (l_variance k)) 1 1 (fun _ j => nth j (l_variance k) 0)) by (apply array_row'; exact L).
      destruct Y as [[m y]|]; cbn [second others].
      + destruct (array_dot _ _ n q m _ _ (array_points n q x) (array_T _ _ _ _ (array_points m q y))) as (P & -> & HP). cbn [bind].
        eapply computes_ext; [apply (array_scalar Rmult P _ n m _ _ HP R1)|]. intros i j Hi Hj. cbv beta. unfold inner.
        rewrite Rmult_comm, <- sum_to_scal. reflexivity.
      + destruct (array_dot _ _ n q n _ _ (array_points n q x) (array_T _ _ _ _ (array_points n q x))) as (P & -> & HP). cbn [bind].
        eapply computes_ext; [apply (array_scalar Rmult P _ n n _ _ HP R1)|]. intros i j Hi Hj. cbv beta. unfold inner.
        rewrite Rmult_comm, <- sum_to_scal. reflexivity.
  Qed.
  Lemma row_rows n a : forall A, array A n q a -> computes (mmul (row (l_variance k)) A) n q (fun i d => v d * a i d).
  Proof.
    intros A HA. unfold mmul. unfold fine, var in *. destruct (l_ARD k).
    - assert (R1 : array (row (l_variance k)) 1 q (fun _ j => nth j (l_variance k) 0)) by (apply array_row'; exact L).
      exact (array_rows' Rmult _ _ _ _ _ _ R1 HA).
    - assert (R1 : array (row (l_variance k)) 1 1 (fun _ j => nth j (l_variance k) 0)) by (apply array_row'; exact L).
      exact (array_scalar' Rmult _ _ _ _ _ _ R1 HA).
  Qed.
  Lemma rows_row f n a : forall A, array A n q a -> computes (mmul A (mmap f (row (l_variance k)))) n q (fun i d => a i d * f (v d)).
  Proof.
    intros A HA. unfold mmul. unfold fine, var in *. destruct (l_ARD k).
    - assert (R1 : array (row (l_variance k)) 1 q (fun _ j => nth j (l_variance k) 0)) by (apply array_row'; exact L).
      exact (array_rows Rmult _ _ _ _ _ _ HA (array_map f _ _ _ _ R1)).
    - assert (R1 : array (row (l_variance k)) 1 1 (fun _ j => nth j (l_variance k) 0)) by (apply array_row'; exact L).
      exact (array_scalar Rmult _ _ _ _ _ _ HA (array_map f _ _ _ _ R1)).
  Qed.
  Lemma Kdiag_entries n x : linear_Kdiag k (points n q x) = Ok (map (fun i => inner q v (x i) (x i)) (seq 0 n)).
  Proof.
    unfold linear_Kdiag. destruct (row_rows n _ _ (array_map (fun z => z ^ 2) _ _ _ _ (array_points n q x))) as (A & -> & (A1 & A2 & A3)). cbn [bind].
    unfold sum_rows. rewrite A1, A2. f_equal. apply map_ext_in. intros i Hi. apply in_seq in Hi. rewrite rsum_sum_to. apply sum_to_ext.
    intros d Hd. rewrite A3 by lia. ring.
  Qed.
End Kernel.

Lemma inner_sym q v a b : inner q v a b = inner q v b a.
Proof. apply sum_to_ext. intros; ring. Qed.
Lemma inner_psd q v n x : (forall d, (d < q)%nat -> 0 <= v d) -> psd n (fun i j => inner q v (x i) (x j)).
Proof.
  intros Hv. apply (psd_sum n q (fun d i j => v d * (x i d * x j d))). intros d Hd. apply psd_scal; [apply Hv; exact Hd|].
  apply (psd_rank1 n (fun i => x i d)).
Qed.

Lemma linear_covariance dim ARD variance k : new_linear dim ARD variance = Ok k -> (forall v, In v (l_variance k) -> 0 <= v) ->
  exists v, (forall d, (d < dim)%nat -> variance_of k d (v d)) /\
  forall n x, let K := fun i j => inner dim v (x i) (x j) in
    computes (linear_K k (points n dim x) None) n n K /\ symmetric n K /\ psd n K
    /\ linear_Kdiag k (points n dim x) = Ok (map (fun i => K i i) (seq 0 n))
    /\ forall m y, computes (linear_K k (points n dim x) (Some (points m dim y))) n m (fun i j => inner dim v (x i) (y j)).
Proof.
  intros E Hv. destruct (new_fine _ _ _ _ E) as (L & <- & _). exists (var k). split; [intros d Hd; apply var_of; assumption|].
  intros n x K. split; [exact (K_entries k L n x None Hv)|]. split; [intros i j _ _; apply inner_sym|].
  split; [apply inner_psd; intros; apply var_nonneg; assumption|]. split; [exact (Kdiag_entries k L n x)|].
  intros m y. exact (K_entries k L n x (Some (m, y)) Hv).
Qed.
Lemma linear_sensitive dim ARD variance k : new_linear dim ARD variance = Ok k ->
  exists l, linear_sensitivity k = Ok l /\ length l = dim /\ forall d s, nth_error l d = Some s -> variance_of k d s.
Proof.
  intros E. destruct (new_fine _ _ _ _ E) as (L & <- & _). unfold linear_sensitivity.
  assert (HO : array (Mat 1 (l_dim k) (fun _ _ => 1)) 1 (l_dim k) (fun _ _ => 1)) by (split; [reflexivity|]; split; reflexivity).
  assert (C : computes (mmul (Mat 1 (l_dim k) (fun _ _ => 1)) (row (l_variance k))) 1 (l_dim k) (fun _ d => var k d)).
  { unfold mmul. unfold fine, var in *. destruct (l_ARD k).
    - assert (R1 : array (row (l_variance k)) 1 (l_dim k) (fun _ j => nth j (l_variance k) 0)) by (apply array_row'; exact L).
      eapply computes_ext; [exact (array_rows Rmult _ _ _ _ _ _ HO R1)|]. intros; cbv beta; ring.
    - assert (R1 : array (row (l_variance k)) 1 1 (fun _ j => nth j (l_variance k) 0)) by (apply array_row'; exact L).
      eapply computes_ext; [exact (array_scalar Rmult _ _ _ _ _ _ HO R1)|]. intros; cbv beta; ring. }
  destruct C as (A & -> & (A1 & A2 & A3)). cbn [bind]. eexists. split; [reflexivity|]. rewrite map_length, seq_length, A2. split; [reflexivity|].
  intros d s Hd. assert (d < l_dim k)%nat by (apply nth_error_Some in Hd || idtac; assert (Hn : nth_error (map (fun j => ent A 0 j) (seq 0 (l_dim k))) d <> None) by congruence;
    apply nth_error_Some in Hn; rewrite map_length, seq_length in Hn; exact Hn).
  rewrite nth_error_map in Hd. assert (S : nth_error (seq 0 (l_dim k)) d = Some d).
  { rewrite (nth_error_nth' _ 0%nat) by (rewrite seq_length; assumption). rewrite seq_nth by assumption. reflexivity. }
  rewrite S in Hd. cbn in Hd. injection Hd as <-. rewrite A3 by lia. apply var_of; assumption.
Qed.
Lemma linear_rejects dim (ARD : bool) v : length v <> (if ARD then dim else 1%nat) -> new_linear dim ARD (Some v) = Raise EAssertionError.
Proof.
  unfold new_linear. destruct ARD; cbn [negb]; intros H.
  - destruct (Nat.eqb_spec (length v) dim); [contradiction|reflexivity].
  - destruct (Nat.eqb_spec (length v) 1); [contradiction|reflexivity].
Qed.

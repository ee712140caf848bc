(** Lemmas about arrays, sums and gradients. *)
From Coq Require Import Reals List Bool Arith Lra Lia.
From Coquelicot Require Import Coquelicot.
From Verif Require Import Py KernModel KernSpec KernSig.
Import ListNotations.
Local Open Scope R_scope.

(** ** Sums *)
Lemma rsum_sum_to n f : rsum n f = sum_to n f.
Proof. induction n as [|n IH]; simpl; [reflexivity|]. rewrite IH. reflexivity. Qed.

Lemma sum_to_ext n f g : (forall i, (i < n)%nat -> f i = g i) -> sum_to n f = sum_to n g.
Proof. induction n as [|n IH]; intros H; simpl; [reflexivity|]. rewrite IH by (intros; apply H; lia). rewrite H by lia. reflexivity. Qed.

Lemma sum_to_plus n f g : sum_to n (fun i => f i + g i) = sum_to n f + sum_to n g.
Proof. induction n as [|n IH]; simpl; [lra|]. rewrite IH. lra. Qed.
Lemma sum_to_scal n c f : sum_to n (fun i => c * f i) = c * sum_to n f.
Proof. induction n as [|n IH]; simpl; [lra|]. rewrite IH. lra. Qed.
Lemma sum_to_zero n : sum_to n (fun _ => 0) = 0.
Proof. induction n as [|n IH]; simpl; [lra|]. rewrite IH. lra. Qed.

Lemma sum_to_swap n m f : sum_to n (fun i => sum_to m (fun j => f i j)) = sum_to m (fun j => sum_to n (fun i => f i j)).
Proof.
  induction n as [|n IH]; simpl; [rewrite sum_to_zero; reflexivity|]. rewrite IH. rewrite <- sum_to_plus. reflexivity.
Qed.

Lemma sum2_ext n m f g : (forall i j, (i < n)%nat -> (j < m)%nat -> f i j = g i j) ->
  sum_to n (fun i => sum_to m (f i)) = sum_to n (fun i => sum_to m (g i)).
Proof. intros H. apply sum_to_ext. intros i Hi. apply sum_to_ext. intros j Hj. apply H; assumption. Qed.

(** ** Arrays *)
Lemma ix_lt n i : (i < n)%nat -> ix n i = i.
Proof. unfold ix. destruct (Nat.eqb_spec n 1); lia. Qed.
Lemma bc_same n : bc n n = Some n.
Proof. unfold bc. rewrite Nat.eqb_refl. reflexivity. Qed.
Lemma bc_one_r n : bc n 1 = Some n.
Proof. unfold bc. destruct (Nat.eqb_spec n 1); [subst; reflexivity|]. reflexivity. Qed.
Lemma bc_one_l n : bc 1 n = Some n.
Proof. unfold bc. destruct (Nat.eqb_spec 1 n); [subst; reflexivity|]. reflexivity. Qed.

Lemma array_ext A n m k k' : array A n m k -> (forall i j, (i < n)%nat -> (j < m)%nat -> k i j = k' i j) -> array A n m k'.
Proof. intros (H1 & H2 & H3) H. split; [exact H1|split; [exact H2|]]. intros i j Hi Hj. rewrite H3 by assumption. apply H; assumption. Qed.

Lemma array_column n x : array (column n x) n 1 (fun i _ => x i).
Proof. split; [reflexivity|]. split; [reflexivity|]. reflexivity. Qed.

Lemma array_map f A n m a : array A n m a -> array (mmap f A) n m (fun i j => f (a i j)).
Proof. intros (H1 & H2 & H3). split; [exact H1|]. split; [exact H2|]. intros i j Hi Hj. simpl. rewrite H3 by assumption. reflexivity. Qed.

Lemma array_T A n m a : array A n m a -> array (mT A) m n (fun i j => a j i).
Proof. intros (H1 & H2 & H3). split; [exact H2|]. split; [exact H1|]. intros i j Hi Hj. apply H3; assumption. Qed.

Lemma array_ew f A B n m a b : array A n m a -> array B n m b -> computes (elementwise f A B) n m (fun i j => f (a i j) (b i j)).
Proof.
  intros (A1 & A2 & A3) (B1 & B2 & B3). unfold computes, elementwise. rewrite A1, A2, B1, B2, !bc_same. eexists. split; [reflexivity|].
  split; [reflexivity|]. split; [reflexivity|]. intros i j Hi Hj. cbn [ent]. rewrite !ix_lt by assumption. rewrite A3, B3 by assumption. reflexivity.
Qed.

Lemma array_outer f A B n m a b : array A n 1 a -> array B 1 m b -> computes (elementwise f A B) n m (fun i j => f (a i 0%nat) (b 0%nat j)).
Proof.
  intros (A1 & A2 & A3) (B1 & B2 & B3). unfold computes, elementwise. rewrite A1, A2, B1, B2, bc_one_r, bc_one_l. eexists. split; [reflexivity|].
  split; [reflexivity|]. split; [reflexivity|]. intros i j Hi Hj. cbn [ent]. change (ix 1 i) with 0%nat. change (ix 1 j) with 0%nat.
  rewrite (ix_lt n i Hi), (ix_lt m j Hj). rewrite A3, B3 by (lia || assumption). reflexivity.
Qed.

Lemma array_dot A B n m p a b : array A n m a -> array B m p b -> computes (mdot A B) n p (fun i j => sum_to m (fun k => a i k * b k j)).
Proof.
  intros (A1 & A2 & A3) (B1 & B2 & B3). unfold computes, mdot. rewrite A2, B1, Nat.eqb_refl. eexists. split; [reflexivity|].
  split; [exact A1|]. split; [exact B2|]. intros i j Hi Hj. cbn [ent]. rewrite rsum_sum_to. apply sum_to_ext. intros k Hk. rewrite A3, B3 by assumption. reflexivity.
Qed.

Lemma array_sum A n m a : array A n m a -> msum A = sum_to n (fun i => sum_to m (fun j => a i j)).
Proof.
  intros (A1 & A2 & A3). unfold msum. rewrite A1, A2, rsum_sum_to. apply sum_to_ext. intros i Hi. rewrite rsum_sum_to. apply sum_to_ext. intros j Hj. apply A3; assumption.
Qed.

(** A column times a row. *)
Lemma array_dot1 A B n p a b : array A n 1 a -> array B 1 p b -> computes (mdot A B) n p (fun i j => a i 0%nat * b 0%nat j).
Proof.
  intros HA HB. destruct (array_dot A B n 1 p a b HA HB) as (M & E & HM). exists M. split; [exact E|]. apply (array_ext _ _ _ _ _ HM). intros i j _ _. simpl. lra.
Qed.

(** Step through the computations of a [do] block. *)
Ltac arr := first [eassumption | apply array_map; arr | apply array_T; arr | apply array_column].
Ltac step := unfold mmul, madd, msub; match goal with
  | |- context [bind (mdot ?A ?B) _] =>
      let M := fresh "M" in let E := fresh "E" in let H := fresh "H" in
      edestruct (array_dot1 A B) as (M & E & H); [arr|arr|]; rewrite E; clear E; cbn [bind]
  | |- context [bind (elementwise ?f ?A ?B) _] =>
      let M := fresh "M" in let E := fresh "E" in let H := fresh "H" in
      edestruct (array_ew f A B) as (M & E & H); [arr|arr|]; rewrite E; clear E; cbn [bind]
  end.

(** ** Derivatives *)
Lemma is_derive_sum n (f : nat -> R -> R) d p : (forall i, (i < n)%nat -> is_derive (f i) p (d i)) ->
  is_derive (fun q => sum_to n (fun i => f i q)) p (sum_to n d).
Proof.
  induction n as [|n IH]; intros H; simpl.
  - apply (is_derive_const (V := R_NormedModule) 0 p).
  - apply (is_derive_plus (fun q => sum_to n (fun i => f i q)) (f n) p (sum_to n d) (d n)); [apply IH; intros; apply H; lia|apply H; lia].
Qed.

Lemma gradient_intro n m w K p (d : nat -> nat -> R) g :
  (forall i j, (i < n)%nat -> (j < m)%nat -> is_derive (fun q => K q i j) p (d i j)) ->
  g = sum_to n (fun i => sum_to m (fun j => w i j * d i j)) -> is_gradient n m w K p g.
Proof.
  intros H ->. unfold is_gradient. rewrite <- is_derive_Reals. unfold weighted_sum.
  apply (is_derive_sum n (fun i q => sum_to m (fun j => w i j * K q i j)) (fun i => sum_to m (fun j => w i j * d i j))). intros i Hi.
  apply (is_derive_sum m (fun j q => w i j * K q i j) (fun j => w i j * d i j)). intros j Hj.
  apply (is_derive_scal (fun q => K q i j) p (w i j) (d i j)). apply H; assumption.
Qed.

Lemma gradient_ext n m w K K' p g : (forall q i j, (i < n)%nat -> (j < m)%nat -> K q i j = K' q i j) ->
  is_gradient n m w K p g -> is_gradient n m w K' p g.
Proof.
  intros H. unfold is_gradient. rewrite <- !is_derive_Reals. apply is_derive_ext. intros q. unfold weighted_sum. apply sum2_ext. intros i j Hi Hj. rewrite H by assumption. reflexivity.
Qed.

(** With symmetric weights, 2 phi_i phi'_j sums to the symmetric derivative. *)
Lemma symmetric_sum n w (f g : nat -> R) : (forall i j, (i < n)%nat -> (j < n)%nat -> w i j = w j i) ->
  2 * sum_to n (fun i => sum_to n (fun j => w i j * (f i * g j))) = sum_to n (fun i => sum_to n (fun j => w i j * (g i * f j + f i * g j))).
Proof.
  intros Hw. replace (2 * _) with (sum_to n (fun i => sum_to n (fun j => w i j * (f i * g j))) + sum_to n (fun i => sum_to n (fun j => w i j * (f i * g j)))) by lra.
  rewrite (sum_to_swap n n (fun i j => w i j * (f i * g j))) at 1. rewrite <- sum_to_plus. apply sum_to_ext. intros i Hi. rewrite <- sum_to_plus.
  apply sum_to_ext. intros j Hj. rewrite (Hw i j) by assumption. ring.
Qed.

(** A basis-function kernel. *)
Lemma basis_entries v phi n m x y : computes (basis_K v phi (column n x) (column m y)) n m (fun i j => v * (phi (x i) * phi (y j))).
Proof.
  unfold basis_K. destruct (array_dot1 (mmap phi (column n x)) (mT (mmap phi (column m y))) n m _ _ (array_map phi _ _ _ _ (array_column n x)) (array_T _ _ _ _ (array_map phi _ _ _ _ (array_column m y)))) as (M & E & HM).
  rewrite E. cbn [bind]. eexists. split; [reflexivity|]. apply (array_map (Rmult v) M n m _ HM).
Qed.

Lemma basis_derive v (phi : R -> R -> R) a b p da db : is_derive (fun q => phi q a) p da -> is_derive (fun q => phi q b) p db ->
  is_derive (fun q => v * (phi q a * phi q b)) p (v * (da * phi p b + phi p a * db)).
Proof.
  intros Ha Hb. apply (is_derive_scal (fun q => phi q a * phi q b) p v). apply (is_derive_mult (fun q => phi q a) (fun q => phi q b) p da db Ha Hb). intros; apply Rmult_comm.
Qed.

Lemma basis_gradient v (phi : R -> R -> R) d n w x K p g :
  (forall q, computes (basis_K v (phi q) (column n x) (column n x)) n n (K q)) ->
  (forall i j, (i < n)%nat -> (j < n)%nat -> w i j = w j i) ->
  (forall i, (i < n)%nat -> is_derive (fun q => phi q (x i)) p (d i)) ->
  g = v * (2 * sum_to n (fun i => sum_to n (fun j => w i j * (phi p (x i) * d j)))) ->
  is_gradient n n w K p g.
Proof.
  intros HK Hw Hd ->. rewrite (symmetric_sum n w (fun i => phi p (x i)) d Hw).
  apply (gradient_ext n n w (fun q i j => v * (phi q (x i) * phi q (x j)))).
  - intros q i j Hi Hj. destruct (HK q) as (A & E & A1 & A2 & A3). destruct (basis_entries v (phi q) n n x x) as (B & E' & B1 & B2 & B3).
    rewrite E in E'. injection E' as <-. rewrite <- A3, <- B3 by assumption. reflexivity.
  - apply (gradient_intro n n w _ p (fun i j => v * (d i * phi p (x j) + phi p (x i) * d j))).
    + intros i j Hi Hj. apply basis_derive; apply Hd; assumption.
    + rewrite <- sum_to_scal. apply sum_to_ext. intros i Hi. rewrite <- sum_to_scal. apply sum_to_ext. intros j Hj. ring.
Qed.

(** Proofs about the gradients of the linear kernel in several dimensions. *)
From Coq Require Import Reals List Bool Arith Lra Lia.
From Coquelicot Require Import Coquelicot.
From Verif Require Import Py KernModel KernSpec KernSig KernGrad KernGrad2 KernGrad3 KernPsd PredSpec PredBest LinModel LinSpec LinProofs.
Import ListNotations.
Local Open Scope R_scope.

Definition half (w : nat -> nat -> R) (Y : option (nat * (nat -> nat -> R))) (i j : nat) : R := match Y with None => (w i j + w j i) / 2 | Some _ => w i j end.
Lemma symmetrised_entries n m w x Y q W : m = fst (others n x Y) -> array W n m w -> computes (symmetrised W (second q Y)) n m (half w Y).
Proof.
  intros -> HW. unfold symmetrised, half. destruct Y as [[m y]|]; cbn [second others fst] in *.
  - exists W. split; [reflexivity|exact HW].
  - unfold madd. destruct (array_ew Rplus _ _ _ _ _ _ HW (array_T _ _ _ _ HW)) as (S & -> & HS). cbn [bind]. eexists. split; [reflexivity|].
    exact (array_map (fun a => a / 2) _ _ _ _ HS).
Qed.
(** Symmetrising the weights does not change the weighted sum of symmetric entries. *)
Lemma half_sum n w f : (forall i j, f i j = f j i) -> sum_to n (fun i => sum_to n (fun j => (w i j + w j i) / 2 * f i j)) = sum_to n (fun i => sum_to n (fun j => w i j * f i j)).
Proof.
  intros Hf. transitivity (sum_to n (fun i => sum_to n (fun j => / 2 * (w i j * f i j)) + sum_to n (fun j => / 2 * (w j i * f j i)))).
  { apply sum_to_ext. intros i Hi. rewrite <- sum_to_plus. apply sum_to_ext. intros j Hj. rewrite (Hf j i). field. }
  rewrite sum_to_plus. rewrite (sum_to_swap n n (fun i j => / 2 * (w j i * f j i))). rewrite <- sum_to_plus. apply sum_to_ext. intros i Hi.
  rewrite <- sum_to_plus. apply sum_to_ext. intros j Hj. field.
Qed.

Lemma firstn_nth {A} (l : list A) d z a : (d < length l)%nat -> forall e, nth e (firstn d l ++ z :: skipn (S d) l) a = if Nat.eqb e d then z else nth e l a.
Proof.
  intros Hd e. destruct (Nat.eqb_spec e d) as [->|N].
  - rewrite app_nth2; rewrite firstn_length_le by lia; [|lia]. rewrite Nat.sub_diag. reflexivity.
  - destruct (Nat.lt_ge_cases e d) as [H|H].
    + rewrite app_nth1 by (rewrite firstn_length_le by lia; exact H). rewrite <- (firstn_skipn d l) at 2. rewrite app_nth1 by (rewrite firstn_length_le by lia; exact H). reflexivity.
    + rewrite app_nth2; rewrite firstn_length_le by lia; [|lia]. replace (e - d)%nat with (S (e - S d)) by lia. cbn [nth].
      rewrite <- (firstn_skipn (S d) l) at 2. rewrite app_nth2; rewrite firstn_length_le by lia; [|lia]. reflexivity.
Qed.
Lemma with_length k d z : (d < length (l_variance k))%nat -> length (l_variance (with_variance k d z)) = length (l_variance k).
Proof. intros H. unfold with_variance; cbn [l_variance]. rewrite app_length, firstn_length_le by lia. cbn [length]. rewrite skipn_length. lia. Qed.
Lemma with_fine k d z : fine k -> (d < length (l_variance k))%nat -> fine (with_variance k d z).
Proof. unfold fine. intros L H. rewrite with_length by exact H. exact L. Qed.
Lemma with_nonneg k d z : (forall v, In v (l_variance k) -> 0 <= v) -> 0 <= z -> forall v, In v (l_variance (with_variance k d z)) -> 0 <= v.
Proof.
  intros H Hz v Hv. unfold with_variance in Hv; cbn [l_variance] in Hv. apply in_app_or in Hv. destruct Hv as [Hv|[<-|Hv]]; [|exact Hz|]; apply H.
  - rewrite <- (firstn_skipn d (l_variance k)). apply in_or_app. left. exact Hv.
  - rewrite <- (firstn_skipn (S d) (l_variance k)). apply in_or_app. right. exact Hv.
Qed.

Section Var.
  Context (k : linear) (L : fine k).
  Notation q := (l_dim k).
  Context (d : nat) (Hd : (d < length (l_variance k))%nat).
  (** The derivative of an entry in a variance *)
  Definition dentry (a b : nat -> R) : R := if l_ARD k then a d * b d else sum_to q (fun e => a e * b e).
  Lemma entry_derive a b p : is_derive (fun z => inner q (var (with_variance k d z)) a b) p (dentry a b).
  Proof.
    unfold inner, var, dentry. cbn [with_variance l_ARD l_variance]. unfold fine in L. destruct (l_ARD k).
    - rewrite <- (delta_sum q d (fun e => a e * b e)) by lia. apply is_derive_sum. intros e He. rewrite L in Hd.
      apply (is_derive_ext (fun z => (if Nat.eqb e d then z else nth e (l_variance k) 0) * (a e * b e))).
      { intros z. rewrite firstn_nth by lia. reflexivity. }
      unfold delta. rewrite (Nat.eqb_sym d e). destruct (Nat.eqb e d).
      + apply (is_derive_ext (fun z => z * (a e * b e))); [reflexivity|]. rewrite Rmult_1_l. apply derive_scal_l.
      + rewrite Rmult_0_l. apply @is_derive_const.
    - assert (d = 0)%nat as -> by lia.
      apply is_derive_sum. intros e He.
      apply (is_derive_ext (fun z => z * (a e * b e))); [|apply derive_scal_l]. intros z. rewrite firstn_nth by lia. reflexivity.
  Qed.
  Lemma dentry_sym a b : dentry a b = dentry b a.
  Proof. unfold dentry. destruct (l_ARD k); [ring|]. apply sum_to_ext. intros; ring. Qed.

  Lemma full_gradient n x Y W w : let (m, y) := others n x Y in array W n m w ->
    exists gs g, linear_gradients_full k W (points n q x) (second q Y) = Ok gs /\ length gs = length (l_variance k) /\ nth_error gs d = Some g
    /\ g = sum_to n (fun i => sum_to m (fun j => w i j * dentry (x i) (y j))).
  Proof.
    destruct (others n x Y) as [m y] eqn:EY. intros HW. unfold linear_gradients_full.
    assert (Em : m = fst (others n x Y)) by (rewrite EY; reflexivity).
    destruct (symmetrised_entries n m w x Y q W Em HW) as (S & -> & HS). cbn [bind].
    assert (HO : array (or_self (points n q x) (second q Y)) m q y).
    { destruct Y as [[m' y']|]; cbn [second or_self others] in *; injection EY as -> ->; apply array_points. }
    assert (Hh : sum_to n (fun i => sum_to m (fun j => half w Y i j * dentry (x i) (y j))) = sum_to n (fun i => sum_to m (fun j => w i j * dentry (x i) (y j)))).
    { destruct Y as [[m' y']|]; cbn [others half] in *; [reflexivity|]. injection EY as -> ->. apply half_sum. intros i j. apply dentry_sym. }
    unfold dentry in Hh |- *. unfold fine in L. destruct (l_ARD k) eqn:EA.
    - destruct (array_dot _ _ _ _ _ _ _ HS HO) as (P & -> & HP). cbn [bind]. unfold mmul.
      destruct (array_ew Rmult _ _ _ _ _ _ HP (array_points n q x)) as (M & -> & HM). cbn [bind]. do 2 eexists. split; [reflexivity|].
      destruct HM as (M1 & M2 & M3). unfold sum_columns. rewrite map_length, seq_length, M2. split; [symmetry; exact L|].
      rewrite L in Hd. split.
      { rewrite nth_error_map, (nth_error_nth' _ 0%nat) by (rewrite seq_length; exact Hd). rewrite seq_nth by exact Hd. cbn [option_map Nat.add]. reflexivity. }
      rewrite <- Hh. rewrite M1, rsum_sum_to. apply sum_to_ext. intros i Hi. rewrite M3 by assumption. rewrite Rmult_comm, <- sum_to_scal. apply sum_to_ext. intros j Hj. ring.
    - assert (Hdot : computes (dot_product (points n q x) (second q Y)) n m (fun i j => sum_to q (fun e => x i e * y j e))).
      { unfold dot_product. destruct Y as [[m' y']|]; cbn [second others] in *; injection EY as -> ->; eapply computes_ext;
          try exact (array_dot _ _ _ _ _ _ _ (array_points _ q _) (array_T _ _ _ _ (array_points _ q _))); intros; reflexivity. }
      destruct Hdot as (P & -> & HP). cbn [bind]. unfold mmul. destruct (array_ew Rmult _ _ _ _ _ _ HP HS) as (M & -> & HM). cbn [bind].
      do 2 eexists. split; [reflexivity|]. split; [rewrite L; reflexivity|]. assert (d = 0)%nat as -> by lia. split; [reflexivity|].
      rewrite (array_sum _ _ _ _ HM), <- Hh. apply sum2_ext. intros i j Hi Hj. apply Rmult_comm.
  Qed.
  Lemma diag_gradient n x ws : length ws = n ->
    exists gs g, linear_gradients_diag k ws (points n q x) = Ok gs /\ length gs = length (l_variance k) /\ nth_error gs d = Some g
    /\ g = sum_to n (fun i => nth i ws 0 * dentry (x i) (x i)).
  Proof.
    intros Lw. unfold linear_gradients_diag, mmul.
    assert (HC : array (as_column ws) n 1 (fun i _ => nth i ws 0)) by (rewrite <- Lw; apply array_as_column).
    destruct (array_cols Rmult _ _ _ _ _ _ HC (array_map (fun z => z ^ 2) _ _ _ _ (array_points n q x))) as (M & -> & HM). cbn [bind].
    unfold dentry. unfold fine in L. destruct (l_ARD k).
    - do 2 eexists. split; [reflexivity|].
      destruct HM as (M1 & M2 & M3). unfold sum_columns. rewrite map_length, seq_length, M2. split; [symmetry; exact L|]. rewrite L in Hd. split.
      { rewrite nth_error_map, (nth_error_nth' _ 0%nat) by (rewrite seq_length; exact Hd). rewrite seq_nth by exact Hd. cbn [option_map Nat.add]. reflexivity. }
      rewrite M1, rsum_sum_to. apply sum_to_ext. intros i Hi. rewrite M3 by assumption. cbv beta. ring.
    - do 2 eexists. split; [reflexivity|]. split; [rewrite L; reflexivity|]. assert (d = 0)%nat as -> by lia. split; [reflexivity|].
      rewrite (array_sum _ _ _ _ HM). apply sum_to_ext. intros i Hi. rewrite <- sum_to_scal. apply sum_to_ext. intros e He. cbv beta. ring.
  Qed.
End Var.

(** Moving a coordinate *)
Definition ind (a b i d : nat) : R := if Nat.eqb i a && Nat.eqb d b then 1 else 0.
Lemma moved_is x a b t i d : moved x a b t i d = x i d + (t - x a b) * ind a b i d.
Proof.
  unfold moved, ind. destruct (Nat.eqb_spec i a) as [->|]; destruct (Nat.eqb_spec d b) as [->|]; cbn [andb]; ring.
Qed.
Lemma inner_move1 q v x a b y : forall i, is_derive (fun t => inner q v (moved x a b t i) y) (x a b) (sum_to q (fun d => v d * (ind a b i d * y d))).
Proof.
  intros i. apply is_derive_sum. intros d Hd. apply (is_derive_ext (fun t => v d * ((x i d + (t - x a b) * ind a b i d) * y d))).
  { intros t. rewrite moved_is. reflexivity. }
  auto_derive; [trivial|]. ring.
Qed.
Lemma inner_move2 q v x a b : forall i j, is_derive (fun t => inner q v (moved x a b t i) (moved x a b t j)) (x a b) (sum_to q (fun d => v d * (ind a b i d * x j d + ind a b j d * x i d))).
Proof.
  intros i j. apply is_derive_sum. intros d Hd. apply (is_derive_ext (fun t => v d * ((x i d + (t - x a b) * ind a b i d) * (x j d + (t - x a b) * ind a b j d)))).
  { intros t. rewrite !moved_is. reflexivity. }
  auto_derive; [trivial|]. ring.
Qed.
Lemma ind_sum q a b i f : (b < q)%nat -> sum_to q (fun d => f d * ind a b i d) = delta i a * f b.
Proof.
  intros Hb. rewrite (sum_to_single q b); [|exact Hb|].
  - unfold ind, delta. rewrite Nat.eqb_refl, andb_true_r. destruct (Nat.eqb i a); ring.
  - intros d _ N. unfold ind. destruct (Nat.eqb_spec d b); [congruence|]. rewrite andb_false_r. ring.
Qed.
Lemma delta_sym i j : delta i j = delta j i.
Proof. unfold delta. rewrite Nat.eqb_sym. reflexivity. Qed.

Section Inputs.
  Context (k : linear) (L : fine k).
  Notation q := (l_dim k).
  Notation v := (var k).
  Lemma X_other n x m y W w : array W n m w -> computes (linear_gradients_X k W (points n q x) (Some (points m q y))) n q (fun a b => sum_to m (fun j => w a j * y j b) * v b).
  Proof.
    intros HW. unfold linear_gradients_X. cbn [symmetrised bind]. destruct (array_dot _ _ _ _ _ _ _ HW (array_points m q y)) as (P & -> & HP). cbn [bind].
    assert (E : row (l_variance k) = mmap (fun z => z) (row (l_variance k))) by reflexivity. rewrite E.
    exact (rows_row k L (fun z => z) n _ _ HP).
  Qed.
  Lemma X_self n x W w : array W n n w -> computes (linear_gradients_X k W (points n q x) None) n q (fun a b => sum_to n (fun j => (w a j + w j a) / 2 * x j b) * (2 * v b)).
  Proof.
    intros HW. unfold linear_gradients_X. pose proof (symmetrised_entries n n w x None q W eq_refl HW) as H. cbn [second] in H. destruct H as (S & -> & HS). cbn [bind].
    destruct (array_dot _ _ _ _ _ _ _ HS (array_points n q x)) as (P & -> & HP). cbn [bind].
    exact (rows_row k L (Rmult 2) n _ _ HP).
  Qed.
  Lemma X_diag n x ws : length ws = n -> computes (linear_gradients_X_diag k ws (points n q x)) n q (fun a b => 2 * v b * nth a ws 0 * x a b).
  Proof.
    intros Lw. unfold linear_gradients_X_diag, mmul.
    assert (HC : array (as_column ws) n 1 (fun i _ => nth i ws 0)) by (rewrite <- Lw; apply array_as_column).
    unfold fine, var in *. destruct (l_ARD k).
    - destruct (array_outer' Rmult _ _ _ _ _ _ (array_map (Rmult 2) _ _ _ _ (array_row' _ _ L)) HC) as (A & -> & HA). cbn [bind].
      exact (array_ew Rmult _ _ _ _ _ _ HA (array_points n q x)).
    - destruct (array_outer' Rmult _ _ _ _ _ _ (array_map (Rmult 2) _ _ _ _ (array_row' _ _ L)) HC) as (A & -> & HA). cbn [bind].
      exact (array_cols Rmult _ _ _ _ _ _ HA (array_points n q x)).
  Qed.
End Inputs.

Lemma inner_ext q v v' a b : (forall d, (d < q)%nat -> v d = v' d) -> inner q v a b = inner q v' a b.
Proof. intros H. apply sum_to_ext. intros d Hd. rewrite H by exact Hd. reflexivity. Qed.

Lemma linear_variance_gradient dim ARD variance k : new_linear dim ARD variance = Ok k -> (forall v, In v (l_variance k) -> 0 <= v) ->
  forall d p, nth_error (l_variance k) d = Some p ->
  forall n x Y, let (m, y) := others n x Y in exists K : R -> nat -> nat -> R,
    (forall z, 0 <= z -> computes (linear_K (with_variance k d z) (points n dim x) (second dim Y)) n m (K z))
    /\ (forall W w, array W n m w -> exists gs g, linear_gradients_full k W (points n dim x) (second dim Y) = Ok gs
        /\ length gs = length (l_variance k) /\ nth_error gs d = Some g /\ is_gradient n m w K p g).
Proof.
  intros E Hv d p Hp n x Y. destruct (new_fine _ _ _ _ E) as (L & <- & _).
  assert (Hd : (d < length (l_variance k))%nat) by (apply nth_error_Some; congruence).
  pose proof (full_gradient k L d Hd n x Y) as F. destruct (others n x Y) as [m y] eqn:EY.
  exists (fun z i j => inner (l_dim k) (var (with_variance k d z)) (x i) (y j)). split.
  - intros z Hz. pose proof (K_entries (with_variance k d z) (with_fine k d z L Hd) n x Y (with_nonneg k d z Hv Hz)) as C. rewrite EY in C. exact C.
  - intros W w HW. destruct (F W w HW) as (gs & g & E1 & E2 & E3 & E4). exists gs, g. split; [exact E1|]. split; [exact E2|]. split; [exact E3|].
    apply (gradient_intro n m w _ p (fun i j => dentry k d (x i) (y j))); [|exact E4]. intros i j _ _. apply entry_derive; assumption.
Qed.
Lemma linear_variance_gradient_diag dim ARD variance k : new_linear dim ARD variance = Ok k ->
  forall d p, nth_error (l_variance k) d = Some p ->
  forall n x, exists K : R -> nat -> R,
    (forall z, linear_Kdiag (with_variance k d z) (points n dim x) = Ok (map (K z) (seq 0 n)))
    /\ (forall w, exists gs g, linear_gradients_diag k (map w (seq 0 n)) (points n dim x) = Ok gs
        /\ length gs = length (l_variance k) /\ nth_error gs d = Some g /\ derivable_pt_lim (fun z => sum_to n (fun i => w i * K z i)) p g).
Proof.
  intros E d p Hp n x. destruct (new_fine _ _ _ _ E) as (L & <- & _).
  assert (Hd : (d < length (l_variance k))%nat) by (apply nth_error_Some; congruence).
  exists (fun z i => inner (l_dim k) (var (with_variance k d z)) (x i) (x i)). split.
  - intros z. exact (Kdiag_entries (with_variance k d z) (with_fine k d z L Hd) n x).
  - intros w. assert (Lw : length (map w (seq 0 n)) = n) by (rewrite map_length, seq_length; reflexivity).
    destruct (diag_gradient k L d Hd n x _ Lw) as (gs & g & E1 & E2 & E3 & E4). exists gs, g. split; [exact E1|]. split; [exact E2|]. split; [exact E3|].
    apply is_derive_Reals. rewrite E4. apply is_derive_sum. intros i Hi.
    rewrite (nth_indep _ 0 (w 0%nat)) by (rewrite Lw; exact Hi). rewrite (map_nth w), seq_nth by exact Hi. cbn [Nat.add].
    exact (is_derive_scal _ _ (w i) _ (entry_derive k L d Hd (x i) (x i) p)).
Qed.

Lemma linear_input_gradient dim ARD variance k : new_linear dim ARD variance = Ok k ->
  forall v, (forall d, (d < dim)%nat -> variance_of k d (v d)) -> forall n x m y a b, (a < n)%nat -> (b < dim)%nat ->
  (forall W w, array W n n w -> exists G, linear_gradients_X k W (points n dim x) None = Ok G /\ nr G = n /\ nc G = dim
     /\ derivable_pt_lim (fun t => weighted_sum n n w (fun i j => inner dim v (moved x a b t i) (moved x a b t j))) (x a b) (ent G a b))
  /\ (forall W w, array W n m w -> exists G, linear_gradients_X k W (points n dim x) (Some (points m dim y)) = Ok G /\ nr G = n /\ nc G = dim
     /\ derivable_pt_lim (fun t => weighted_sum n m w (fun i j => inner dim v (moved x a b t i) (y j))) (x a b) (ent G a b))
  /\ (forall w, exists G, linear_gradients_X_diag k (map w (seq 0 n)) (points n dim x) = Ok G /\ nr G = n /\ nc G = dim
     /\ derivable_pt_lim (fun t => sum_to n (fun i => w i * inner dim v (moved x a b t i) (moved x a b t i))) (x a b) (ent G a b)).
Proof.
  intros E v Hv n x m y a b Ha Hb. destruct (new_fine _ _ _ _ E) as (L & <- & _).
  assert (Ev : v b = var k b) by (apply variance_is, Hv; exact Hb).
  split; [|split].
  - intros W w HW. destruct (X_self k L n x W w HW) as (G & EG & (G1 & G2 & G3)). exists G. split; [exact EG|]. split; [exact G1|]. split; [exact G2|].
    apply (gradient_intro n n w (fun t i j => inner (l_dim k) v (moved x a b t i) (moved x a b t j)) (x a b) (fun i j => sum_to (l_dim k) (fun d => v d * (ind a b i d * x j d + ind a b j d * x i d))) (ent G a b)); [intros i j _ _; apply inner_move2|].
    rewrite G3 by assumption.
    transitivity (sum_to n (fun i => sum_to n (fun j => delta i a * (w i j * (v b * x j b)))) + sum_to n (fun i => sum_to n (fun j => delta j a * (w i j * (v b * x i b))))).
    2:{ rewrite <- sum_to_plus. apply sum_to_ext. intros i Hi. rewrite <- sum_to_plus. apply sum_to_ext. intros j Hj.
        rewrite (sum_to_ext (l_dim k) _ (fun d => v d * x j d * ind a b i d + v d * x i d * ind a b j d)) by (intros; ring).
        rewrite sum_to_plus, !ind_sum by exact Hb. ring. }
    rewrite (sum_to_swap n n (fun i j => delta j a * (w i j * (v b * x i b)))).
    rewrite (sum_to_ext n (fun i => sum_to n (fun j => delta i a * (w i j * (v b * x j b)))) (fun i => delta a i * sum_to n (fun j => w i j * (v b * x j b)))) by (intros i Hi; rewrite sum_to_scal, delta_sym; reflexivity).
    rewrite (sum_to_ext n (fun j => sum_to n (fun i => delta j a * (w i j * (v b * x i b)))) (fun j => delta a j * sum_to n (fun i => w i j * (v b * x i b)))) by (intros i Hi; rewrite sum_to_scal, delta_sym; reflexivity).
    rewrite (delta_sum n a (fun i => sum_to n (fun j => w i j * (v b * x j b)))) by exact Ha.
    rewrite (delta_sum n a (fun j => sum_to n (fun i => w i j * (v b * x i b)))) by exact Ha.
    rewrite <- sum_to_plus, Rmult_comm, <- sum_to_scal, Ev. apply sum_to_ext. intros j Hj. field.
  - intros W w HW. destruct (X_other k L n x m y W w HW) as (G & EG & (G1 & G2 & G3)). exists G. split; [exact EG|]. split; [exact G1|]. split; [exact G2|].
    apply (gradient_intro n m w (fun t i j => inner (l_dim k) v (moved x a b t i) (y j)) (x a b) (fun i j => sum_to (l_dim k) (fun d => v d * (ind a b i d * y j d))) (ent G a b)); [intros i j _ _; apply inner_move1|].
    rewrite G3 by assumption.
    rewrite (sum_to_ext n (fun i => sum_to m _) (fun i => delta a i * sum_to m (fun j => w i j * (v b * y j b)))).
    + rewrite (delta_sum n a (fun i => sum_to m (fun j => w i j * (v b * y j b)))) by exact Ha. rewrite Rmult_comm, <- sum_to_scal, Ev. apply sum_to_ext. intros j Hj. ring.
    + intros i Hi. rewrite <- sum_to_scal. apply sum_to_ext. intros j Hj.
      rewrite (sum_to_ext (l_dim k) _ (fun d => v d * y j d * ind a b i d)) by (intros; ring). rewrite ind_sum by exact Hb. rewrite delta_sym. ring.
  - intros w. assert (Lw : length (map w (seq 0 n)) = n) by (rewrite map_length, seq_length; reflexivity).
    destruct (X_diag k L n x _ Lw) as (G & EG & (G1 & G2 & G3)). exists G. split; [exact EG|]. split; [exact G1|]. split; [exact G2|].
    rewrite G3 by assumption. rewrite (nth_indep _ 0 (w 0%nat)) by (rewrite Lw; exact Ha). rewrite (map_nth w), seq_nth by exact Ha. cbn [Nat.add].
    apply is_derive_Reals.
    replace (2 * var k b * w a * x a b) with (sum_to n (fun i => w i * sum_to (l_dim k) (fun d => v d * (ind a b i d * x i d + ind a b i d * x i d)))).
    + apply is_derive_sum. intros i Hi. exact (is_derive_scal _ _ (w i) _ (inner_move2 (l_dim k) v x a b i i)).
    + rewrite (sum_to_ext n _ (fun i => delta a i * (2 * v b * w i * x i b))).
      * rewrite (delta_sum n a (fun i => 2 * v b * w i * x i b)) by exact Ha. rewrite Ev. reflexivity.
      * intros i Hi. rewrite (sum_to_ext (l_dim k) _ (fun d => 2 * (v d * x i d) * ind a b i d)) by (intros; ring). rewrite ind_sum by exact Hb. rewrite delta_sym. ring.
Qed.

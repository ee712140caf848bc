(** Gradients of the linear, periodic and change kernels. *)
From Coq Require Import Reals List Bool Arith Lra Lia.
From Coquelicot Require Import Coquelicot.
From Verif Require Import Py KernModel KernSpec KernSig KernGrad KernGrad2.
Import ListNotations.
Local Open Scope R_scope.

Lemma computes_ext r n m k k' : computes r n m k -> computes r n m k' -> forall i j, (i < n)%nat -> (j < m)%nat -> k i j = k' i j.
Proof. intros (A & E & _ & _ & H) (B & E' & _ & _ & H') i j Hi Hj. rewrite E in E'. injection E' as <-. rewrite <- H, <- H' by assumption. reflexivity. Qed.

Lemma gradient_of_computes n m w (r : R -> res mat) K K' p g : (forall q, computes (r q) n m (K q)) -> (forall q, computes (r q) n m (K' q)) ->
  is_gradient n m w K p g -> is_gradient n m w K' p g.
Proof. intros H H'. apply gradient_ext. intros q i j Hi Hj. apply (computes_ext (r q) n m); auto. Qed.

(** The other data set. *)
Lemma or_self_column n x Y : or_self (column n x) (other_mat Y) = column (fst (other n x Y)) (snd (other n x Y)).
Proof. destruct Y as [[m y]|]; reflexivity. Qed.

(** ** LinearWithOffset *)
Lemma lin_entries v o n x Y : let (m, y) := other n x Y in
  computes (lin_K v o (column n x) (other_mat Y)) n m (fun i j => v * (x i - o) * (y j - o)).
Proof.
  unfold lin_K. rewrite or_self_column. destruct (other n x Y) as [m y]. simpl. unfold mmul.
  apply (array_outer Rmult (mmap (fun x => v * (x - o)) (column n x)) (mT (mmap (fun x => x - o) (column m y))) n m (fun i _ => v * (x i - o)) (fun _ j => y j - o));
    [apply (array_map (fun x => v * (x - o)))|apply (array_T _ _ _ _ (array_map (fun x => x - o) _ _ _ _ (array_column m y)))]. apply array_column.
Qed.

Lemma lin_variance v o n x Y dL K : let (m, y) := other n x Y in array dL n m (ent dL) -> (n = m \/ m = 1%nat) ->
  (forall q, computes (lin_K q o (column n x) (other_mat Y)) n m (K q)) ->
  exists gv go, lin_update_gradients_full v o dL (column n x) (other_mat Y) = Ok (gv, go) /\ is_gradient n m (ent dL) K v gv.
Proof.
  pose proof (fun q => lin_entries q o n x Y) as HE. unfold lin_update_gradients_full. rewrite or_self_column. destruct (other n x Y) as [m y]. simpl fst. simpl snd. intros HdL Hnm HK.
  destruct (array_outer Rmult (mmap (fun x => x - o) (column n x)) (mT (mmap (fun x => x - o) (column m y))) n m (fun i _ => x i - o) (fun _ j => y j - o)) as (M & E & H);
    [apply (array_map (fun x => x - o)), array_column|apply (array_T _ _ _ _ (array_map (fun x => x - o) _ _ _ _ (array_column m y)))|].
  unfold mmul at 1. rewrite E. cbn [bind]. clear E.
  assert (HD : exists D, msub (mmap (fun x0 => 2 * o - x0) (column n x)) (column m y) = Ok D /\ nr D = n /\ nc D = 1%nat).
  { unfold msub, elementwise. cbn [nr nc mmap column]. destruct Hnm as [<-| ->]; [rewrite !bc_same|rewrite bc_one_r]; eexists; split; try reflexivity; split; reflexivity. }
  destruct HD as (D & E & HD1 & HD2). rewrite E. cbn [bind]. clear E.
  destruct (array_ew Rmult dL M n m _ _ HdL H) as (G & E & HG). unfold mmul at 1. rewrite E. cbn [bind]. clear E.
  assert (HO : exists O', mmul dL (mmap (Rmult v) D) = Ok O').
  { destruct HdL as (A1 & A2 & _). unfold mmul, elementwise. cbn [nr nc mmap]. rewrite A1, A2, HD1, HD2, bc_same, bc_one_r. eauto. }
  destruct HO as (O' & ->). cbn [bind]. do 2 eexists. split; [reflexivity|].
  apply (gradient_of_computes n m _ _ _ _ _ _ HE HK).
  apply (gradient_intro n m _ _ v (fun i j => (x i - o) * (y j - o))).
  - intros i j _ _. auto_derive; [trivial|]. ring.
  - apply (array_sum _ _ _ _ HG).
Qed.

Lemma lin_offset v o n x dL K : array dL n n (ent dL) -> (forall i j, (i < n)%nat -> (j < n)%nat -> ent dL i j = ent dL j i) ->
  (forall q, computes (lin_K v q (column n x) None) n n (K q)) ->
  exists gv go, lin_update_gradients_full v o dL (column n x) None = Ok (gv, go) /\ is_gradient n n (ent dL) K o go.
Proof.
  pose proof (fun q => lin_entries v q n x None) as HE. simpl in HE. unfold lin_update_gradients_full. simpl or_self. intros HdL Hsym HK.
  destruct (array_outer Rmult (mmap (fun x => x - o) (column n x)) (mT (mmap (fun x => x - o) (column n x))) n n (fun i _ => x i - o) (fun _ j => x j - o)) as (M & E & H);
    [apply (array_map (fun x => x - o)), array_column|apply (array_T _ _ _ _ (array_map (fun x => x - o) _ _ _ _ (array_column n x)))|].
  unfold mmul at 1. rewrite E. cbn [bind]. clear E. step.
  destruct (array_ew Rmult dL M n n _ _ HdL H) as (G & E & HG). rewrite E. cbn [bind]. clear E HG.
  assert (HO : computes (elementwise Rmult dL (mmap (Rmult v) M0)) n n (fun i j => ent dL i j * (v * (2 * o - x i - x i)))).
  { apply (array_map (Rmult v)) in H0. destruct HdL as (A1 & A2 & A3), H0 as (B1 & B2 & B3). unfold computes, elementwise. rewrite A1, A2, B1, B2, bc_same, bc_one_r. eexists. split; [reflexivity|].
    split; [reflexivity|]. split; [reflexivity|]. intros i j Hi Hj. cbn [ent]. rewrite !(ix_lt n) by assumption. change (ix 1 j) with 0%nat. rewrite B3 by lia. reflexivity. }
  destruct HO as (GO & E & HGO). rewrite E. cbn [bind]. do 2 eexists. split; [reflexivity|].
  apply (gradient_of_computes n n _ _ _ _ _ _ HE HK).
  apply (gradient_intro n n _ _ o (fun i j => v * (2 * o - x i - x j))).
  - intros i j _ _. auto_derive; [trivial|]. ring.
  - rewrite (array_sum _ _ _ _ HGO). clear - Hsym.
    assert (HH := symmetric_sum n (ent dL) (fun i => v * (o - x i)) (fun _ => 1) Hsym).
    etransitivity; [|etransitivity; [exact HH|]].
    + rewrite <- sum_to_scal. apply sum_to_ext. intros i _. rewrite <- sum_to_scal. apply sum_to_ext. intros j _. ring.
    + apply sum2_ext. intros i j _ _. ring.
Qed.

(** ** Periodic *)
Lemma per_entries i0 v p l n x Y : let (m, y) := other n x Y in
  computes (per_K i0 v p l (column n x) (other_mat Y)) n m (fun i j => per_entry i0 v p l (x i - y j)).
Proof.
  unfold per_K. rewrite or_self_column. destruct (other n x Y) as [m y]. simpl. unfold msub.
  destruct (array_outer Rminus (column n x) (mT (column m y)) n m (fun i _ => x i) (fun _ j => y j)) as (D & -> & HD);
    [apply array_column|apply (array_T _ _ _ _ (array_column m y))|]. cbn [bind]. eexists. split; [reflexivity|]. apply (array_map (per_entry i0 v p l) _ _ _ _ HD).
Qed.

Lemma per_run i0 i1 v p l n x Y dL : let (m, y) := other n x Y in array dL n m (ent dL) ->
  per_update_gradients_full i0 i1 v p l dL (column n x) (other_mat Y)
  = Ok (weighted_sum n m (ent dL) (fun i j => fst (fst (per_dK i0 i1 v p l (x i - y j)))),
        weighted_sum n m (ent dL) (fun i j => snd (fst (per_dK i0 i1 v p l (x i - y j)))),
        weighted_sum n m (ent dL) (fun i j => snd (per_dK i0 i1 v p l (x i - y j)))).
Proof.
  unfold per_update_gradients_full. rewrite or_self_column. destruct (other n x Y) as [m y]. simpl. intros HdL. unfold msub.
  destruct (array_outer Rminus (column n x) (mT (column m y)) n m (fun i _ => x i) (fun _ j => y j)) as (D & -> & HD);
    [apply array_column|apply (array_T _ _ _ _ (array_column m y))|]. cbn [bind].
  assert (HP : forall f : R -> R, exists M, mmul dL (mmap f D) = Ok M /\ msum M = weighted_sum n m (ent dL) (fun i j => f (x i - y j))).
  { intros f. destruct (array_ew Rmult dL (mmap f D) n m _ _ HdL (array_map f _ _ _ _ HD)) as (M & E & HM). exists M. split; [exact E|]. apply (array_sum _ _ _ _ HM). }
  destruct (HP (fun d => fst (fst (per_dK i0 i1 v p l d)))) as (M1 & -> & E1). destruct (HP (fun d => snd (fst (per_dK i0 i1 v p l d)))) as (M2 & -> & E2).
  destruct (HP (fun d => snd (per_dK i0 i1 v p l d))) as (M3 & -> & E3). cbn [bind]. rewrite E1, E2, E3. reflexivity.
Qed.

Lemma Rltb_true a b : a < b -> Rltb a b = true.
Proof. intros H. unfold Rltb. destruct (Rlt_dec a b); [reflexivity|contradiction]. Qed.
Lemma Rltb_false a b : b <= a -> Rltb a b = false.
Proof. intros H. unfold Rltb. destruct (Rlt_dec a b); [lra|reflexivity]. Qed.

Lemma derive_scal_l t v : is_derive (fun q => q * t) v t.
Proof. auto_derive; [trivial|]. ring. Qed.

Lemma per_dv i0 i1 v p l d : is_derive (fun q => per_entry i0 q p l d) v (fst (fst (per_dK i0 i1 v p l d))).
Proof. unfold per_entry, per_dK. destruct (Rltb 10000 l); [|destruct (Rltb (1 / l ^ 2) 3.75)]; apply derive_scal_l. Qed.

Lemma derive_cos_p p d : p <> 0 -> is_derive (fun q => cos (2 * PI / q * d)) p ((2 * PI / p * d) / p * sin (2 * PI / p * d)).
Proof. intros Hp. auto_derive; [exact Hp|]. unfold Rdiv. field. exact Hp. Qed.

Lemma derive_form (c : R -> R) p dc v z b i : is_derive c p dc -> is_derive (fun q => v * ((exp (c q * z) - b) * i)) p (v * (dc * z * exp (c p * z)) * i).
Proof.
  intros H. evar_last. { auto_derive; [exists dc; exact H|reflexivity]. } replace (Derive (fun x => c x) p) with dc by (symmetry; exact (is_derive_unique c p dc H)). ring.
Qed.

Lemma per_dp i0 i1 v p l d : p <> 0 -> is_derive (fun q => per_entry i0 v q l d) p (snd (fst (per_dK i0 i1 v p l d))).
Proof.
  intros Hp. pose proof (derive_cos_p p d Hp) as Hc. unfold per_entry, per_dK. destruct (Rltb 10000 l); [|destruct (Rltb (1 / l ^ 2) 3.75)]; cbn [fst snd].
  - evar_last. { apply (is_derive_scal (fun q => cos (2 * PI / q * d)) p v), Hc. } change (@eq R (v * (2 * PI / p * d / p * sin (2 * PI / p * d))) (v / p * (2 * PI / p * d) * sin (2 * PI / p * d))). field. exact Hp.
  - unfold Rdiv at 1. generalize (i0 (1 / l ^ 2)) (exp (1 / l ^ 2)). intros b e. generalize (1 / l ^ 2). intros z.
    evar_last. { apply (derive_form (fun q => cos (2 * PI / q * d)) p _ v z b (/ (e - b)) Hc). }
    change (@eq R (v * (2 * PI / p * d / p * sin (2 * PI / p * d) * z * exp (cos (2 * PI / p * d) * z)) * / (e - b)) (v / p * z * (2 * PI / p * d) * sin (2 * PI / p * d) * exp (cos (2 * PI / p * d) * z) / (e - b))).
    unfold Rdiv. ring.
  - unfold Rdiv at 1. generalize (embi0 (1 / l ^ 2)). intros b. generalize (1 / l ^ 2). intros z.
    evar_last. { apply (derive_form (fun q => cos (2 * PI / q * d) - 1) p (2 * PI / p * d / p * sin (2 * PI / p * d)) v z b (/ (1 - b))).
      rewrite <- (Rminus_0_r (_ / _ * sin _)). apply (is_derive_minus (fun q => cos (2 * PI / q * d)) (fun _ => 1) p _ 0 Hc). apply (is_derive_const (V := R_NormedModule) 1 p). }
    unfold Rdiv. cbv beta. ring.
Qed.

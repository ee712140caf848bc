(** Proofs about the second derivatives of the linear kernel. *)
From Coq Require Import Reals List Bool Arith Lra Lia.
From Coquelicot Require Import Coquelicot.
From Verif Require Import Py KernModel KernSpec KernSig KernGrad KernGrad2 KernGrad3 KernPsd PredSpec PredBest LinModel LinSpec LinProofs LinGrad.
Import ListNotations.
Local Open Scope R_scope.

Lemma shifted_is p b t d : shifted p b t d = p d + t * delta d b.
Proof. unfold shifted, delta. destruct (Nat.eqb d b); ring. Qed.
Lemma shift_derive q v a p b : (b < q)%nat -> is_derive (fun t => inner q v a (shifted p b t)) 0 (v b * a b).
Proof.
  intros Hb. replace (v b * a b) with (sum_to q (fun d => delta b d * (v d * a d))) by (apply (delta_sum q b (fun d => v d * a d)); exact Hb).
  apply is_derive_sum. intros d Hd. apply (is_derive_ext (fun t => v d * (a d * (p d + t * delta d b)))).
  { intros t. rewrite shifted_is. reflexivity. }
  auto_derive; [trivial|]. rewrite (delta_sym b d). ring.
Qed.
Lemma linear_second_same q v n x m y W k b c i j : (b < q)%nat ->
  let G := linear_gradients_XX W (points n q x) (Some (points m q y)) in
  fst G = (n, m, q, q) /\ second_derivative (fun s t => k * inner q v (x i) (shifted (shifted (y j) c s) b t)) (snd G i j b c).
Proof.
  intros Hb. cbn. split; [reflexivity|]. exists (fun _ => k * (v b * x i b)). split.
  - intros s. apply is_derive_Reals. exact (is_derive_scal _ _ k _ (shift_derive q v (x i) _ b Hb)).
  - apply is_derive_Reals. apply @is_derive_const.
Qed.
Lemma linear_second_cross q v a p b c w : (b < q)%nat -> second_derivative (fun s t => w * inner q v (shifted a c s) (shifted p b t)) (w * (v b * delta b c)).
Proof.
  intros Hb. exists (fun s => w * (v b * shifted a c s b)). split.
  - intros s. apply is_derive_Reals. exact (is_derive_scal _ _ w _ (shift_derive q v _ p b Hb)).
  - apply is_derive_Reals. apply (is_derive_ext (fun s => w * (v b * (a b + s * delta b c)))).
    { intros s. rewrite shifted_is. reflexivity. }
    auto_derive; [trivial|]. ring.
Qed.
Lemma second_unique f g g' : second_derivative f g -> second_derivative f g' -> g = g'.
Proof.
  intros (f1 & A & B) (f2 & C & D). apply (uniqueness_limite f1 0); [exact B|].
  intros e He. destruct (D e He) as (d & Hd). exists d. intros h H1 H2. rewrite !(uniqueness_limite _ _ _ _ (A _) (C _)). apply Hd; assumption.
Qed.
Lemma linear_second_wrong : exists k v, new_linear 1 false (Some [2]) = Ok k /\ (forall d, (d < 1)%nat -> variance_of k d (v d))
  /\ exists W w n m x y, array W n m w /\ exists i j b c, (i < n)%nat /\ (j < m)%nat /\ (b < 1)%nat /\ (c < 1)%nat
  /\ ~ second_derivative (fun s t => w i j * inner 1 v (shifted (x i) c s) (shifted (y j) b t)) (snd (linear_gradients_XX W (points n 1 x) (Some (points m 1 y))) i j b c).
Proof.
  exists (Linear 1 false [2]), (fun _ => 2). split; [reflexivity|]. split; [intros d _; reflexivity|].
  exists (Mat 1 1 (fun _ _ => 1)), (fun _ _ => 1), 1%nat, 1%nat, (fun _ _ => 3), (fun _ _ => 5). split; [split; [reflexivity|]; split; reflexivity|].
  exists 0%nat, 0%nat, 0%nat, 0%nat. do 4 (split; [lia|]). intros H.
  assert (H0 : (0 < 1)%nat) by lia.
  pose proof (second_unique _ _ _ H (linear_second_cross 1 (fun _ => 2) (fun _ => 3) (fun _ => 5) 0 0 1 H0)) as E. cbn in E. unfold delta in E. cbn in E. lra.
Qed.

(** Growing an expression does not decrease the best log-likelihood (C67). *)
From Coq Require Import Reals Lra List Bool Arith ZArith Lia Permutation.
From Verif Require Import Py KexModel KexSpec KexProofs KexSimp KexMore OpsModel KexCong OpsSpec OpsProofs KernModel KernSpec SemModel SemSpec SemProofs SemSimp SemMore SemOps SemKernel SemLimSpec SemLimit PredSpec UnitSpec UnitProofs GrowSpec GrowProofs LikeProofs.
Import ListNotations.
Local Open Scope Z_scope.

(** ** Results of operations are well-formed *)
Lemma operate_fine off k a b : operand off a -> operand off b -> wf (operate off k a b) /\ non_empty (operate off k a b) /\ sigmoid_free (operate off k a b).
Proof.
  intros Oa Ob. pose proof (operand_wf _ _ Oa) as Wa. pose proof (operand_wf _ _ Ob) as Wb.
  destruct (operate_shape k a b Wa Wb) as (B & C & -> & WB & GB & PC).
  destruct (part_facts _ k _ Oa) as [Sa Ka]. destruct (part_facts _ k _ Ob) as [Sb Kb].
  assert (HC : forall c, In c C -> pnf off c /\ non_empty c /\ sigmoid_free c /\ no_c_product k c).
  { intros c Hc. apply (Permutation_in c PC) in Hc. apply in_app_iff in Hc as [Hc|Hc]; auto. }
  assert (WC : forall c, In c C -> wf c) by (intros c Hc; destruct (HC c Hc) as (Pc & _); eapply pnf_wf, Pc).
  split; [apply mk_wf; assumption|]. split.
  - unfold mk. cbn [simplify]. apply simp_node_non_empty; [exact WB| |].
    + assert (T : forall d, operand off d -> 0 < terms (part_bases k d) (part_kexs k d)).
      { intros [x|[k' bts cts|o l r]] Od; cbn [part_bases part_kexs]; [destruct x; reflexivity| |reflexivity].
        destruct (kind_eqb k k') eqn:E; [|reflexivity]. apply (proj1 (proj2 Od) k' bts cts). constructor. }
      pose proof (T a Oa) as Ta. pose proof (T b Ob) as Tb. unfold terms in *. rewrite map_length, (Permutation_length PC), app_length, Nat2Z.inj_add.
      cbn [fold_right all_bases] in *. rewrite !GB. lia.
    + intros c Hc. apply in_map_iff in Hc as (c0 & <- & Hc0). destruct (HC c0 Hc0) as (P0 & N0 & _ & C0). split; [|split].
      * eapply normal_wf, pnf_simplify, P0.
      * apply pnf_simplify_non_empty; assumption.
      * apply pnf_simplify_no_c; assumption.
  - unfold mk. apply simplify_sigmoid_free; [apply wf_comm; split; assumption|]. apply sigmoid_free_comm. split; [|intros c Hc; apply HC, Hc].
    intros x Hx. rewrite GB, (Sa x Hx), (Sb x Hx). lia.
Qed.
Lemma mk_change_fine off c l r : operand off l -> operand off r -> wf (mk_change off c l r) /\ non_empty (mk_change off c l r) /\ sigmoid_free (mk_change off c l r).
Proof.
  intros Ol Or. pose proof (operand_wf _ _ Ol) as Wl. pose proof (operand_wf _ _ Or) as Wr.
  assert (W : forall x, l = inr x \/ r = inr x -> wf x) by (intros x [->| ->]; [apply Wl|apply Wr]; reflexivity).
  split; [apply mk_change_wf, W|]. split.
  - apply mk_change_non_empty. intros x [->| ->]; split; try apply Ol; apply Or.
  - apply simplify_sigmoid_free; [apply wf_change; exact W|]. apply sigmoid_free_change. split.
    + intros x Hx. split; intros ->; [cbn in Ol|cbn in Or]; congruence.
    + intros x [->| ->]; [apply Ol|apply Or].
Qed.

Section Best.
  Local Open Scope R_scope.
  Lemma kernel_branch off b g : operand off b -> kernel_of b = Ok g -> same_family (kernel_family off g) (branch_covariances off b).
  Proof.
    destruct b as [x|e]; cbn [kernel_of branch_covariances]; intros O E.
    - injection E as <-. apply base_kernel. exact O.
    - destruct O as (B & N & S). apply kernel_covariances; try assumption. eapply pnf_wf, built_pnf, B.
  Qed.
  Lemma attainable_within off g g' f f' : same_family (kernel_family off g) f -> same_family (kernel_family off g') f' -> within f f' ->
    forall n x y L eps, attainable off g n x y L -> 0 < eps -> exists L', attainable off g' n x y L' /\ Rabs (L' - L) < eps.
  Proof.
    intros F F' W n x y L eps (K & s & HK & Hs & D) He.
    destruct (log_density_near n _ y L D eps He) as (d & Hd & P).
    destruct (W K (proj1 (F K) HK) x n d Hd) as (K' & HK' & C).
    destruct (P (fun i j => K' x i j + s * delta i j)) as (L' & D' & E).
    - intros i j Hi Hj. replace (K' x i j + s * delta i j - (K x i j + s * delta i j)) with (K' x i j - K x i j) by ring. apply C; assumption.
    - exists L'. split; [|exact E]. exists K', s. exact (conj (proj2 (F' K') HK') (conj Hs D')).
  Qed.
  Lemma best_within off g g' f f' : same_family (kernel_family off g) f -> same_family (kernel_family off g') f' -> within f f' ->
    forall n x y M M', is_lub (attainable off g n x y) M -> is_lub (attainable off g' n x y) M' -> M <= M'.
  Proof.
    intros F F' W n x y M M' [_ V] [U' _]. apply V. intros L HL. apply le_epsilon. intros eps He.
    destruct (attainable_within off g g' f f' F F' W n x y L eps HL He) as (L' & A & C). apply U' in A. apply Rabs_def2 in C. lra.
  Qed.
  Lemma likely_within off g g' f f' : same_family (kernel_family off g) f -> same_family (kernel_family off g') f' -> within f f' ->
    forall n x y, as_likely off g g' n x y.
  Proof. intros F F' W n x y. split; [apply (attainable_within off g g' f f' F F' W)|apply (best_within off g g' f f' F F' W)]. Qed.

  Theorem add_likelihood : forall offset a b g g' n x y, standard offset a -> standard offset b ->
    kernel_of a = Ok g \/ kernel_of b = Ok g -> to_kernel (add offset a b) = Ok g' -> as_likely offset g g' n x y.
  Proof.
    intros offset a b g g' n x y Sa Sb E E'. pose proof (standard_operand _ _ Sa) as Oa. pose proof (standard_operand _ _ Sb) as Ob.
    destruct (operate_fine offset KSum a b Oa Ob) as (W & N & S). destruct (add_grows offset a b Sa Sb) as [A B].
    pose proof (kernel_covariances offset _ g' W N S E') as F'. destruct E as [E|E].
    - apply (likely_within _ _ _ _ _ (kernel_branch offset a g Oa E) F' A).
    - apply (likely_within _ _ _ _ _ (kernel_branch offset b g Ob E) F' B).
  Qed.
  Theorem multiply_likelihood : forall a b g g' n x y, standard true a -> standard true b -> noise_branch b = false ->
    kernel_of a = Ok g -> to_kernel (multiply true a b) = Ok g' -> as_likely true g g' n x y.
  Proof.
    intros a b g g' n x y Sa Sb Nb E E'. pose proof (standard_operand _ _ Sa) as Oa. pose proof (standard_operand _ _ Sb) as Ob.
    destruct (operate_fine true KProd a b Oa Ob) as (W & N & S). pose proof (kernel_covariances true _ g' W N S E') as F'.
    apply (likely_within _ _ _ _ _ (kernel_branch true a g Oa E) F'). intros K HK. apply (multiply_expresses a b Sa Sb Nb K HK).
  Qed.
  Theorem change_likelihood : forall offset c a b g g' n x y, standard offset a -> standard offset b ->
    kernel_of a = Ok g \/ kernel_of b = Ok g -> to_kernel (mk_change offset c a b) = Ok g' -> as_likely offset g g' n x y.
  Proof.
    intros offset c a b g g' n x y Sa Sb E E'. pose proof (standard_operand _ _ Sa) as Oa. pose proof (standard_operand _ _ Sb) as Ob.
    destruct (mk_change_fine offset c a b Oa Ob) as (W & N & S). pose proof (kernel_covariances offset _ g' W N S E') as F'.
    destruct E as [E|E]; [apply (likely_within _ _ _ _ _ (kernel_branch offset a g Oa E) F')|apply (likely_within _ _ _ _ _ (kernel_branch offset b g Ob E) F')];
      intros K HK; apply (change_expresses offset c a b Sa Sb K); auto.
  Qed.
  (** Conversely, simplifying does not increase it. *)
  Theorem simplify_likelihood : forall offset e g g' n x y, built offset e -> non_empty e -> sigmoid_free e ->
    to_kernel e = Ok g -> to_kernel (initialise offset e) = Ok g' -> as_likely offset g' g n x y.
  Proof.
    intros offset e g g' n x y B N S E E'. assert (W : wf e) by (eapply pnf_wf, built_pnf, B).
    assert (W' : wf (initialise offset e)) by (apply simplify_wf, W).
    assert (S' : sigmoid_free (initialise offset e)) by (apply simplify_sigmoid_free; assumption).
    pose proof (initialise_non_empty offset e B N) as N'.
    apply (likely_within _ _ _ _ _ (kernel_covariances offset _ g' W' N' S' E') (kernel_covariances offset _ g W N S E)).
    intros K HK. apply (initialise_limits offset e B N S K HK).
  Qed.
End Best.

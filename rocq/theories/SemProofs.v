(** Families of covariance functions: algebra, simplification (C02), stationarity (C12). *)
From Coq Require Import Reals Lra List Bool Arith ZArith Lia Permutation Morphisms Setoid.
From Verif Require Import Py UtilModel UtilSpec UtilProofs KexModel KexSpec KexProofs KexSimp KexMore OpsModel KexCong KernModel KernSpec KernProper SemModel SemSpec.
Import ListNotations.
Local Open Scope R_scope.

(** ** Families *)
Global Instance same_family_equiv : Equivalence same_family.
Proof.
  split; [intros f K; tauto|intros f g H K; symmetry; apply H|].
  intros f g h H1 H2 K. rewrite (H1 K). apply H2.
Qed.
Definition closed (f : family) : Prop := forall K K' : kern, (forall x i j, K x i j = K' x i j) -> f K -> f K'.
Lemma combine2_closed k f g : closed (combine2 k f g).
Proof. intros K K' E (K1 & K2 & H1 & H2 & H). exists K1, K2. repeat split; auto. intros. rewrite <- E. auto. Qed.
Lemma combine_all_closed k l : closed (combine_all k l).
Proof. destruct l; [|apply combine2_closed]. intros K K' E H x i j. rewrite <- E. apply H. Qed.
Lemma change_family_closed c f g : closed (change_family c f g).
Proof.
  intros K K' E (K1 & K2 & l & w & H1 & H2 & Hw & H). exists K1, K2, l, w. repeat split; auto.
  intros x i j. rewrite <- E. apply H.
Qed.
Lemma base_closed o b : closed (base_family o b).
Proof.
  intros K K' E. destruct b; simpl; unfold bump.
  - intros (v & H & G). exists v. split; [exact H|]. intros. rewrite <- E. auto.
  - intros (v & H & G). exists v. split; [exact H|]. intros. rewrite <- E. auto.
  - intros (v & o' & H & H2 & G). exists v, o'. repeat split; auto. intros. rewrite <- E. auto.
  - intros (v & l & H & H2 & G). exists v, l. repeat split; auto. intros. rewrite <- E. auto.
  - intros (v & p & l & H & H2 & H3 & G). exists v, p, l. repeat split; auto. intros. rewrite <- E. auto.
  - intros (l & G). exists l. intros. rewrite <- E. auto.
  - intros (l & G). exists l. intros. rewrite <- E. auto.
  - intros (l & w & H & G). exists l, w. split; [exact H|]. intros. rewrite <- E. auto.
  - intros (l & w & H & G). exists l, w. split; [exact H|]. intros. rewrite <- E. auto.
Qed.
Lemma covariances_closed o e : closed (covariances o e).
Proof. destruct e; [apply combine_all_closed|apply change_family_closed]. Qed.

Global Instance combine2_proper k : Proper (same_family ==> same_family ==> same_family) (combine2 k).
Proof.
  intros f f' Hf g g' Hg K. split; intros (K1 & K2 & H1 & H2 & H); exists K1, K2; repeat split; auto;
    first [apply Hf; assumption|apply Hg; assumption].
Qed.
Lemma combine_all_proper k l m : Forall2 same_family l m -> same_family (combine_all k l) (combine_all k m).
Proof. induction 1; simpl; [reflexivity|]. rewrite H, IHForall2. reflexivity. Qed.
Lemma change_family_proper c f f' g g' : same_family f f' -> same_family g g' -> same_family (change_family c f g) (change_family c f' g').
Proof.
  intros Hf Hg K. split; intros (K1 & K2 & l & w & H1 & H2 & Hw & H); exists K1, K2, l, w; repeat split; auto;
    first [apply Hf; assumption|apply Hg; assumption].
Qed.

Lemma op_comm k a b : op k a b = op k b a.
Proof. destruct k; simpl; ring. Qed.
Lemma op_assoc k a b c : op k a (op k b c) = op k (op k a b) c.
Proof. destruct k; simpl; ring. Qed.
Lemma op_unit k a : op k (unit k) a = a.
Proof. destruct k; simpl; ring. Qed.
Lemma combine2_comm k f g : same_family (combine2 k f g) (combine2 k g f).
Proof.
  intros K. split; intros (K1 & K2 & H1 & H2 & H); exists K2, K1; repeat split; auto; intros; rewrite H; apply op_comm.
Qed.
Lemma combine2_assoc k f g h : same_family (combine2 k f (combine2 k g h)) (combine2 k (combine2 k f g) h).
Proof.
  intros K. split.
  - intros (K1 & K2 & H1 & (K3 & K4 & H3 & H4 & H') & H). exists (fun x i j => op k (K1 x i j) (K3 x i j)), K4.
    split; [exists K1, K3; auto|]. split; [exact H4|]. intros. rewrite H, H'. apply op_assoc.
  - intros (K1 & K2 & (K3 & K4 & H3 & H4 & H') & H2 & H). exists K3, (fun x i j => op k (K4 x i j) (K2 x i j)).
    split; [exact H3|]. split; [exists K4, K2; auto|]. intros. rewrite H, H'. symmetry. apply op_assoc.
Qed.
Lemma combine2_unit k f : closed f -> same_family (combine2 k (combine_all k []) f) f.
Proof.
  intros Hc K. split.
  - intros (K1 & K2 & H1 & H2 & H). apply (Hc K2); [|exact H2]. intros. rewrite H, H1. symmetry. apply op_unit.
  - intros H. exists (fun _ _ _ => unit k), K. repeat split; auto. intros. symmetry. apply op_unit.
Qed.
Lemma combine2_swap k f g h : same_family (combine2 k f (combine2 k g h)) (combine2 k g (combine2 k f h)).
Proof. rewrite !combine2_assoc. rewrite (combine2_comm k f g). reflexivity. Qed.
Lemma combine_all_app k l m : same_family (combine_all k (l ++ m)) (combine2 k (combine_all k l) (combine_all k m)).
Proof.
  induction l as [|f l IH]; cbn [app].
  - symmetry. apply combine2_unit, combine_all_closed.
  - change (combine_all k (f :: l ++ m)) with (combine2 k f (combine_all k (l ++ m))). rewrite IH. apply combine2_assoc.
Qed.
Lemma combine_all_perm k l m : Permutation l m -> same_family (combine_all k l) (combine_all k m).
Proof.
  induction 1.
  - reflexivity.
  - simpl. rewrite IHPermutation. reflexivity.
  - simpl. apply combine2_swap.
  - etransitivity; eauto.
Qed.
Lemma combine_all_one k f : closed f -> same_family (combine_all k [f]) f.
Proof. intros H. simpl. rewrite combine2_comm. apply (combine2_unit k f H). Qed.
Lemma combine_all_concat k ls : same_family (combine_all k (concat ls)) (combine_all k (map (combine_all k) ls)).
Proof. induction ls as [|l ls IH]; simpl; [reflexivity|]. rewrite combine_all_app, IH. reflexivity. Qed.

(** ** Multisets of base kernels *)
Definition bases_fun (f : base -> nat) : list base := concat (map (fun b => repeat b (f b)) all_bases).
Lemma bases_fun_count f b : count_occ base_eq_dec (bases_fun f) b = f b.
Proof.
  unfold bases_fun. cbn [map all_bases concat]. rewrite !count_occ_app, !count_repeat. destruct b; simpl; lia.
Qed.
Lemma bases_in_fun c : bases_in c = bases_fun (fun b => Z.to_nat (cget c b)).
Proof. reflexivity. Qed.
Lemma bases_in_ceq c d : ceq c d -> bases_in c = bases_in d.
Proof. intros H. unfold bases_in. f_equal. apply map_ext. intros b. rewrite H. reflexivity. Qed.
Lemma bases_in_count c b : count_occ base_eq_dec (bases_in c) b = Z.to_nat (cget c b).
Proof. apply bases_fun_count. Qed.
Lemma perm_count (l m : list base) : (forall b, count_occ base_eq_dec l b = count_occ base_eq_dec m b) -> Permutation l m.
Proof. intros H. apply (Permutation_count_occ base_eq_dec). exact H. Qed.
Lemma in_bases_in c b : In b (bases_in c) <-> (0 < cget c b)%Z.
Proof. rewrite (count_occ_In base_eq_dec), bases_in_count. lia. Qed.
Lemma bases_in_elements c : nodup c -> Permutation (bases_in c) (celements c).
Proof.
  intros N. apply perm_count. intros b. rewrite bases_in_count. pose proof (count_celements c b N) as H. lia.
Qed.

(** ** Scaling *)
Definition scalable (f : family) : Prop := forall K a, 0 < a -> f K -> f (fun x i j => a * K x i j).
Lemma base_scalable o b : is_sigmoid b = false -> scalable (base_family o b).
Proof.
  intros Hs K a Ha. destruct b; try discriminate; simpl.
  - intros (v & H & G). exists (a * v). split; [apply Rmult_lt_0_compat; assumption|]. intros. rewrite G. destruct (Nat.eqb i j); ring.
  - intros (v & H & G). exists (a * v). split; [apply Rmult_lt_0_compat; assumption|]. intros. rewrite G. ring.
  - intros (v & o' & H & H2 & G). exists (a * v), o'. split; [apply Rmult_lt_0_compat; assumption|]. split; [exact H2|]. intros. rewrite G. ring.
  - intros (v & l & H & H2 & G). exists (a * v), l. split; [apply Rmult_lt_0_compat; assumption|]. split; [exact H2|]. intros. rewrite G. ring.
  - intros (v & p & l & H & H2 & H3 & G). exists (a * v), p, l. split; [apply Rmult_lt_0_compat; assumption|]. repeat split; auto.
    intros. rewrite G. unfold per_entry. repeat match goal with |- context [if ?c then _ else _] => destruct c end; unfold Rdiv; ring.
Qed.
Lemma sum_scalable l : (forall f, In f l -> scalable f) -> scalable (combine_all KSum l).
Proof.
  induction l as [|f l IH]; intros H K a Ha.
  - simpl. intros G x i j. rewrite G. ring.
  - intros (K1 & K2 & H1 & H2 & G). exists (fun x i j => a * K1 x i j), (fun x i j => a * K2 x i j).
    split; [apply H; [left; auto|exact Ha|exact H1]|]. split; [apply IH; [intros; apply H; right; auto|exact Ha|exact H2]|].
    intros. rewrite G. simpl. ring.
Qed.
Lemma prod2_scalable_l f g : scalable f -> scalable (combine2 KProd f g).
Proof.
  intros H K a Ha (K1 & K2 & H1 & H2 & G). exists (fun x i j => a * K1 x i j), K2.
  split; [apply H; assumption|]. split; [exact H2|]. intros. rewrite G. simpl. ring.
Qed.
Lemma scalable_proper f g : same_family f g -> scalable f -> scalable g.
Proof. intros E H K a Ha G. apply E. apply H; [exact Ha|]. apply E, G. Qed.
Lemma prod2_scalable_r f g : scalable g -> scalable (combine2 KProd f g).
Proof. intros H. eapply scalable_proper; [apply combine2_comm|]. apply prod2_scalable_l, H. Qed.
Lemma prod_scalable l f : In f l -> scalable f -> scalable (combine_all KProd l).
Proof.
  induction l as [|g l IH]; intros Hin H; [destruct Hin|]. destruct Hin as [Hin|Hin]; simpl.
  - subst. apply prod2_scalable_l, H.
  - apply prod2_scalable_r, IH; assumption.
Qed.
Lemma change_scalable c f g : scalable f -> scalable g -> scalable (change_family c f g).
Proof.
  intros Hf Hg K a Ha (K1 & K2 & l & w & H1 & H2 & Hw & H). exists (fun x i j => a * K1 x i j), (fun x i j => a * K2 x i j), l, w.
  repeat split; auto. intros x i j. cbv beta zeta. rewrite H. cbv beta zeta. ring.
Qed.
Lemma C_absorbed o f : closed f -> scalable f -> same_family (combine2 KProd (base_family o bC) f) f.
Proof.
  intros Hc Hs K. split.
  - intros (K1 & K2 & (v & Hv & E1) & H2 & H). apply (Hc (fun x i j => v * K2 x i j)); [|apply Hs; assumption].
    intros. rewrite H, E1. reflexivity.
  - intros H. exists (fun _ _ _ => 1), K. split; [exists 1; split; [lra|reflexivity]|]. split; [exact H|]. intros; simpl; ring.
Qed.

(** ** Powers of base families *)
Definition pow (k : kind) (f : family) (n : nat) : family := combine_all k (repeat f n).
Lemma pow_idem k f n : closed f -> same_family (combine2 k f f) f -> (0 < n)%nat -> same_family (pow k f n) f.
Proof.
  intros Hc H Hn. destruct n as [|n]; [lia|]. clear Hn. induction n as [|n IH]; [apply combine_all_one, Hc|].
  change (pow k f (S (S n))) with (combine2 k f (pow k f (S n))). rewrite IH. exact H.
Qed.
Lemma WN_sum o : same_family (combine2 KSum (base_family o bWN) (base_family o bWN)) (base_family o bWN).
Proof.
  intros K. split.
  - intros (K1 & K2 & (v1 & H1 & E1) & (v2 & H2 & E2) & H). exists (v1 + v2). split; [lra|]. intros. rewrite H, E1, E2. simpl.
    destruct (Nat.eqb i j); ring.
  - intros (v & Hv & E). exists (fun x i j => if Nat.eqb i j then v / 2 else 0), (fun x i j => if Nat.eqb i j then v / 2 else 0).
    split; [exists (v / 2); split; [lra|reflexivity]|]. split; [exists (v / 2); split; [lra|reflexivity]|].
    intros. rewrite E. simpl. destruct (Nat.eqb i j); lra.
Qed.
Lemma C_sum o : same_family (combine2 KSum (base_family o bC) (base_family o bC)) (base_family o bC).
Proof.
  intros K. split.
  - intros (K1 & K2 & (v1 & H1 & E1) & (v2 & H2 & E2) & H). exists (v1 + v2). split; [lra|]. intros. rewrite H, E1, E2. reflexivity.
  - intros (v & Hv & E). exists (fun x i j => v / 2), (fun x i j => v / 2).
    split; [exists (v / 2); split; [lra|reflexivity]|]. split; [exists (v / 2); split; [lra|reflexivity]|].
    intros. rewrite E. simpl. lra.
Qed.
Lemma C_prod o : same_family (combine2 KProd (base_family o bC) (base_family o bC)) (base_family o bC).
Proof. apply C_absorbed; [apply base_closed|apply base_scalable; reflexivity]. Qed.
Lemma SE_prod o : same_family (combine2 KProd (base_family o bSE) (base_family o bSE)) (base_family o bSE).
Proof.
  intros K. split.
  - intros (K1 & K2 & (v1 & l1 & H1 & L1 & E1) & (v2 & l2 & H2 & L2 & E2) & H).
    assert (D : 0 < l1 ^ 2 + l2 ^ 2) by nra.
    assert (Hs : 0 < sqrt (l1 ^ 2 + l2 ^ 2)) by (apply sqrt_lt_R0; exact D).
    exists (v1 * v2), (l1 * l2 / sqrt (l1 ^ 2 + l2 ^ 2)). split; [apply Rmult_lt_0_compat; assumption|].
    split; [apply Rdiv_lt_0_compat; [apply Rmult_lt_0_compat; assumption|exact Hs]|].
    intros. rewrite H, E1, E2. cbn [op].
    replace (v1 * exp (- (x i - x j) ^ 2 / (2 * l1 ^ 2)) * (v2 * exp (- (x i - x j) ^ 2 / (2 * l2 ^ 2))))
      with (v1 * v2 * (exp (- (x i - x j) ^ 2 / (2 * l1 ^ 2)) * exp (- (x i - x j) ^ 2 / (2 * l2 ^ 2)))) by ring.
    rewrite <- exp_plus. f_equal. f_equal.
    replace ((l1 * l2 / sqrt (l1 ^ 2 + l2 ^ 2)) ^ 2) with (l1 ^ 2 * l2 ^ 2 / (l1 ^ 2 + l2 ^ 2)).
    + field. repeat split; nra.
    + rewrite <- (pow2_sqrt (l1 ^ 2 + l2 ^ 2)) at 1 by lra. field. lra.
  - intros (v & l & Hv & Hl & E). exists (fun x i j => v * exp (- (x i - x j) ^ 2 / (2 * (l * sqrt 2) ^ 2))), (fun x i j => 1 * exp (- (x i - x j) ^ 2 / (2 * (l * sqrt 2) ^ 2))).
    assert (S2 : 0 < sqrt 2) by (apply sqrt_lt_R0; lra).
    assert (L : 0 < l * sqrt 2) by (apply Rmult_lt_0_compat; assumption).
    split; [exists v, (l * sqrt 2); auto|]. split; [exists 1, (l * sqrt 2); repeat split; auto; lra|].
    intros. rewrite E. cbn [op].
    replace (v * exp (- (x i - x j) ^ 2 / (2 * (l * sqrt 2) ^ 2)) * (1 * exp (- (x i - x j) ^ 2 / (2 * (l * sqrt 2) ^ 2))))
      with (v * (exp (- (x i - x j) ^ 2 / (2 * (l * sqrt 2) ^ 2)) * exp (- (x i - x j) ^ 2 / (2 * (l * sqrt 2) ^ 2)))) by ring.
    rewrite <- exp_plus. f_equal. f_equal.
    replace ((l * sqrt 2) ^ 2) with (l ^ 2 * 2).
    + field. lra.
    + rewrite Rpow_mult_distr, pow2_sqrt by lra. ring.
Qed.

(** WN absorbs factors with constant positive diagonal. *)
Definition constant_diagonal (f : family) : Prop :=
  (exists K, f K) /\ forall K, f K -> exists v, 0 < v /\ forall x i, K x i i = v.
Lemma WN_absorbs o f : constant_diagonal f -> same_family (combine2 KProd f (base_family o bWN)) (base_family o bWN).
Proof.
  intros [(K0 & H0) D] K. split.
  - intros (K1 & K2 & H1 & (v & Hv & E) & H). destruct (D K1 H1) as (u & Hu & Eu). exists (u * v). split; [apply Rmult_lt_0_compat; assumption|].
    intros. rewrite H, E. cbn [op]. destruct (Nat.eqb_spec i j); [subst; rewrite Eu; reflexivity|ring].
  - intros (v & Hv & E). destruct (D K0 H0) as (u & Hu & Eu).
    exists K0, (fun x i j => if Nat.eqb i j then v / u else 0). split; [exact H0|].
    split; [exists (v / u); split; [apply Rdiv_lt_0_compat; assumption|reflexivity]|].
    intros. rewrite E. cbn [op]. destruct (Nat.eqb_spec i j); [subst; rewrite Eu; field; lra|ring].
Qed.
Lemma stationary_diagonal o b : non_stationary b = false -> constant_diagonal (base_family o b).
Proof.
  intros Hs. destruct b; try discriminate; split.
  - exists (fun x i j => if Nat.eqb i j then 1 else 0). exists 1. split; [lra|reflexivity].
  - intros K (v & Hv & E). exists v. split; [exact Hv|]. intros. rewrite E, Nat.eqb_refl. reflexivity.
  - exists (fun x i j => 1). exists 1. split; [lra|reflexivity].
  - intros K (v & Hv & E). exists v. split; [exact Hv|]. intros. apply E.
  - eexists. exists 1, 1. split; [lra|]. split; [lra|]. intros; reflexivity.
  - intros K (v & l & Hv & Hl & E). exists v. split; [exact Hv|]. intros. rewrite E.
    replace (- (x i - x i) ^ 2 / (2 * l ^ 2)) with 0 by (field; lra). rewrite exp_0. ring.
  - eexists. exists 1, 1, 1. split; [lra|]. split; [lra|]. split; [lra|]. intros; reflexivity.
  - intros K (v & p & l & Hv & Hp & Hl & E). exists v. split; [exact Hv|]. intros. rewrite E.
    replace (x i - x i) with 0 by ring. apply per_at_0, Hl.
Qed.
Lemma WN_absorbs_all o fs : (forall f, In f fs -> constant_diagonal f) ->
  same_family (combine2 KProd (combine_all KProd fs) (base_family o bWN)) (base_family o bWN).
Proof.
  induction fs as [|f fs IH]; intros H.
  - apply combine2_unit, base_closed.
  - change (combine_all KProd (f :: fs)) with (combine2 KProd f (combine_all KProd fs)).
    rewrite <- combine2_assoc, IH by (intros; apply H; right; auto). apply WN_absorbs, H. left; auto.
Qed.

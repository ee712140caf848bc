(** The kernels built by to_kernel (C30, C41). *)
From Coq Require Import Reals Lra List Bool Arith ZArith Lia Permutation Morphisms Setoid.
From Verif Require Import Py UtilModel UtilSpec UtilProofs KexModel KexSpec KexProofs KexSimp KexMore OpsModel KexCong KernModel KernSpec KernGrad KernGrad3 KernGrad4 KernProper SemModel SemSpec SemProofs SemSimp SemMore SemOps KexCheck.
Import ListNotations.
Local Open Scope R_scope.

Lemma computes_kern_unique k K K' : computes_kern k K -> computes_kern k K' -> forall x i j, K x i j = K' x i j.
Proof.
  intros H H' x i j. set (n := S (Nat.max i j)).
  apply (computes_ext _ n n (K x) (K' x) (H n x) (H' n x)); unfold n; lia.
Qed.
Lemma computes_kern_ext k (K K' : kern) : (forall x i j, K x i j = K' x i j) -> computes_kern k K -> computes_kern k K'.
Proof.
  intros E H n x. destruct (H n x) as (A & EA & HA). exists A. split; [exact EA|]. eapply array_ext; [exact HA|]. intros; apply E.
Qed.
Lemma add_computes k1 k2 (K1 K2 : kern) : computes_kern k1 K1 -> computes_kern k2 K2 -> computes_kern (add_kernel k1 k2) (fun x i j => K1 x i j + K2 x i j).
Proof.
  intros H1 H2 n x. destruct (H1 n x) as (A1 & E1 & C1). destruct (H2 n x) as (A2 & E2 & C2).
  destruct (array_ew Rplus A1 A2 n n _ _ C1 C2) as (B & E & HB). exists B. cbn [add_kernel kK]. rewrite E1, E2. auto.
Qed.
Lemma mul_computes k1 k2 (K1 K2 : kern) : computes_kern k1 K1 -> computes_kern k2 K2 -> computes_kern (prod_kernel k1 k2) (fun x i j => K1 x i j * K2 x i j).
Proof.
  intros H1 H2 n x. destruct (H1 n x) as (A1 & E1 & C1). destruct (H2 n x) as (A2 & E2 & C2).
  destruct (array_ew Rmult A1 A2 n n _ _ C1 C2) as (B & E & HB). exists B. cbn [prod_kernel kK]. rewrite E1, E2. auto.
Qed.
Lemma change_computes c k1 k2 (K1 K2 : kern) : computes_kern k1 K1 -> computes_kern k2 K2 ->
  computes_kern (change_kernel c k1 k2) (fun x i j => K1 x i j * (change_phi c true (x i) * change_phi c true (x j)) + K2 x i j * (change_phi c false (x i) * change_phi c false (x j))).
Proof.
  intros H1 H2 n x. destruct (change_entries c k1 k2 n x _ _ (H1 n x) (H2 n x)) as (A & E & HA). exists A. split; [exact E|].
  eapply array_ext; [exact HA|]. intros. cbv beta. unfold change_entry. ring.
Qed.

Section Kernel.
  Variable offset : bool.
  Notation bf := (base_family offset).
  Notation kf := (kernel_family offset).
  Notation cov := (covariances offset).

  (** Base kernels with the variance fixed at 1. *)
  Definition unit_family (b : base) : family := kf (GBase b false).

  Lemma white_computes v : computes_kern (white_kernel v) (fun x i j => if Nat.eqb i j then v else 0).
  Proof. intros n x. eexists; split; [reflexivity|repeat split; intros; reflexivity]. Qed.
  Lemma bias_computes v : computes_kern (bias_kernel v) (fun x i j => v).
  Proof. intros n x. eexists; split; [reflexivity|repeat split; intros; reflexivity]. Qed.
  Lemma lin_computes v o : computes_kern (if offset then lin_kernel v o else lin0_kernel v) (fun x i j => v * ((x i - (if offset then o else 0)) * (x j - (if offset then o else 0)))).
  Proof.
    destruct offset; intros n x.
    - destruct (lin_entries v o n x None) as (A & E & HA). exists A. split; [exact E|]. eapply array_ext; [exact HA|]. intros; cbv beta; ring.
    - destruct (lin0_entries v n x None) as (A & E & HA). exists A. split; [exact E|]. eapply array_ext; [exact HA|]. intros; cbv beta; ring.
  Qed.
  Lemma rbf_computes v l : computes_kern (rbf_kernel v l) (fun x i j => v * exp (- (x i - x j) ^ 2 / (2 * l ^ 2))).
  Proof. intros n x. apply rbf_entries. Qed.
  Lemma per_computes v p l : computes_kern (per_kernel bessel0 bessel1 v p l) (fun x i j => per_entry bessel0 v p l (x i - x j)).
  Proof. intros n x. apply (per_entries bessel0 v p l n x None). Qed.

  Lemma base_kernel b : is_sigmoid b = false -> same_family (kf (GBase b true)) (bf b).
  Proof.
    intros Hs K. split.
    - intros (k & I & HK). inversion I; subst; match goal with H : variance_value _ _ |- _ => destruct H as [Hv _] end.
      + exists v. split; [exact Hv|]. apply (computes_kern_unique _ _ _ HK (white_computes v)).
      + exists v. split; [exact Hv|]. apply (computes_kern_unique _ _ _ HK (bias_computes v)).
      + exists v, (if offset then o else 0). split; [exact Hv|]. split; [destruct offset; [discriminate|reflexivity]|]. apply (computes_kern_unique _ _ _ HK (lin_computes v o)).
      + exists v, l. split; [exact Hv|]. split; [assumption|]. apply (computes_kern_unique _ _ _ HK (rbf_computes v l)).
      + exists v, p, l. split; [exact Hv|]. split; [assumption|]. split; [assumption|]. apply (computes_kern_unique _ _ _ HK (per_computes v p l)).
    - assert (V : forall v, 0 < v -> variance_value true v) by (intros; split; [assumption|discriminate]).
      destruct b; try discriminate; cbn [base_family].
      + intros (v & Hv & E). exists (white_kernel v). split; [constructor; auto|]. eapply computes_kern_ext; [|apply white_computes]. intros; symmetry; apply E.
      + intros (v & Hv & E). exists (bias_kernel v). split; [constructor; auto|]. eapply computes_kern_ext; [|apply bias_computes]. intros; symmetry; apply E.
      + intros (v & o & Hv & Ho & E). exists (if offset then lin_kernel v o else lin0_kernel v). split; [constructor; auto|].
        eapply computes_kern_ext; [|apply lin_computes]. intros. rewrite E. cbv beta. destruct offset; [reflexivity|]. rewrite Ho by reflexivity. reflexivity.
      + intros (v & l & Hv & Hl & E). exists (rbf_kernel v l). split; [constructor; auto|]. eapply computes_kern_ext; [|apply rbf_computes]. intros; symmetry; apply E.
      + intros (v & p & l & Hv & Hp & Hl & E). exists (per_kernel bessel0 bessel1 v p l). split; [constructor; auto|]. eapply computes_kern_ext; [|apply per_computes]. intros; symmetry; apply E.
  Qed.
  Lemma per_scale v p l d : per_entry bessel0 v p l d = v * per_entry bessel0 1 p l d.
  Proof. unfold per_entry. repeat match goal with |- context [if ?c then _ else _] => destruct c end; unfold Rdiv; ring. Qed.
  Lemma base_unit b : is_sigmoid b = false -> same_family (bf b) (combine2 KProd (bf bC) (unit_family b)).
  Proof.
    intros Hs. assert (V1 : variance_value false 1) by (split; [lra|reflexivity]).
    assert (V1' : forall v, variance_value false v -> v = 1) by (intros v [_ H]; apply H; reflexivity).
    intros K. split.
    - destruct b; try discriminate; cbn [base_family].
      + intros (v & Hv & E). exists (fun _ _ _ => v), (fun x i j => if Nat.eqb i j then 1 else 0). split; [exists v; auto|].
        split; [exists (white_kernel 1); split; [constructor; exact V1|apply white_computes]|]. intros. rewrite E. cbn. destruct (Nat.eqb i j); ring.
      + intros (v & Hv & E). exists (fun _ _ _ => v), (fun x i j => 1). split; [exists v; auto|].
        split; [exists (bias_kernel 1); split; [constructor; exact V1|apply bias_computes]|]. intros. rewrite E. cbn. ring.
      + intros (v & o & Hv & Ho & E). exists (fun _ _ _ => v), (fun x i j => 1 * ((x i - (if offset then o else 0)) * (x j - (if offset then o else 0)))).
        split; [exists v; auto|]. split; [exists (if offset then lin_kernel 1 o else lin0_kernel 1); split; [constructor; exact V1|apply lin_computes]|].
        intros. rewrite E. cbn. destruct offset; [ring|]. rewrite Ho by reflexivity. ring.
      + intros (v & l & Hv & Hl & E). exists (fun _ _ _ => v), (fun x i j => 1 * exp (- (x i - x j) ^ 2 / (2 * l ^ 2))). split; [exists v; auto|].
        split; [exists (rbf_kernel 1 l); split; [constructor; [exact V1|exact Hl]|apply rbf_computes]|]. intros. rewrite E. cbn [op]. ring.
      + intros (v & p & l & Hv & Hp & Hl & E). exists (fun _ _ _ => v), (fun x i j => per_entry bessel0 1 p l (x i - x j)). split; [exists v; auto|].
        split; [exists (per_kernel bessel0 bessel1 1 p l); split; [constructor; auto|apply per_computes]|]. intros. rewrite E, per_scale. reflexivity.
    - intros (K1 & K2 & (v & Hv & E1) & (k & I & HK) & E). unfold unit_family in I. inversion I; subst; match goal with H : variance_value _ _ |- _ => apply V1' in H; subst end.
      + exists v. split; [exact Hv|]. intros. rewrite E, E1, (computes_kern_unique _ _ _ HK (white_computes 1)). cbn. destruct (Nat.eqb i j); ring.
      + exists v. split; [exact Hv|]. intros. rewrite E, E1, (computes_kern_unique _ _ _ HK (bias_computes 1)). cbn. ring.
      + exists v, (if offset then o else 0). split; [exact Hv|]. split; [destruct offset; [discriminate|reflexivity]|]. intros. rewrite E, E1, (computes_kern_unique _ _ _ HK (lin_computes 1 o)). cbn. ring.
      + exists v, l. split; [exact Hv|]. split; [assumption|]. intros. rewrite E, E1, (computes_kern_unique _ _ _ HK (rbf_computes 1 l)). cbn [op]. ring.
      + exists v, p, l. split; [exact Hv|]. split; [assumption|]. split; [assumption|]. intros. rewrite E, E1, (computes_kern_unique _ _ _ HK (per_computes 1 p l)), (per_scale v). reflexivity.
  Qed.

  Lemma instance_computes g k : instance offset g k -> exists K, computes_kern k K.
  Proof.
    induction 1.
    - eexists; apply white_computes.
    - eexists; apply bias_computes.
    - eexists; apply lin_computes.
    - eexists; apply rbf_computes.
    - eexists; apply per_computes.
    - destruct IHinstance1 as (K1' & H1), IHinstance2 as (K2' & H2). eexists; apply add_computes; eassumption.
    - destruct IHinstance1 as (K1' & H1), IHinstance2 as (K2' & H2). eexists; apply mul_computes; eassumption.
    - destruct IHinstance1 as (K1' & H1), IHinstance2 as (K2' & H2). eexists; apply change_computes; eassumption.
    - destruct IHinstance1 as (K1' & H1'), IHinstance2 as (K2' & H2'). eexists; apply change_computes; eassumption.
  Qed.
  Definition gop (k : kind) : gkern -> gkern -> gkern := match k with KSum => GAdd | KProd => GMul end.
  Lemma kf_op k a b : same_family (kf (gop k a b)) (combine2 k (kf a) (kf b)).
  Proof.
    intros K. split.
    - intros (kk & I & HK). destruct k; cbn [gop] in I; inversion I as [| | | | |? ? ? ? I1 I2|? ? ? ? I1 I2| |]; subst; clear I;
        destruct (instance_computes _ _ I1) as (L1 & H1), (instance_computes _ _ I2) as (L2 & H2); exists L1, L2;
        (split; [eexists; eauto|]); (split; [eexists; eauto|]).
      + apply (computes_kern_unique _ _ _ HK (add_computes _ _ _ _ H1 H2)).
      + apply (computes_kern_unique _ _ _ HK (mul_computes _ _ _ _ H1 H2)).
    - intros (L1 & L2 & (k1 & I1 & H1) & (k2 & I2 & H2) & E). destruct k; cbn [gop].
      + exists (add_kernel k1 k2). split; [constructor; assumption|]. eapply computes_kern_ext; [|apply add_computes; eassumption]. intros; symmetry; apply E.
      + exists (prod_kernel k1 k2). split; [constructor; assumption|]. eapply computes_kern_ext; [|apply mul_computes; eassumption]. intros; symmetry; apply E.
  Qed.
  Lemma kf_change c a b : same_family (kf (GChange c a b)) (change_family c (kf a) (kf b)).
  Proof.
    intros K. split.
    - intros (kk & I & HK). inversion I as [| | | | | | |? ? ? ? l I1 I2|? ? ? ? l w Hw I1 I2]; subst; clear I;
        destruct (instance_computes _ _ I1) as (L1 & H1), (instance_computes _ _ I2) as (L2 & H2).
      + exists L1, L2, l, 1. split; [eexists; eauto|]. split; [eexists; eauto|]. split; [lra|]. apply (computes_kern_unique _ _ _ HK (change_computes _ _ _ _ _ H1 H2)).
      + exists L1, L2, l, w. split; [eexists; eauto|]. split; [eexists; eauto|]. split; [exact Hw|]. apply (computes_kern_unique _ _ _ HK (change_computes _ _ _ _ _ H1 H2)).
    - intros (L1 & L2 & l & w & (k1 & I1 & H1) & (k2 & I2 & H2) & Hw & E). destruct c.
      + exists (change_kernel (ChangePoint l (1 / 2)) k1 k2). split; [constructor; assumption|]. eapply computes_kern_ext; [|apply change_computes; eassumption]. intros; symmetry; apply E.
      + exists (change_kernel (ChangeWindow l (1 / 2) w) k1 k2). split; [constructor; assumption|]. eapply computes_kern_ext; [|apply change_computes; eassumption]. intros; symmetry; apply E.
  Qed.
  Lemma kf_closed g : closed (kf g).
  Proof. intros K K' E (k & I & H). exists k. split; [exact I|]. eapply computes_kern_ext; eauto. Qed.
  Lemma kf_fold k t x : same_family (kf (fold_left (gop k) t x)) (combine_all k (map kf (x :: t))).
  Proof.
    revert x. induction t as [|y t IH]; intros x.
    - symmetry. apply (combine_all_one k (kf x)), kf_closed.
    - cbn [fold_left]. rewrite IH. cbn [map]. change (combine_all k (kf x :: kf y :: map kf t)) with (combine2 k (kf x) (combine2 k (kf y) (combine_all k (map kf t)))).
      rewrite combine2_assoc, <- kf_op. reflexivity.
  Qed.
  Lemma kf_reduce k l : l <> [] -> exists g, reduce1 (gop k) l = Ok g /\ same_family (kf g) (combine_all k (map kf l)).
  Proof. destruct l as [|x t]; [congruence|]. intros _. exists (fold_left (gop k) t x). split; [reflexivity|apply kf_fold]. Qed.

  Lemma insert_sorted_perm {A} (le : A -> A -> bool) x l : Permutation (insert_sorted le x l) (x :: l).
  Proof.
    induction l as [|y t IH]; simpl; [reflexivity|]. destruct (le x y); [reflexivity|]. rewrite IH. constructor.
  Qed.
  Lemma order_perm l : Permutation (order_base_kerns l) l.
  Proof. unfold order_base_kerns. induction l as [|x t IH]; simpl; [constructor|]. rewrite insert_sorted_perm, IH. reflexivity. Qed.

  Lemma mapM_base l : (forall b, In b l -> is_sigmoid b = false) -> mapM base_str_to_ker l = Ok (map (fun b => GBase b true) l).
  Proof.
    induction l as [|b t IH]; intros H; simpl; [reflexivity|]. unfold base_str_to_ker at 1. rewrite (H b (or_introl eq_refl)). cbn [bind].
    rewrite IH by (intros; apply H; right; auto). reflexivity.
  Qed.
  Lemma kf_bases l : (forall b, In b l -> is_sigmoid b = false) -> forall k, same_family (combine_all k (map kf (map (fun b => GBase b true) l))) (combine_all k (map bf l)).
  Proof.
    intros H k. apply combine_all_proper. rewrite map_map. induction l; simpl; constructor; [apply base_kernel, H; left; auto|apply IHl; intros; apply H; right; auto].
  Qed.
  Lemma pow_C n f : closed f -> scalable f -> same_family (combine2 KProd (pow KProd (bf bC) n) f) f.
  Proof.
    intros Hc Hs. induction n as [|n IH]; [apply (combine2_unit KProd f Hc)|].
    change (pow KProd (bf bC) (S n)) with (combine2 KProd (bf bC) (pow KProd (bf bC) n)). rewrite <- combine2_assoc, IH. apply C_absorbed; assumption.
  Qed.
  Lemma unit_absorb f l : closed f -> scalable f -> (forall b, In b l -> is_sigmoid b = false) ->
    same_family (combine2 KProd f (combine_all KProd (map unit_family l))) (combine2 KProd f (combine_all KProd (map bf l))).
  Proof.
    intros Hc Hs Hl. assert (E : same_family (combine_all KProd (map bf l)) (combine2 KProd (pow KProd (bf bC) (length l)) (combine_all KProd (map unit_family l)))).
    { clear - Hl. induction l as [|b t IH]; cbn [map length].
      - change (same_family (combine_all KProd []) (combine2 KProd (combine_all KProd []) (combine_all KProd []))). rewrite (combine2_unit KProd); [reflexivity|apply combine_all_closed].
      - change (combine_all KProd (bf b :: map bf t)) with (combine2 KProd (bf b) (combine_all KProd (map bf t))).
        change (combine_all KProd (unit_family b :: map unit_family t)) with (combine2 KProd (unit_family b) (combine_all KProd (map unit_family t))).
        change (pow KProd (bf bC) (S (length t))) with (combine2 KProd (bf bC) (pow KProd (bf bC) (length t))).
        rewrite IH by (intros; apply Hl; right; auto). rewrite base_unit by (apply Hl; left; auto). rewrite <- !combine2_assoc.
        rewrite (combine2_swap KProd (unit_family b)). reflexivity. }
    rewrite E, combine2_assoc. rewrite (combine2_comm KProd f (pow KProd (bf bC) (length l))). rewrite (pow_C (length l) f Hc Hs). reflexivity.
  Qed.
  Lemma kf_product l : (forall b, In b l -> is_sigmoid b = false) ->
    same_family (combine_all KProd (map kf (keep_first_variance (map (fun b => GBase b true) l)))) (combine_all KProd (map bf l)).
  Proof.
    intros H. destruct l as [|b t]; [reflexivity|]. cbn [map keep_first_variance]. rewrite !map_map.
    transitivity (combine2 KProd (kf (GBase b true)) (combine_all KProd (map unit_family t))); [reflexivity|].
    transitivity (combine2 KProd (bf b) (combine_all KProd (map bf t))); [|reflexivity].
    rewrite base_kernel by (apply H; left; auto). apply unit_absorb; [apply base_closed|apply base_scalable, H; left; auto|intros; apply H; right; auto].
  Qed.
  Lemma seqM_map (cts : list kex) : (forall c, In c cts -> exists g, to_kernel c = Ok g /\ same_family (kf g) (cov c)) ->
    exists gs, seqM (map to_kernel cts) = Ok gs /\ length gs = length cts /\ (forall k, same_family (combine_all k (map kf gs)) (combine_all k (map cov cts))).
  Proof.
    induction cts as [|c t IH]; intros H.
    - exists []. split; [reflexivity|]. split; [reflexivity|]. intros; reflexivity.
    - destruct (H c (or_introl eq_refl)) as (g & Eg & Fg). destruct IH as (gs & Egs & L & Fs); [intros; apply H; right; auto|].
      exists (g :: gs). unfold seqM in *. simpl. rewrite Eg. cbn [bind]. rewrite Egs. cbn [bind]. split; [reflexivity|]. split; [simpl; congruence|].
      intros k. change (combine_all k (map kf (g :: gs))) with (combine2 k (kf g) (combine_all k (map kf gs))).
      change (combine_all k (map cov (c :: t))) with (combine2 k (cov c) (combine_all k (map cov t))). rewrite Fg, (Fs k). reflexivity.
  Qed.

  Lemma to_kernel_comm k bts cts : to_kernel (Comm k bts cts) =
    (do bs <- mapM base_str_to_ker (order_base_kerns (celements bts)); do cs <- seqM (map to_kernel cts);
     reduce1 (gop k) ((match k with KSum => bs | KProd => keep_first_variance bs end) ++ cs)).
  Proof. destruct k; reflexivity. Qed.
  Lemma to_kernel_family e : wf e -> non_empty e -> sigmoid_free e -> exists g, to_kernel e = Ok g /\ same_family (kf g) (cov e).
  Proof.
    induction e using kex_ind'; intros W N S.
    - pose proof W as W0. apply wf_comm in W as [Wb Wc]. apply non_empty_comm in N as [T Nk]. apply sigmoid_free_comm in S as [Sb Sk].
      destruct (seqM_map cts) as (gs & Egs & L & Fs); [intros c Hc; apply H; auto|].
      set (L0 := order_base_kerns (celements bts)).
      assert (PL : Permutation L0 (bases_in bts)) by (unfold L0; rewrite order_perm; symmetry; apply bases_in_elements, wf_nodup, Wb).
      assert (SL : forall b, In b L0 -> is_sigmoid b = false).
      { intros b Hb. apply (Permutation_in b PL), in_bases_in in Hb. destruct (is_sigmoid b) eqn:E; [|reflexivity]. destruct (Sb b E Hb). }
      rewrite to_kernel_comm. fold L0. rewrite (mapM_base L0 SL). cbn [bind]. rewrite Egs. cbn [bind].
      set (bs := match k with KSum => map (fun b => GBase b true) L0 | KProd => keep_first_variance (map (fun b => GBase b true) L0) end).
      assert (Fb : same_family (combine_all k (map kf bs)) (combine_all k (map bf (bases_in bts)))).
      { rewrite <- (combine_all_perm k _ _ (Permutation_map bf PL)). unfold bs. destruct k; [apply kf_bases, SL|apply kf_product, SL]. }
      destruct (kf_reduce k (bs ++ gs)) as (g & Eg & Fg).
      { intros E. apply app_eq_nil in E as [E1 E2]. subst gs. destruct cts; [|discriminate].
        assert (L0 = []) as EL by (unfold bs in E1; destruct k, L0; try discriminate; reflexivity). rewrite EL in PL. apply Permutation_nil in PL.
        rewrite terms_csum in T by (apply wf_nodup, Wb). cbn [length] in T.
        assert (HN : exists b, (0 < cget bts b)%Z) by (apply pos_some; [apply wf_nodup, Wb|apply wf_nn, Wb|lia]).
        destruct HN as (b & Hb). apply in_bases_in in Hb. rewrite PL in Hb. destruct Hb. }
      exists g. split; [exact Eg|]. rewrite Fg, map_app, combine_all_app, Fb, (Fs k). rewrite cov_comm. reflexivity.
    - rewrite wf_change in W. rewrite non_empty_change in N. apply sigmoid_free_change in S as [S1 S2].
      assert (HB : forall br : branch, (forall b, is_sigmoid b = true -> br <> inl b) -> (forall x, br = inr x -> exists g, to_kernel x = Ok g /\ same_family (kf g) (cov x)) ->
        exists g, match br with inl b => base_str_to_ker b | inr x => to_kernel x end = Ok g /\ same_family (kf g) (branch_covariances offset br)).
      { intros [b|x] Hb Hx; [|apply Hx; reflexivity]. destruct (is_sigmoid b) eqn:E; [destruct (Hb b E eq_refl)|].
        exists (GBase b true). unfold base_str_to_ker. rewrite E. split; [reflexivity|]. apply base_kernel, E. }
      destruct (HB l) as (gl & El & Fl); [intros b Hb; apply (S1 b Hb)|intros x ->; apply H; auto|].
      destruct (HB r) as (gr & Er & Fr); [intros b Hb; apply (S1 b Hb)|intros x ->; apply H0; auto|].
      exists (GChange c gl gr). cbn [to_kernel]. rewrite El, Er. split; [reflexivity|]. rewrite kf_change. apply change_family_proper; assumption.
  Qed.

  (** ** Number of variances *)
  Definition total_variances (gs : list gkern) : nat := fold_right (fun g n => free_variances g + n)%nat 0%nat gs.
  Lemma variances_fold k t x : free_variances (fold_left (gop k) t x) = total_variances (x :: t).
  Proof.
    revert x. induction t as [|y t IH]; intros x; cbn [fold_left].
    - simpl. lia.
    - rewrite IH. simpl. destruct k; simpl; lia.
  Qed.
  Lemma mapM_base_inv l gs : mapM base_str_to_ker l = Ok gs -> gs = map (fun b => GBase b true) l.
  Proof.
    revert gs. induction l as [|b t IH]; intros gs; simpl; [intros [= <-]; reflexivity|]. unfold base_str_to_ker at 1. destruct (is_sigmoid b); [discriminate|]. cbn [bind].
    destruct (mapM base_str_to_ker t) as [ys|]; [|discriminate]. cbn [bind]. intros [= <-]. rewrite (IH ys eq_refl). reflexivity.
  Qed.
  Lemma seqM_inv (cts : list kex) gs : seqM (map to_kernel cts) = Ok gs -> Forall2 (fun c g => to_kernel c = Ok g) cts gs.
  Proof.
    unfold seqM. revert gs. induction cts as [|c t IH]; intros gs; simpl; [intros [= <-]; constructor|].
    destruct (to_kernel c) as [g|] eqn:E; [|discriminate]. cbn [bind]. destruct (mapM (fun x => x) (map to_kernel t)) as [ys|]; [|discriminate]. cbn [bind].
    intros [= <-]. constructor; [exact E|apply IH; reflexivity].
  Qed.
  Lemma product_one_variance bts cts g : wf_counter bts -> (exists b, 0 < cget bts b)%Z -> to_kernel (Comm KProd bts cts) = Ok g ->
    exists gs, Forall2 (fun c gc => to_kernel c = Ok gc) cts gs /\ free_variances g = S (total_variances gs).
  Proof.
    intros W (b & Hb). rewrite to_kernel_comm. destruct (mapM _ _) as [bs|] eqn:Eb; [|discriminate]. cbn [bind].
    destruct (seqM _) as [gs|] eqn:Eg; [|discriminate]. cbn [bind]. intros HR. exists gs. split; [apply seqM_inv, Eg|].
    apply mapM_base_inv in Eb. set (L0 := order_base_kerns (celements bts)) in *.
    assert (HL : In b L0) by (unfold L0; apply (Permutation_in b (Permutation_sym (order_perm _))); apply in_celements; [apply wf_nodup, W|exact Hb]).
    destruct L0 as [|b0 t]; [destruct HL|]. subst bs. cbn [map keep_first_variance app reduce1] in HR.
    apply (f_equal (fun r => match r with Ok a => a | Raise _ => g end)) in HR. cbv beta iota in HR. rewrite <- HR, variances_fold. cbn [total_variances fold_right free_variances]. rewrite map_map. cbn [unlink_variance].
    clear. simpl. f_equal. unfold total_variances. induction t as [|y t IH]; simpl; [reflexivity|exact IH].
  Qed.


  (** ** Every kernel object of an expression without PER is a valid covariance *)
  Fixpoint gbases (g : gkern) : list base :=
    match g with GBase b _ => [b] | GAdd a b | GMul a b | GChange _ a b => gbases a ++ gbases b end.
  Lemma gbases_fold k t x b : In b (gbases (fold_left (gop k) t x)) -> exists g, In g (x :: t) /\ In b (gbases g).
  Proof.
    revert x. induction t as [|y t IH]; intros x Hin; cbn [fold_left] in Hin; [exists x; split; [left; auto|exact Hin]|].
    apply IH in Hin as (g & Hg & Hin). destruct Hg as [<-|Hg]; [|exists g; split; [right; right; auto|exact Hin]].
    assert (E : gbases (gop k x y) = gbases x ++ gbases y) by (destruct k; reflexivity). rewrite E in Hin. apply in_app_iff in Hin as [Hin|Hin]; [exists x|exists y]; split; simpl; auto.
  Qed.
  Lemma keep_first_bases l g b : In g (keep_first_variance (map (fun b => GBase b true) l)) -> In b (gbases g) -> In b l.
  Proof.
    destruct l as [|y t]; simpl; [tauto|]. intros [<-|Hg] Hb; [left; destruct Hb as [|[]]; auto|]. right.
    rewrite map_map in Hg. apply in_map_iff in Hg as (z & <- & Hz). simpl in Hb. destruct Hb as [<-|[]]. exact Hz.
  Qed.
  Lemma to_kernel_bases e : wf e -> forall g b, to_kernel e = Ok g -> In b (gbases g) -> occurs b e.
  Proof.
    induction e using kex_ind'; intros W g b Eg Hb.
    - rewrite to_kernel_comm in Eg. destruct (mapM _ _) as [bs|] eqn:Eb; [|discriminate]. cbn [bind] in Eg.
      destruct (seqM _) as [gs|] eqn:Es; [|discriminate]. cbn [bind] in Eg. apply mapM_base_inv in Eb. apply seqM_inv in Es. apply wf_comm in W as [Wb Wc].
      destruct ((match k with KSum => bs | KProd => keep_first_variance bs end) ++ gs) as [|x t] eqn:El; [discriminate|].
      apply (f_equal (fun r => match r with Ok a => a | Raise _ => g end)) in Eg. cbv beta iota in Eg. cbn [reduce1] in Eg. rewrite <- Eg in Hb.
      apply gbases_fold in Hb as (g' & Hg' & Hb). rewrite <- El in Hg'. apply in_app_iff in Hg' as [Hg'|Hg'].
      + left. exists k, bts, cts. split; [constructor|].
        assert (HL : In b (order_base_kerns (celements bts))).
        { subst bs. destruct k; [|eapply keep_first_bases; eauto]. apply in_map_iff in Hg' as (z & <- & Hz). destruct Hb as [<-|[]]. exact Hz. }
        apply (Permutation_in b (order_perm _)) in HL. apply in_celements in HL; [exact HL|apply wf_nodup, Wb].
      + assert (HC : exists c, In c cts /\ to_kernel c = Ok g').
        { clear - Es Hg'. induction Es; [destruct Hg'|]. destruct Hg' as [<-|Hg']; [eauto using in_eq|]. destruct (IHEs Hg') as (c & Hc & Ec). exists c. split; [right; exact Hc|exact Ec]. }
        destruct HC as (c & Hc & Ec). destruct (H c Hc (Wc c Hc) g' b Ec Hb) as [(k' & b' & c' & Hn & Hp)|(k' & l & r & Hn & Hp)].
        * left. exists k', b', c'. split; [eapply node_comm; eauto|exact Hp].
        * right. exists k', l, r. split; [eapply node_comm; eauto|exact Hp].
    - rewrite wf_change in W. cbn [to_kernel] in Eg.
      destruct (match l with inl b => base_str_to_ker b | inr x => to_kernel x end) as [gl|] eqn:El; [|discriminate]. cbn [bind] in Eg.
      destruct (match r with inl b => base_str_to_ker b | inr x => to_kernel x end) as [gr|] eqn:Er; [|discriminate]. cbn [bind] in Eg. injection Eg as <-.
      cbn [gbases] in Hb. apply in_app_iff in Hb as [Hb|Hb].
      + destruct l as [y|y].
        * unfold base_str_to_ker in El. destruct (is_sigmoid y); [discriminate|]. injection El as <-. destruct Hb as [<-|[]]. right. exists c, (inl y), r. split; [constructor|auto].
        * destruct (H y eq_refl (W y (or_introl eq_refl)) gl b El Hb) as [(k' & b' & c' & Hn & Hp)|(k' & l' & r' & Hn & Hp)].
          -- left. exists k', b', c'. split; [apply node_left; exact Hn|exact Hp].
          -- right. exists k', l', r'. split; [apply node_left; exact Hn|exact Hp].
      + destruct r as [y|y].
        * unfold base_str_to_ker in Er. destruct (is_sigmoid y); [discriminate|]. injection Er as <-. destruct Hb as [<-|[]]. right. exists c, l, (inl y). split; [constructor|auto].
        * destruct (H0 y eq_refl (W y (or_intror eq_refl)) gr b Er Hb) as [(k' & b' & c' & Hn & Hp)|(k' & l' & r' & Hn & Hp)].
          -- left. exists k', b', c'. split; [apply node_right; exact Hn|exact Hp].
          -- right. exists k', l', r'. split; [apply node_right; exact Hn|exact Hp].
  Qed.
  Lemma instance_built g k : instance offset g k -> ~ In bPER (gbases g) -> built_kernel k.
  Proof.
    induction 1; cbn [gbases]; intros HP; try match goal with H : variance_value _ _ |- _ => destruct H as [Hv _] end.
    - constructor; lra.
    - constructor; lra.
    - destruct offset; constructor; lra.
    - constructor; lra.
    - exfalso. apply HP. left; reflexivity.
    - rewrite in_app_iff in HP. constructor; [apply IHinstance1|apply IHinstance2]; tauto.
    - rewrite in_app_iff in HP. constructor; [apply IHinstance1|apply IHinstance2]; tauto.
    - rewrite in_app_iff in HP. constructor; [apply IHinstance1|apply IHinstance2]; tauto.
    - rewrite in_app_iff in HP. constructor; [apply IHinstance1|apply IHinstance2]; tauto.
  Qed.
  Lemma expression_proper e g k : wf e -> ~ occurs bPER e -> to_kernel e = Ok g -> instance offset g k -> proper k.
  Proof. intros W HP Eg I. apply built_proper. eapply instance_built; [exact I|]. intros Hin. apply HP. eapply to_kernel_bases; eauto. Qed.
End Kernel.

Lemma lin_c_witness : exists bts, wf_counter bts /\ sigmoid_free (Comm KSum bts []) /\
  (exists K, covariances true (Comm KSum bts []) K) /\
  forall K, covariances true (mk true KSum bts []) K -> ~ covariances true (Comm KSum bts []) K.
Proof.
  exists [(bLIN, 1%Z); (bC, 1%Z)]. destruct (okb_sound (Comm KSum [(bLIN, 1%Z); (bC, 1%Z)] []) eq_refl) as (W & _ & S).
  split; [apply wf_comm in W; apply W|]. split; [exact S|]. split; [|exact lin_c_disjoint].
  exists (fun x i j => 1 + (1 * ((x i - 0) * (x j - 0)) + 0)). exists (fun _ _ _ => 1), (fun x i j => 1 * ((x i - 0) * (x j - 0)) + 0).
  split; [exists 1; split; [lra|reflexivity]|]. split; [|reflexivity]. exists (fun x i j => 1 * ((x i - 0) * (x j - 0))), (fun _ _ _ => 0).
  split; [exists 1, 0; split; [lra|split; reflexivity]|]. split; [intros x i j; reflexivity|reflexivity].
Qed.
Lemma empty_product_witness : exists cts, (forall c, In c cts -> built true c /\ non_empty c) /\
  ~ same_family (covariances true (mkl true KProd [] cts)) (covariances true (Comm KProd [] cts)).
Proof.
  exists [Comm KProd [(bC, 1%Z)] []]. split; [|exact empty_product_differs]. intros c [<-|[]]. split; [apply normalb_built; reflexivity|].
  apply okb_sound. reflexivity.
Qed.
Lemma add_lin_c : exists a b, operand true a /\ operand true b /\
  exists K, combine2 KSum (branch_covariances true a) (branch_covariances true b) K /\ ~ covariances true (add true a b) K.
Proof.
  exists (inl bLIN), (inl bC). split; [reflexivity|]. split; [reflexivity|].
  exists (fun x i j => (1 * ((x i - 0) * (x j - 0))) + 1). split.
  - exists (fun x i j => 1 * ((x i - 0) * (x j - 0))), (fun _ _ _ => 1). split; [exists 1, 0; split; [lra|split; reflexivity]|]. split; [exists 1; split; [lra|reflexivity]|reflexivity].
  - assert (E : add true (inl bLIN) (inl bC) = Comm KSum [(bLIN, 1%Z)] []) by reflexivity. rewrite E.
    change (covariances true (Comm KSum [(bLIN, 1%Z)] [])) with (combine_all KSum [base_family true bLIN]).
    intros (K1 & K2 & (v & o & Hv & _ & E1) & H2 & H). specialize (H (fun _ => o) 0%nat 0%nat). rewrite E1, H2 in H. cbn [op unit] in H.
    assert (v * ((o - o) * (o - o)) = 0) by ring. pose proof (Rle_0_sqr (o - 0)) as Q. unfold Rsqr in Q. lra.
Qed.
Lemma multiply_family offset a b : operand offset a -> operand offset b -> (forall x, a = inr x \/ b = inr x -> normal offset x) ->
  same_family (covariances offset (multiply offset a b)) (combine2 KProd (branch_covariances offset a) (branch_covariances offset b)).
Proof. intros Oa Ob H. apply (operate_family offset KProd a b Oa Ob). apply (multiply_flag offset a b H). Qed.
Lemma operations_commute offset a b : (forall x, a = inr x \/ b = inr x -> wf x) ->
  keq (add offset a b) (add offset b a) = true /\ keq (multiply offset a b) (multiply offset b a) = true.
Proof.
  intros W. assert (Wa : wf_branch a) by (intros x ->; auto). assert (Wb : wf_branch b) by (intros x ->; auto).
  split; [apply (operate_comm offset KSum a b Wa Wb)|apply (operate_comm offset KProd a b Wa Wb)].
Qed.
Definition ex_nonper : kex := Comm KProd [(bLIN, 1%Z)] [Change CW (inl bWN) (inr (Comm KSum [(bLIN, 1%Z); (bSE, 1%Z)] []))].
Lemma ex_nonper_ok : exists g k, to_kernel ex_nonper = Ok g /\ instance true g k /\ wf ex_nonper /\ ~ occurs bPER ex_nonper.
Proof.
  eexists. eexists. split; [reflexivity|]. split.
  - eapply in_mul; [apply (in_LIN true true 2 5); split; [lra|discriminate]|]. eapply (in_CW true _ _ _ _ 3 4); [lra|apply (in_WN true true 1); split; [lra|discriminate]|].
    eapply in_add; [apply (in_SE true true 1 7); [split; [lra|discriminate]|lra]|apply (in_LIN true true 2 (-1)); split; [lra|discriminate]].
  - split; [apply okb_sound; reflexivity|]. intros O.
    assert (C : contains_base [bPER] ex_nonper = true) by (apply contains_base_spec; [apply okb_sound; reflexivity|exists bPER; split; [left; reflexivity|exact O]]). discriminate C.
Qed.

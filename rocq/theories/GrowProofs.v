(** Growing expressions (C67). *)
From Coq Require Import Reals Lra List Bool Arith ZArith Lia Permutation Morphisms Setoid.
From Verif Require Import Py UtilModel UtilSpec UtilProofs KexModel KexSpec KexProofs KexSimp KexMore OpsModel KexCong OpsSpec OpsProofs KexCheck KernModel KernSpec KernProper SemModel SemSpec SemProofs SemSimp SemMore SemOps SemKernel SemLimSpec SemLimit DataProofs UnitSpec UnitProofs GrowSpec.
Import ListNotations.
Local Open Scope Z_scope.

Lemma standard_operand offset b : standard offset b -> operand offset b.
Proof. destruct b; simpl; tauto. Qed.
Lemma standard_normal offset b x : standard offset b -> b = inr x -> normal offset x.
Proof. intros H ->. apply H. Qed.

Lemma concat_perm {A} (l m : list (list A)) : Permutation l m -> Permutation (concat l) (concat m).
Proof.
  induction 1; simpl.
  - constructor.
  - apply Permutation_app_head. assumption.
  - rewrite !app_assoc. apply Permutation_app_tail, Permutation_app_comm.
  - etransitivity; eassumption.
Qed.

(** ** Terms of a sum *)
Section Terms.
  Variable off o : bool.
  Definition sbases (d : branch) : list base := bases_in (part_bases KSum d) ++ bases_of (map extract (part_kexs KSum d)).
  Definition skexs (d : branch) : list kex := kexs_of (map extract (part_kexs KSum d)).
  Lemma part_tops d : wf_branch d -> forall c, In c (part_kexs KSum d) -> wf_top c.
  Proof.
    intros W c Hc. destruct d as [x|[[|] bts cts|oo l r]]; simpl in Hc; [destruct Hc| | |].
    - apply wf_top_of. eapply wf_child; [apply W; reflexivity|exact Hc].
    - destruct Hc as [<-|[]]. apply wf_top_of, W. reflexivity.
    - destruct Hc as [<-|[]]. apply wf_top_of, W. reflexivity.
  Qed.
  Lemma terms_family d : wf_branch d -> same_family (branch_covariances o d) (combine2 KSum (fam_list o KSum (sbases d)) (fam_kexs o KSum (skexs d))).
  Proof.
    intros W. rewrite <- (part_family o KSum d W). rewrite (fam_singles o KSum (part_kexs KSum d)) by (apply part_tops, W).
    unfold sbases. rewrite fam_list_app, <- combine2_assoc. reflexivity.
  Qed.
  Lemma extract_none l : (forall c, In c l -> wf_top c /\ ~ singleton c) -> bases_of (map extract l) = [].
  Proof.
    induction l as [|c l IH]; intros H; [reflexivity|]. cbn [map]. destruct (H c) as [Wc Sc]; [left; reflexivity|].
    assert (E : extract c = inr c).
    { destruct c as [k bts cts|]; [|reflexivity]. destruct (extract_spec k bts cts Wc) as [(b & -> & -> & E)|[(x & -> & -> & E)|(_ & E)]]; [| |exact E];
        exfalso; apply Sc; eexists _, _, _; (split; [reflexivity|]); [destruct b; reflexivity|reflexivity]. }
    rewrite E. change (bases_of (inr c :: map extract l)) with (bases_of (map extract l)). apply IH. intros; apply H; right; assumption.
  Qed.
  Lemma terms_card d : standard off d -> 
    (count_occ base_eq_dec (sbases d) bWN <= 1)%nat /\ (count_occ base_eq_dec (sbases d) bC <= 1)%nat
    /\ (off = true -> (0 < count_occ base_eq_dec (sbases d) bLIN)%nat -> count_occ base_eq_dec (sbases d) bC = 0%nat).
  Proof.
    assert (One : forall x : base, (count_occ base_eq_dec [x] bWN <= 1)%nat /\ (count_occ base_eq_dec [x] bC <= 1)%nat
      /\ (off = true -> (0 < count_occ base_eq_dec [x] bLIN)%nat -> count_occ base_eq_dec [x] bC = 0%nat)).
    { intros x. cbn [count_occ]. destruct (base_eq_dec x bWN), (base_eq_dec x bC), (base_eq_dec x bLIN); try congruence; repeat split; lia. }
    assert (Non : (count_occ base_eq_dec (@nil base) bWN <= 1)%nat /\ (count_occ base_eq_dec (@nil base) bC <= 1)%nat
      /\ (off = true -> (0 < count_occ base_eq_dec (@nil base) bLIN)%nat -> count_occ base_eq_dec (@nil base) bC = 0%nat)).
    { split; [simpl; lia|]. split; [simpl; lia|]. reflexivity. }
    intros S. destruct d as [x|[[|] bts cts|oo l r]]; unfold sbases; cbn [part_bases part_kexs kind_eqb].
    - cbn [map bases_of concat]. rewrite app_nil_r. assert (E : bases_in [(x, 1)] = [x]) by (destruct x; reflexivity). rewrite E. apply One.
    - destruct S as (_ & N & _). apply normal_iff in N as (W & C & Hk). rewrite extract_none, app_nil_r.
      + rewrite !bases_in_count. destruct C as (C1 & C2 & C3). repeat split; [lia|lia|]. intros E L. specialize (C3 E ltac:(lia)). lia.
      + intros c Hc. destruct (Hk c Hc) as (Nc & Sc & _). split; [|exact Sc]. apply wf_top_of. eapply normal_wf, Nc.
    - assert (E : bases_in [] = []) by reflexivity. rewrite E. cbn [app map]. destruct (extract (Comm KProd bts cts)); [apply One|apply Non].
    - apply Non.
  Qed.
  Lemma no_sums d : standard off d -> forall c, In c (part_kexs KSum d) -> is_kind KSum c = false /\ normal off c.
  Proof.
    intros S c Hc. destruct d as [x|[[|] bts cts|oo l r]]; simpl in Hc; [destruct Hc| | |].
    - destruct S as (_ & N & _). apply normal_iff in N as (W & C & Hk). destruct (Hk c Hc) as (Nc & _ & Kc). split; [exact Kc|exact Nc].
    - destruct Hc as [<-|[]]. split; [reflexivity|]. apply S.
    - destruct Hc as [<-|[]]. split; [reflexivity|]. apply S.
  Qed.
  Lemma standard_wf d : standard off d -> wf_branch d.
  Proof. intros S. eapply operand_wf, standard_operand, S. Qed.

  Lemma add_terms a b : standard off a -> standard off b ->
    exists c n ks, nodup c /\ nonneg c /\ (forall x, Z.to_nat (cget c x) = (count_occ base_eq_dec (sbases a) x + count_occ base_eq_dec (sbases b) x)%nat)
      /\ Permutation ks (skexs a ++ skexs b)
      /\ same_family (covariances o (add off a b)) (combine2 KSum (fam_bases o KSum (simp_base off KSum c n)) (fam_kexs o KSum ks)).
  Proof.
    intros Sa Sb. pose proof (standard_wf _ Sa) as Wa. pose proof (standard_wf _ Sb) as Wb.
    destruct (operate_shape KSum a b Wa Wb) as (B & C & EO & WB & GB & PC). cbn [operate] in EO. rewrite EO.
    unfold mk. cbn [simplify].
    assert (HC : forall c, In c C -> is_kind KSum c = false /\ normal off c).
    { intros c Hc. apply (Permutation_in c PC) in Hc. apply in_app_iff in Hc as [Hc|Hc]; [apply (no_sums a Sa)|apply (no_sums b Sb)]; exact Hc. }
    assert (E1 : map (simplify off) C = C) by (rewrite <- (map_id C) at 2; apply map_ext_in; intros c Hc; apply normal_fix, HC, Hc).
    rewrite E1. clear E1.
    destruct (simp_node_spec off KSum B C) as (ns & L & P & E). cbv zeta in E. rewrite E. clear E.
    assert (F : filter (is_kind KSum) C = []) by (apply filter_nil_iff; intros x Hx; apply HC, Hx).
    assert (Fr : raised KSum C = C).
    { unfold raised. rewrite F. cbn [map concat]. rewrite app_nil_r. clear - HC. induction C as [|c C IH]; [reflexivity|]. cbn [filter].
      destruct (HC c) as [-> _]; [left; reflexivity|]. cbn [negb]. f_equal. apply IH. intros; apply HC; right; assumption. }
    rewrite Fr. rewrite F in *. assert (Eh : absorb_bts off KSum B [] ns = B) by reflexivity. rewrite Eh.
    set (ex := map extract C). set (c1 := cupdate_list B (bases_of ex)). set (n := length (kexs_of ex)).
    assert (N1 : nodup c1) by (apply cupdate_list_nodup, wf_nodup, WB).
    assert (NN1 : nonneg c1) by (apply nonneg_cupdate_list, wf_nn, WB).
    rewrite (simp_base_fix off KSum (simp_base off KSum c1 n) n) by (try apply simp_base_wf; try apply simp_base_card; assumption).
    assert (PE : Permutation ex (map extract (part_kexs KSum a) ++ map extract (part_kexs KSum b))) by (rewrite <- map_app; apply Permutation_map, PC).
    assert (PB : Permutation (bases_of ex) (bases_of (map extract (part_kexs KSum a)) ++ bases_of (map extract (part_kexs KSum b)))).
    { etransitivity; [unfold bases_of; apply concat_perm, Permutation_map, PE|]. rewrite map_app, concat_app. reflexivity. }
    exists c1, n, (kexs_of ex). split; [exact N1|]. split; [exact NN1|]. split; [|split].
    - intros x. unfold c1. rewrite cget_cupdate_list, GB. unfold sbases. rewrite !count_occ_app, !bases_in_count.
      rewrite (proj1 (Permutation_count_occ base_eq_dec _ _) PB x), count_occ_app.
      pose proof (wf_nonneg _ x (part_wf KSum a Wa)). pose proof (wf_nonneg _ x (part_wf KSum b Wb)). lia.
    - etransitivity; [unfold kexs_of; apply concat_perm, Permutation_map, PE|]. rewrite map_app, concat_app. reflexivity.
    - apply cov_comm.
  Qed.
End Terms.

(** ** Terms may be as small as desired *)
Definition zero : kern := fun _ _ _ => 0%R.
Definition one : kern := fun _ _ _ => 1%R.
Section Small.
  Local Open Scope R_scope.
  Lemma scalable_zero (f : family) : (exists K, f K) -> scalable f -> approximated f zero.
  Proof.
    intros (K & HK) S x n eps He. destruct (matrix_bound (K x) n) as (M & PM & HM). destruct (small (eps / 2) M) as (d & Hd & _ & Hde); [lra|exact PM|].
    exists (fun x i j => d * K x i j). split; [apply S; assumption|]. intros i j Hi Hj. unfold zero. rewrite Rminus_0_r, Rabs_mult, (Rabs_pos_eq d) by lra.
    specialize (HM i j Hi Hj). assert (d * Rabs (K x i j) <= d * M) by (apply Rmult_le_compat_l; lra). lra.
  Qed.
  Lemma drop_right f g : approximated g zero -> within f (combine2 KSum f g).
  Proof.
    intros Z K HK x n eps He. destruct (Z x n eps He) as (K' & G & A). exists (fun x i j => K x i j + K' x i j). split; [exists K, K'; auto|].
    intros i j Hi Hj. specialize (A i j Hi Hj). unfold zero in A. replace (K x i j + K' x i j - K x i j) with (K' x i j - 0) by ring. exact A.
  Qed.
  Lemma times_one f g : approximated g one -> within f (combine2 KProd f g).
  Proof.
    intros O K HK x n eps He. destruct (matrix_bound (K x) n) as (M & PM & HM). destruct (small (eps / 2) M) as (d & Hd & _ & Hde); [lra|exact PM|].
    destruct (O x n d Hd) as (K' & G & A). exists (fun x i j => K x i j * K' x i j). split; [exists K, K'; auto|].
    intros i j Hi Hj. specialize (A i j Hi Hj). unfold one in A. specialize (HM i j Hi Hj).
    replace (K x i j * K' x i j - K x i j) with (K x i j * (K' x i j - 1)) by ring. rewrite Rabs_mult.
    pose proof (Rabs_pos (K x i j)). pose proof (Rabs_pos (K' x i j - 1)).
    assert (Rabs (K x i j) * Rabs (K' x i j - 1) <= M * d) by (apply Rmult_le_compat; lra). lra.
  Qed.
  Lemma zero_list (l : list family) : (forall f, In f l -> scalable f /\ exists K, f K) -> approximated (combine_all KSum l) zero.
  Proof.
    intros H. apply scalable_zero.
    - apply combine_all_inhabited. intros f Hf. apply H, Hf.
    - apply sum_scalable. intros f Hf. apply H, Hf.
  Qed.
  Lemma lin_constant : within (base_family true bC) (base_family true bLIN).
  Proof.
    intros K (v & Hv & HK) x n eps He. destruct (row_bound x n) as (B & PB & HB).
    assert (PM : 0 < v * (2 * B + B * B)) by (apply Rmult_lt_0_compat; nra).
    destruct (small (eps / 2) (v * (2 * B + B * B))) as (d & Hd & Hd1 & Hde); [lra|exact PM|].
    exists (fun x i j => v * (d * d) * ((x i - / d) * (x j - / d))). split.
    - exists (v * (d * d)), (/ d). split; [apply Rmult_lt_0_compat; nra|]. split; [discriminate|]. reflexivity.
    - intros i j Hi Hj. rewrite HK. replace (v * (d * d) * ((x i - / d) * (x j - / d)) - v) with (d * (v * (- x i - x j + d * (x i * x j)))) by (field; lra).
      rewrite !Rabs_mult, (Rabs_pos_eq d), (Rabs_pos_eq v) by lra.
      pose proof (HB i Hi) as Bi. pose proof (HB j Hj) as Bj.
      assert (T : Rabs (- x i - x j + d * (x i * x j)) <= 2 * B + B * B).
      { eapply Rle_trans; [apply Rabs_triang|]. apply Rplus_le_compat.
        - unfold Rminus. eapply Rle_trans; [apply Rabs_triang|]. rewrite !Rabs_Ropp. lra.
        - rewrite !Rabs_mult, (Rabs_pos_eq d) by lra. pose proof (Rabs_pos (x i)). pose proof (Rabs_pos (x j)).
          assert (Rabs (x i) * Rabs (x j) <= B * B) by (apply Rmult_le_compat; lra).
          assert (0 <= Rabs (x i) * Rabs (x j)) by (apply Rmult_le_pos; assumption). nra. }
      assert (d * (v * Rabs (- x i - x j + d * (x i * x j))) <= d * (v * (2 * B + B * B))).
      { apply Rmult_le_compat_l; [lra|]. apply Rmult_le_compat_l; [lra|exact T]. }
      lra.
  Qed.
End Small.

Lemma sub_perm (l : list base) : forall m, (forall x, (count_occ base_eq_dec l x <= count_occ base_eq_dec m x)%nat) -> exists r, Permutation m (l ++ r).
Proof.
  induction l as [|x l IH]; intros m H; [exists m; reflexivity|].
  assert (I : In x m). { apply (count_occ_In base_eq_dec). specialize (H x). cbn [count_occ] in H. destruct (base_eq_dec x x); [lia|congruence]. }
  apply in_split in I as (m1 & m2 & ->). destruct (IH (m1 ++ m2)) as (r & P).
  - intros y. specialize (H y). rewrite count_occ_app in *. cbn [count_occ] in H. destruct (base_eq_dec x y); lia.
  - exists r. rewrite <- Permutation_middle. cbn [app]. constructor. exact P.
Qed.

Section Grow.
  Variable off : bool.
  Notation cov := (covariances off).
  Notation bcov := (branch_covariances off).

  Lemma part_sigmoid_free d c : standard off d -> In c (part_kexs KSum d) -> non_empty c /\ sigmoid_free c.
  Proof. intros S Hc. destruct (part_facts off KSum d (standard_operand _ _ S)) as [_ H]. destruct (H c Hc) as (_ & A & B & _). auto. Qed.
  Lemma sbases_actual d x : standard off d -> In x (sbases d) -> is_sigmoid x = false.
  Proof.
    intros S H. unfold sbases in H. apply in_app_iff in H as [H|H].
    - destruct (part_facts off KSum d (standard_operand _ _ S)) as [G _]. apply in_bases_in in H. destruct (is_sigmoid x) eqn:E; [|reflexivity].
      rewrite (G x E) in H. lia.
    - unfold bases_of in H. apply in_concat in H as (m & Hm & Hx). apply in_map_iff in Hm as (y & <- & Hy). apply in_map_iff in Hy as (z & <- & Hz).
      destruct (part_sigmoid_free d z S Hz) as [Nz Sz]. pose proof (part_tops d (standard_wf off d S) z Hz) as Wz.
      destruct z as [kz bz cz|]; [|destruct Hx].
      destruct (extract_spec kz bz cz Wz) as [(b0 & -> & -> & Ez)|[(c & -> & -> & Ez)|(_ & Ez)]]; rewrite Ez in Hx; cbn in Hx; try tauto.
      destruct Hx as [<-|[]]. destruct (is_sigmoid b0) eqn:E; [|reflexivity]. apply sigmoid_free_comm in Sz as [Sz _]. exfalso. apply (Sz b0 E).
      rewrite cget_cons, base_eqb_refl. lia.
  Qed.
  Lemma skexs_scalable d x : standard off d -> In x (skexs d) -> scalable (cov x).
  Proof.
    intros S H. unfold skexs in H. apply kexs_of_in in H. apply in_map_iff in H as (y & Ey & Hy).
    destruct (part_sigmoid_free d y S Hy) as [Ny Sy]. pose proof (part_tops d (standard_wf off d S) y Hy) as Wy.
    apply cov_scalable.
    - apply extract_inr in Ey as [->|Ek]; [exact Sy| |exact Wy]. eapply sigmoid_free_node; [exact Sy|]. apply kids_node. rewrite Ek. left; auto.
    - eapply extract_non_empty; eauto.
  Qed.

  Lemma terms_grow a b c n ks : standard off a -> standard off b -> nodup c -> nonneg c ->
    (forall x, Z.to_nat (cget c x) = (count_occ base_eq_dec (sbases a) x + count_occ base_eq_dec (sbases b) x)%nat) -> Permutation ks (skexs a ++ skexs b) ->
    within (bcov a) (combine2 KSum (fam_bases off KSum (simp_base off KSum c n)) (fam_kexs off KSum ks)).
  Proof.
    intros Sa Sb N NN G PK. eapply within_trans; [apply same_within, (terms_family off a), (standard_wf off), Sa|].
    apply combine2_within.
    2:{ eapply within_trans; [|apply same_within; symmetry; apply combine_all_perm, Permutation_map, PK].
        rewrite map_app. eapply within_trans; [|apply same_within; symmetry; apply combine_all_app]. apply drop_right, zero_list.
        intros f Hf. apply in_map_iff in Hf as (x & <- & Hx). split; [eapply skexs_scalable; eauto|apply covariances_inhabited]. }
    destruct (terms_card off a Sa) as (CW & CC & CL). set (l := sbases a) in *.
    assert (Act : forall x, In x (bases_in (simp_base off KSum c n)) -> is_sigmoid x = false).
    { intros x Hx. apply in_bases_in in Hx. rewrite cget_simp_sum in Hx by assumption.
      assert (0 < cget c x). { destruct x; try lia; destruct (off && (0 <? cget c bLIN))%bool; lia. }
      assert (Hx' : (0 < count_occ base_eq_dec l x + count_occ base_eq_dec (sbases b) x)%nat) by (rewrite <- G; lia).
      destruct (count_occ base_eq_dec l x) eqn:El.
      - apply (sbases_actual b); [exact Sb|]. apply (count_occ_In base_eq_dec). lia.
      - apply (sbases_actual a); [exact Sa|]. apply (count_occ_In base_eq_dec). fold l. lia. }
    assert (Rest : forall l' r, within (fam_list off KSum l) (fam_list off KSum l') -> Permutation (bases_in (simp_base off KSum c n)) (l' ++ r) ->
      within (fam_list off KSum l) (fam_bases off KSum (simp_base off KSum c n))).
    { intros l' r Hl P. eapply within_trans; [|apply same_within; symmetry; apply fam_list_perm, P].
      eapply within_trans; [|apply same_within; symmetry; apply fam_list_app]. eapply within_trans; [exact Hl|]. apply drop_right, zero_list.
      intros f Hf. apply in_map_iff in Hf as (x & <- & Hx). split; [|apply base_inhabited]. apply base_scalable, Act.
      apply (Permutation_in x (Permutation_sym P)), in_app_iff. right. exact Hx. }
    destruct (off && (0 <? cget c bLIN))%bool eqn:EL.
    - apply andb_prop in EL as [Eo EL]. apply Z.ltb_lt in EL. destruct (count_occ base_eq_dec l bC) as [|n0] eqn:EC.
      + destruct (sub_perm l (bases_in (simp_base off KSum c n))) as (r & P); [|eapply Rest; [apply within_refl|exact P]].
        intros x. rewrite bases_in_count, cget_simp_sum by assumption. specialize (G x). destruct x; try lia.
      + assert (IC : In bC l) by (apply (count_occ_In base_eq_dec); lia). apply in_split in IC as (l1 & l2 & El).
        assert (Cl : forall x, count_occ base_eq_dec l x = ((if base_eq_dec bC x then 1 else 0) + count_occ base_eq_dec (l1 ++ l2) x)%nat).
        { intros x. rewrite El, !count_occ_app. cbn [count_occ]. destruct (base_eq_dec bC x); lia. }
        assert (NL : count_occ base_eq_dec l bLIN = 0%nat).
        { destruct (count_occ base_eq_dec l bLIN) eqn:E0; [reflexivity|]. specialize (CL Eo ltac:(lia)). lia. }
        destruct (sub_perm (bLIN :: l1 ++ l2) (bases_in (simp_base off KSum c n))) as (r & P).
        * intros x. rewrite bases_in_count, cget_simp_sum by assumption. specialize (G x). pose proof (Cl x) as Clx. pose proof (Cl bC) as ClC. pose proof (Cl bLIN) as ClL. cbn [count_occ].
          destruct (base_eq_dec bC bC) as [_|]; [|congruence]. destruct (base_eq_dec bC bLIN) as [|_]; [congruence|].
          destruct (base_eq_dec bLIN x) as [Ex|Ex].
          -- subst x. lia.
          -- destruct (base_eq_dec bC x) as [Ex'|Ex']; [subst x; lia|]. destruct x; try congruence; lia.
        * eapply Rest; [|exact P]. clear P.
          eapply within_trans; [apply same_within, fam_list_perm; rewrite El; symmetry; apply Permutation_middle|].
          change (fam_list off KSum (bC :: l1 ++ l2)) with (combine2 KSum (base_family off bC) (fam_list off KSum (l1 ++ l2))).
          change (fam_list off KSum (bLIN :: l1 ++ l2)) with (combine2 KSum (base_family off bLIN) (fam_list off KSum (l1 ++ l2))).
          apply combine2_within; [|apply within_refl]. rewrite Eo. apply lin_constant.
    - destruct (sub_perm l (bases_in (simp_base off KSum c n))) as (r & P); [|eapply Rest; [apply within_refl|exact P]].
      intros x. rewrite bases_in_count, cget_simp_sum, EL by assumption. specialize (G x). destruct x; lia.
  Qed.
  Lemma add_grows a b : standard off a -> standard off b -> within (bcov a) (cov (add off a b)) /\ within (bcov b) (cov (add off a b)).
  Proof.
    intros Sa Sb. destruct (add_terms off off a b Sa Sb) as (c & n & ks & N & NN & G & PK & E).
    split; (eapply within_trans; [|apply same_within; symmetry; exact E]).
    - apply (terms_grow a b); assumption.
    - apply (terms_grow b a); try assumption; [intros x; rewrite G; lia|rewrite PK; apply Permutation_app_comm].
  Qed.
End Grow.

(** ** Factors may be as close to 1 as desired *)
Definition can_be (K : kern) (f : family) : Prop := within (fun K' => K' = K) f.
Lemma can_be_iff K f : can_be K f <-> approximated f K.
Proof. split; [intros H; apply H; reflexivity|intros H K' ->; exact H]. Qed.
Section One.
  Local Open Scope R_scope.
  Lemma abs_between a b : Rabs a <= b -> - b <= a <= b.
  Proof. unfold Rabs. destruct (Rcase_abs a); lra. Qed.
  Lemma exp_near t : 0 <= t -> Rabs (exp (- t) - 1) <= t.
  Proof. intros H. pose proof (exp_ineq1_le (- t)). pose proof (exp_pos (- t)). assert (exp (- t) <= 1) by (rewrite <- exp_0; destruct H as [H|<-]; [left; apply exp_increasing; lra|right; f_equal; lra]). rewrite Rabs_left1; lra. Qed.
  Lemma sin_le u : Rabs (sin u) <= Rabs u.
  Proof.
    destruct (Rle_or_lt 0 u) as [H|H].
    - rewrite (Rabs_pos_eq u) by lra. destruct H as [H|<-]; [|rewrite sin_0, Rabs_R0; lra]. unfold Rabs. destruct (Rcase_abs (sin u)) as [L|L].
      + destruct (Rle_or_lt u PI) as [P|P]; [pose proof (sin_ge_0 u ltac:(lra) P); lra|]. pose proof (SIN_bound u). pose proof PI2_1. pose proof PI2_RGT_0. lra.
      + pose proof (sin_lt_x u H). lra.
    - rewrite (Rabs_left u) by lra. rewrite <- Rabs_Ropp, <- sin_neg. assert (H' : 0 < - u) by lra. set (w := - u) in *. clearbody w. unfold Rabs. destruct (Rcase_abs (sin w)) as [L|L].
      + destruct (Rle_or_lt w PI) as [P|P]; [pose proof (sin_ge_0 w ltac:(lra) P); lra|]. pose proof (SIN_bound w). pose proof PI2_1. lra.
      + pose proof (sin_lt_x w H'). lra.
  Qed.
  Lemma cos_near t : Rabs (cos t - 1) <= t * t.
  Proof.
    replace t with (2 * (t / 2)) at 1 by field. rewrite cos_2a_sin. replace (1 - 2 * sin (t / 2) * sin (t / 2) - 1) with (- (2 * (sin (t / 2) * sin (t / 2)))) by ring.
    rewrite Rabs_Ropp, Rabs_mult, (Rabs_pos_eq 2), Rabs_mult by lra. pose proof (sin_le (t / 2)) as S. pose proof (Rabs_pos (sin (t / 2))).
    assert (Rabs (sin (t / 2)) * Rabs (sin (t / 2)) <= Rabs (t / 2) * Rabs (t / 2)) by (apply Rmult_le_compat; lra).
    assert (E : Rabs (t / 2) * Rabs (t / 2) = t / 2 * (t / 2)) by (rewrite <- Rabs_mult; apply Rabs_pos_eq, Rle_0_sqr). rewrite E in H0. pose proof (Rle_0_sqr t) as Q. unfold Rsqr in Q. nra.
  Qed.
  Lemma base_one b : is_sigmoid b = false -> b <> bWN -> approximated (base_family true b) one.
  Proof.
    intros S NW. assert (Cc : approximated (base_family true bC) one) by (apply member_approximated; exists 1; split; [lra|reflexivity]).
    destruct b; try discriminate; try congruence.
    - exact Cc.
    - apply lin_constant. exists 1. split; [lra|reflexivity].
    - intros x n eps He. destruct (row_bound x n) as (B & PB & HB).
      destruct (small (eps / 2) (2 * B * B)) as (d & Hd & Hd1 & Hde); [lra|nra|].
      exists (fun x i j => 1 * exp (- (x i - x j) ^ 2 / (2 * (/ d) ^ 2))). split; [exists 1, (/ d); split; [lra|]; split; [apply Rinv_0_lt_compat, Hd|reflexivity]|].
      intros i j Hi Hj. unfold one. rewrite Rmult_1_l.
      replace (- (x i - x j) ^ 2 / (2 * (/ d) ^ 2)) with (- (d * d * (x i - x j) ^ 2 / 2)) by (field; lra).
      assert (D : (x i - x j) ^ 2 <= 4 * (B * B)).
      { pose proof (HB i Hi) as Bi. pose proof (HB j Hj) as Bj. apply abs_between in Bi, Bj. nra. }
      assert (D0 : 0 <= (x i - x j) ^ 2) by apply pow2_ge_0.
      assert (T0 : 0 <= d * d) by nra. assert (T1 : d * d <= d) by nra.
      set (s := (x i - x j) ^ 2) in *. clearbody s. assert (U : 0 <= d * d * s <= d * (4 * (B * B))) by (split; [apply Rmult_le_pos; lra|apply Rmult_le_compat; lra]).
      eapply Rle_lt_trans; [apply exp_near; lra|]. lra.
    - intros x n eps He. destruct (row_bound x n) as (B & PB & HB). pose proof PI_RGT_0 as PP.
      destruct (small (eps / 2) ((4 * PI * B) * (4 * PI * B))) as (d & Hd & Hd1 & Hde); [lra|assert (0 < 4 * PI * B) by (apply Rmult_lt_0_compat; lra); apply Rmult_lt_0_compat; assumption|].
      exists (fun x i j => per_entry bessel0 1 (/ d) 20000 (x i - x j)). split; [exists 1, (/ d), 20000; split; [lra|]; split; [apply Rinv_0_lt_compat, Hd|]; split; [lra|reflexivity]|].
      intros i j Hi Hj. unfold one, per_entry. assert (L : Rltb 10000 20000 = true) by (apply Rltb_spec; lra). rewrite L, Rmult_1_l.
      eapply Rle_lt_trans; [apply cos_near|]. replace (2 * PI / / d * (x i - x j)) with (d * (2 * PI * (x i - x j))) by (field; lra).
      set (u := 2 * PI * (x i - x j)). replace (d * u * (d * u)) with ((d * d) * (u * u)) by ring.
      assert (U : u * u <= (4 * PI * B) * (4 * PI * B)).
      { pose proof (HB i Hi) as Bi. pose proof (HB j Hj) as Bj. apply abs_between in Bi, Bj.
        assert (- (4 * PI * B) <= u <= 4 * PI * B) by (unfold u; nra). nra. }
      assert (U0 : 0 <= u * u) by apply Rle_0_sqr. assert (T0 : 0 <= d * d) by nra. assert (T1 : d * d <= d) by nra.
      assert (d * d * (u * u) <= d * (4 * PI * B * (4 * PI * B))) by (apply Rmult_le_compat; lra). lra.
  Qed.

  (** A change far away from the data. *)
  Definition shape (c : cpcw) (l w : R) : bool -> R -> R := match c with CP => phi_S l (1 / 2) | CW => phi_SI l (1 / 2) w end.
  Lemma shape_true c l w x : shape c l w true x = 1 - shape c l w false x.
  Proof. destruct c; reflexivity. Qed.
  Lemma sigmoid_left z : z < 0 -> 0 <= sigmoid_function z <= / (2 * (1 - z)).
  Proof.
    intros H. unfold sigmoid_function. rewrite Rabs_left by exact H. assert (E : (1 + z / (1 + - z)) / 2 = / (2 * (1 - z))) by (field; lra).
    rewrite E. split; [left; apply Rinv_0_lt_compat; lra|lra].
  Qed.
  Lemma sigmoid_right z : 0 < z -> sigmoid_function z = 1 - / (2 * (1 + z)).
  Proof. intros H. unfold sigmoid_function. rewrite Rabs_right by lra. field. lra. Qed.
  Lemma inv_small a d : 0 < d -> / d <= a -> / a <= d.
  Proof. intros H L. rewrite <- (Rinv_inv d). apply Rinv_le_contravar; [apply Rinv_0_lt_compat, H|exact L]. Qed.
  Lemma far_right c (x : nat -> R) n d : 0 < d -> exists l w, 0 < w /\ forall i, (i < n)%nat -> Rabs (shape c l w false (x i)) <= d.
  Proof.
    intros Hd. destruct (row_bound x n) as (B & PB & HB). pose proof (Rinv_0_lt_compat d Hd) as PD.
    exists (B + / d), 1. split; [lra|]. intros i Hi. specialize (HB i Hi). apply abs_between in HB.
    assert (G : / d <= B + / d - x i) by lra. set (t := B + / d - x i) in *.
    assert (J : / (2 * (1 + 2 * t)) <= d / 2 /\ 0 < / (2 * (1 + 2 * t))).
    { split; [|apply Rinv_0_lt_compat; lra]. rewrite Rinv_mult. assert (/ (1 + 2 * t) <= d) by (apply inv_small; lra). lra. }
    destruct c; cbn [shape]; unfold phi_S, phi_SI.
    - replace ((x i - (B + / d)) / (1 / 2)) with (- (2 * t)) by (unfold t; field; lra).
      destruct (sigmoid_left (- (2 * t))) as [S1 S2]; [lra|]. replace (1 - - (2 * t)) with (1 + 2 * t) in S2 by ring. rewrite Rabs_pos_eq by lra. lra.
    - replace ((x i - (B + / d)) / (1 / 2)) with (- (2 * t)) by (unfold t; field; lra).
      replace ((x i - (B + / d) - 1) / - (1 / 2)) with (2 * t + 2) by (unfold t; field; lra).
      destruct (sigmoid_left (- (2 * t))) as [S1 S2]; [lra|]. replace (1 - - (2 * t)) with (1 + 2 * t) in S2 by ring. rewrite (sigmoid_right (2 * t + 2)) by lra.
      unfold core_sigmoid_function. replace (1 / (2 * (1 / 2))) with 1 by field. rewrite Rabs_R1.
      assert (J2 : 0 < / (2 * (1 + (2 * t + 2))) <= / (2 * (1 + 2 * t))). { split; [apply Rinv_0_lt_compat; lra|apply Rinv_le_contravar; lra]. }
      match goal with |- Rabs (?a / _) <= _ => replace (a / (1 / (1 + 1))) with (2 * a) by (generalize a; intros; field) end. rewrite Rabs_mult, (Rabs_pos_eq 2) by lra.
      assert (Rabs (sigmoid_function (- (2 * t)) + (1 - / (2 * (1 + (2 * t + 2)))) - 1) <= d / 2); [|lra]. apply Rabs_le. lra.
  Qed.
  Lemma far_left c (x : nat -> R) n d : 0 < d -> d <= 1 -> exists l w, 0 < w /\ forall i, (i < n)%nat -> Rabs (shape c l w false (x i) - 1) <= d.
  Proof.
    intros Hd Hd1. destruct (row_bound x n) as (B & PB & HB). pose proof (Rinv_0_lt_compat d Hd) as PD. set (T := 2 * / d).
    assert (HT : 2 <= T) by (unfold T; rewrite <- Rinv_1 in Hd1; assert (1 <= / d) by (rewrite <- Rinv_1; apply Rinv_le_contravar; lra); lra).
    assert (IT : / T <= d / 2) by (unfold T; rewrite Rinv_mult, Rinv_inv; lra).
    exists (- B - T), (2 * (B + T)). split; [lra|]. intros i Hi. specialize (HB i Hi). apply abs_between in HB.
    set (t := x i + B + T). set (u := B + T - x i). assert (Ht : T <= t) by (unfold t; lra). assert (Hu : T <= u) by (unfold u; lra).
    assert (J : forall s, T <= s -> 0 < / (2 * (1 + 2 * s)) <= / T / 4).
    { intros s Hs. split; [apply Rinv_0_lt_compat; lra|]. replace (/ T / 4) with (/ (4 * T)) by (field; lra). apply Rinv_le_contravar; lra. }
    pose proof (J t Ht) as Jt. pose proof (J u Hu) as Ju.
    destruct c; cbn [shape]; unfold phi_S, phi_SI.
    - replace ((x i - (- B - T)) / (1 / 2)) with (2 * t) by (unfold t; field). rewrite sigmoid_right by lra. apply Rabs_le. lra.
    - replace ((x i - (- B - T)) / (1 / 2)) with (2 * t) by (unfold t; field). 
      replace ((x i - (- B - T) - 2 * (B + T)) / - (1 / 2)) with (2 * u) by (unfold u; field).
      rewrite !sigmoid_right by lra. unfold core_sigmoid_function. replace (2 * (B + T) / (2 * (1 / 2))) with (2 * (B + T)) by field.
      set (w := 2 * (B + T)). assert (Hw : 2 * T <= w) by (unfold w; lra). rewrite (Rabs_pos_eq w) by lra.
      set (e1 := / (2 * (1 + 2 * t))) in *. set (e2 := / (2 * (1 + 2 * u))) in *.
      replace ((1 - e1 + (1 - e2) - 1) / (w / (1 + w)) - 1) with (/ w * 1 - (e1 + e2) * (1 + / w)) by (field; lra).
      assert (IW : 0 < / w <= / T / 2). { split; [apply Rinv_0_lt_compat; lra|]. replace (/ T / 2) with (/ (2 * T)) by (field; lra). apply Rinv_le_contravar; lra. }
      assert (IT2 : 0 < / T <= / 2). { split; [apply Rinv_0_lt_compat; lra|apply Rinv_le_contravar; lra]. }
      apply Rabs_le. assert (0 <= (e1 + e2) * (1 + / w) <= (/ T / 2) * 2) by (split; [apply Rmult_le_pos; lra|apply Rmult_le_compat; lra]). lra.
  Qed.
  Lemma weights K1 K2 p q M1 M2 d a b : 0 < d -> d <= 1 -> Rabs K1 <= M1 -> Rabs K2 <= M2 ->
    Rabs p <= d -> Rabs q <= d -> a = 1 - p -> b = 1 - q -> Rabs (K1 * (a * b) + K2 * (p * q) - K1) <= d * (3 * M1 + M2).
  Proof.
    intros Hd Hd1 H1 H2 Hp Hq -> ->. replace (K1 * ((1 - p) * (1 - q)) + K2 * (p * q) - K1) with (K1 * (- p - q + p * q) + K2 * (p * q)) by ring.
    pose proof (Rabs_pos K1). pose proof (Rabs_pos K2). pose proof (Rabs_pos p). pose proof (Rabs_pos q).
    assert (PQ : Rabs (p * q) <= d) by (rewrite Rabs_mult; assert (Rabs p * Rabs q <= d * 1) by (apply Rmult_le_compat; lra); lra).
    assert (S : Rabs (- p - q + p * q) <= 3 * d).
    { eapply Rle_trans; [apply Rabs_triang|]. unfold Rminus. assert (Rabs (- p + - q) <= Rabs p + Rabs q) by (eapply Rle_trans; [apply Rabs_triang|]; rewrite !Rabs_Ropp; lra). lra. }
    eapply Rle_trans; [apply Rabs_triang|]. rewrite (Rabs_mult K1), (Rabs_mult K2). pose proof (Rabs_pos (- p - q + p * q)). pose proof (Rabs_pos (p * q)).
    assert (Rabs K1 * Rabs (- p - q + p * q) <= M1 * (3 * d)) by (apply Rmult_le_compat; lra).
    assert (Rabs K2 * Rabs (p * q) <= M2 * d) by (apply Rmult_le_compat; lra). lra.
  Qed.
  Lemma change_left c (f g : family) : (exists K, g K) -> within f (change_family c f g).
  Proof.
    intros (K2 & H2) K1 H1 x n eps He. destruct (matrix_bound (K1 x) n) as (M1 & P1 & B1). destruct (matrix_bound (K2 x) n) as (M2 & P2 & B2).
    destruct (small (eps / 2) (3 * M1 + M2)) as (d & Hd & Hd1 & Hde); [lra|lra|].
    destruct (far_right c x n d Hd) as (l & w & Hw & HF).
    exists (fun x i j => K1 x i j * (shape c l w true (x i) * shape c l w true (x j)) + K2 x i j * (shape c l w false (x i) * shape c l w false (x j))). split.
    - exists K1, K2, l, w. repeat split; auto.
    - intros i j Hi Hj. eapply Rle_lt_trans; [apply (weights (K1 x i j) (K2 x i j) _ _ M1 M2 d); auto; apply shape_true|]. lra.
  Qed.
  Lemma change_right c (f g : family) : (exists K, f K) -> within g (change_family c f g).
  Proof.
    intros (K1 & H1) K2 H2 x n eps He. destruct (matrix_bound (K1 x) n) as (M1 & P1 & B1). destruct (matrix_bound (K2 x) n) as (M2 & P2 & B2).
    destruct (small (eps / 2) (3 * M2 + M1)) as (d & Hd & Hd1 & Hde); [lra|lra|].
    destruct (far_left c x n d Hd Hd1) as (l & w & Hw & HF).
    exists (fun x i j => K1 x i j * (shape c l w true (x i) * shape c l w true (x j)) + K2 x i j * (shape c l w false (x i) * shape c l w false (x j))). split.
    - exists K1, K2, l, w. repeat split; auto.
    - intros i j Hi Hj. rewrite (Rplus_comm (K1 x i j * _)).
      eapply Rle_lt_trans; [apply (weights (K2 x i j) (K1 x i j) _ _ M2 M1 d); auto; rewrite ?shape_true; try ring; rewrite <- Rabs_Ropp;
        match goal with |- Rabs (- (1 - ?z)) <= _ => replace (- (1 - z)) with (z - 1) by ring end; auto|]. lra.
  Qed.
End One.

Section Noise.
  Local Open Scope R_scope.
  Notation cov := (covariances true).
  Lemma sum_one (l : list family) f : In f l -> approximated f one -> (forall g, In g l -> approximated g zero) -> approximated (combine_all KSum l) one.
  Proof.
    intros Hf O Z. apply in_split in Hf as (l1 & l2 & ->).
    assert (W : within f (combine_all KSum (f :: l1 ++ l2))).
    { cbn [combine_all fold_right]. change (within f (combine2 KSum f (combine_all KSum (l1 ++ l2)))). apply drop_right.
      assert (ZL : forall l, (forall g, In g l -> approximated g zero) -> approximated (combine_all KSum l) zero).
      { clear. induction l as [|g l IH]; intros H.
        - apply member_approximated. intros x i j. reflexivity.
        - apply can_be_iff. cbn [combine_all fold_right]. eapply within_trans; [|apply drop_right, IH; intros; apply H; right; assumption].
          apply can_be_iff, H. left; reflexivity. }
      apply ZL. intros g Hg. apply Z. rewrite in_app_iff in *. simpl. tauto. }
    apply can_be_iff. eapply within_trans; [apply can_be_iff, O|]. eapply within_trans; [exact W|].
    apply same_within, combine_all_perm, Permutation_middle.
  Qed.
  Lemma prod_one (l : list family) : (forall g, In g l -> approximated g one) -> approximated (combine_all KProd l) one.
  Proof.
    induction l as [|g l IH]; intros H.
    - apply member_approximated. intros x i j. reflexivity.
    - apply can_be_iff. cbn [combine_all fold_right]. eapply within_trans; [|apply times_one, IH; intros; apply H; right; assumption].
      apply can_be_iff, H. left; reflexivity.
  Qed.
  Lemma not_noise_one e : non_empty e -> sigmoid_free e -> noise_only e = false -> approximated (cov e) one.
  Proof.
    induction e using kex_ind'; intros N S Hn.
    - pose proof N as N'. pose proof S as S'. apply sigmoid_free_comm in S as [S1 S2]. apply non_empty_comm in N as [T Nk]. cbn [covariances].
      assert (Hb : forall b, In b (bases_in bts) -> is_sigmoid b = false).
      { intros b Hb. destruct (is_sigmoid b) eqn:E; [|reflexivity]. apply in_bases_in in Hb. destruct (S1 b E Hb). }
      destruct k; cbn [noise_only] in Hn.
      + assert (Ex : exists f, In f (map (base_family true) (bases_in bts) ++ map cov cts) /\ approximated f one).
        { apply andb_false_iff in Hn as [Hn|Hn].
          - assert (Hx : existsb (fun b => negb ((cget bts b <=? 0)%Z || base_eqb b bWN)) all_bases = true).
            { destruct (existsb _ all_bases) eqn:E; [reflexivity|]. exfalso. assert (Y : forallb (fun b => (cget bts b <=? 0)%Z || base_eqb b bWN) all_bases = true); [|congruence].
              apply forallb_forall. intros b Ib. destruct ((cget bts b <=? 0)%Z || base_eqb b bWN) eqn:Eb; [reflexivity|].
              assert (existsb (fun b => negb ((cget bts b <=? 0)%Z || base_eqb b bWN)) all_bases = true); [|congruence].
              apply existsb_exists. exists b. rewrite Eb. auto. }
            apply existsb_exists in Hx as (b & _ & Eb). apply negb_true_iff, orb_false_iff in Eb as [E1 E2]. apply Z.leb_gt in E1.
            assert (Ib : In b (bases_in bts)) by (apply in_bases_in; exact E1). exists (base_family true b). split; [apply in_app_iff; left; apply in_map, Ib|].
            apply base_one; [apply Hb, Ib|]. intros ->. discriminate E2.
          - assert (Hx : exists c, In c cts /\ noise_only c = false).
            { clear - Hn. induction cts as [|c cts IH]; [discriminate|]. cbn [forallb] in Hn. apply andb_false_iff in Hn as [Hn|Hn]; [exists c; split; [left; auto|exact Hn]|].
              destruct (IH Hn) as (d & Hd & En). exists d. split; [right; exact Hd|exact En]. }
            destruct Hx as (c & Hc & En). exists (cov c). split; [apply in_app_iff; right; apply in_map, Hc|]. apply H; auto. }
        destruct Ex as (f & If & Of). apply (sum_one _ f If Of). intros g Hg. apply in_app_iff in Hg as [Hg|Hg]; apply in_map_iff in Hg as (y & <- & Hy).
        * apply scalable_zero; [apply base_inhabited|apply base_scalable, Hb, Hy].
        * apply scalable_zero; [apply covariances_inhabited|apply cov_scalable; auto].
      + apply orb_false_iff in Hn as [Hw Hn]. apply Z.ltb_ge in Hw. apply prod_one. intros g Hg.
        apply in_app_iff in Hg as [Hg|Hg]; apply in_map_iff in Hg as (y & <- & Hy).
        * apply base_one; [apply Hb, Hy|]. intros ->. apply in_bases_in in Hy. lia.
        * apply H; auto. destruct (noise_only y) eqn:E; [|reflexivity]. assert (existsb noise_only cts = true) by (apply existsb_exists; eauto). congruence.
    - apply sigmoid_free_change in S as [S1 S2]. rewrite non_empty_change in N. cbn [covariances noise_only] in *.
      assert (Hbr : forall d : branch, (forall x, d = inr x -> approximated (cov x) one \/ noise_only x = true) -> (forall b, d = inl b -> is_sigmoid b = false) ->
        match d with inl b => base_eqb b bWN | inr x => noise_only x end = false -> approximated (branch_covariances true d) one).
      { intros [b|x] Hx Hs Hd; cbn [branch_covariances].
        - apply base_one; [apply Hs; reflexivity|]. intros ->. discriminate.
        - destruct (Hx x eq_refl) as [?|?]; [assumption|congruence]. }
      assert (Act : forall d b, d = inl b -> (l = d \/ r = d) -> is_sigmoid b = false).
      { intros d b -> Hd. destruct (is_sigmoid b) eqn:E; [|reflexivity]. destruct (S1 b E) as [A B]. destruct Hd; congruence. }
      assert (Inh : forall d : branch, exists K, branch_covariances true d K) by (intros [b|x]; [apply base_inhabited|apply covariances_inhabited]).
      apply can_be_iff. apply andb_false_iff in Hn as [Hn|Hn].
      + eapply within_trans; [|apply change_left, (Inh r)]. apply can_be_iff. apply (Hbr l); [|intros b Eb; apply (Act l b Eb); auto|exact Hn].
        intros x ->. destruct (noise_only x) eqn:E; [right; reflexivity|left]. apply H; auto.
      + eapply within_trans; [|apply change_right, (Inh l)]. apply can_be_iff. apply (Hbr r); [|intros b Eb; apply (Act r b Eb); auto|exact Hn].
        intros x ->. destruct (noise_only x) eqn:E; [right; reflexivity|left]. apply H0; auto.
  Qed.
  Lemma noise_uncorrelated off e : sigmoid_free e -> noise_only e = true -> forall K, covariances off e K -> uncorrelated K.
  Proof.
    assert (WN : forall K, base_family off bWN K -> uncorrelated K).
    { intros K (v & _ & E) x i j Hij. rewrite E. destruct (Nat.eqb_spec i j); [congruence|reflexivity]. }
    induction e using kex_ind'; intros S Hn K HK x i j Hij.
    - apply sigmoid_free_comm in S as [S1 S2]. cbn [covariances] in HK. destruct k; cbn [noise_only] in Hn.
      + apply andb_prop in Hn as [Hb Hc]. rewrite forallb_forall in Hb, Hc.
        assert (G : forall l K, (forall (f : family) K', In f l -> f K' -> uncorrelated K') -> combine_all KSum l K -> uncorrelated K).
        { clear. induction l as [|f l IH]; intros K Hl HK x i j Hij; [apply HK|]. destruct HK as (K1 & K2 & H1 & H2 & E). rewrite E. cbn [op].
          rewrite (Hl f K1 (or_introl eq_refl) H1 x i j Hij), (IH K2 (fun g K' Hg => Hl g K' (or_intror Hg)) H2 x i j Hij). ring. }
        refine (G _ K _ HK x i j Hij). intros f K' Hf HK'. apply in_app_iff in Hf as [Hf|Hf]; apply in_map_iff in Hf as (y & <- & Hy).
        * apply in_bases_in in Hy. specialize (Hb y (all_bases_in y)). apply orb_prop in Hb as [Hb|Hb]; [apply Z.leb_le in Hb; lia|].
          apply base_eqb_spec in Hb. subst y. apply WN, HK'.
        * apply (H y Hy (S2 y Hy) (Hc y Hy) K' HK').
      + assert (G : forall l K, (exists f : family, In f l /\ forall K', f K' -> uncorrelated K') -> combine_all KProd l K -> uncorrelated K).
        { clear. induction l as [|f l IH]; intros K (f0 & If & Hf) HK x i j Hij; [destruct If|]. destruct HK as (K1 & K2 & H1 & H2 & E). rewrite E. cbn [op].
          destruct If as [->|If]; [rewrite (Hf K1 H1 x i j Hij); ring|]. rewrite (IH K2 (ex_intro _ f0 (conj If Hf)) H2 x i j Hij). ring. }
        refine (G _ K _ HK x i j Hij). apply orb_prop in Hn as [Hn|Hn].
        * exists (base_family off bWN). split; [|exact WN]. apply in_app_iff; left. apply in_map, in_bases_in. apply Z.ltb_lt in Hn. exact Hn.
        * apply existsb_exists in Hn as (c & Hc & En). exists (covariances off c). split; [apply in_app_iff; right; apply in_map, Hc|]. intros K' HK'. apply (H c Hc (S2 c Hc) En K' HK').
    - apply sigmoid_free_change in S as [S1 S2]. cbn [covariances noise_only] in *. apply andb_prop in Hn as [Hl Hr].
      destruct HK as (K1 & K2 & lo & w & H1 & H2 & _ & E). rewrite E.
      assert (U1 : uncorrelated K1). { destruct l as [b|y]; [apply base_eqb_spec in Hl; subst b; apply WN, H1|]. apply (H y eq_refl); auto. }
      assert (U2 : uncorrelated K2). { destruct r as [b|y]; [apply base_eqb_spec in Hr; subst b; apply WN, H2|]. apply (H0 y eq_refl); auto. }
      rewrite (U1 x i j Hij), (U2 x i j Hij). ring.
  Qed.
  Lemma branch_one b : standard true b -> noise_branch b = false -> approximated (branch_covariances true b) one.
  Proof.
    destruct b as [b|x]; intros S N.
    - apply base_one; [exact S|]. intros ->. discriminate.
    - destruct S as (_ & _ & Ne & Sf). apply not_noise_one; assumption.
  Qed.
  Lemma branch_noise off b K : standard off b -> noise_branch b = true -> branch_covariances off b K -> uncorrelated K.
  Proof.
    destruct b as [b|x]; intros S N.
    - apply base_eqb_spec in N. subst b. intros (v & _ & E) x i j Hij. rewrite E. destruct (Nat.eqb_spec i j); [congruence|reflexivity].
    - destruct S as (_ & _ & _ & Sf). apply noise_uncorrelated; assumption.
  Qed.
End Noise.

Section Public.
  Local Open Scope R_scope.
  Lemma multiply_cov off a b : standard off a -> standard off b ->
    same_family (covariances off (multiply off a b)) (combine2 KProd (branch_covariances off a) (branch_covariances off b)).
  Proof.
    intros Sa Sb. apply multiply_family; try (apply standard_operand; assumption). intros x [E|E]; [exact (standard_normal _ _ _ Sa E)|exact (standard_normal _ _ _ Sb E)].
  Qed.
  Theorem add_expresses : forall offset a b, standard offset a -> standard offset b ->
    forall K, branch_covariances offset a K \/ branch_covariances offset b K -> approximated (covariances offset (add offset a b)) K.
  Proof. intros offset a b Sa Sb K H. destruct (add_grows offset a b Sa Sb) as [A B]. destruct H as [H|H]; [apply A, H|apply B, H]. Qed.
  Theorem multiply_expresses : forall a b, standard true a -> standard true b -> noise_branch b = false ->
    forall K, branch_covariances true a K -> approximated (covariances true (multiply true a b)) K.
  Proof.
    intros a b Sa Sb Nb K H.
    assert (W : within (branch_covariances true a) (covariances true (multiply true a b))); [|apply W, H].
    eapply within_trans; [|apply same_within; symmetry; apply multiply_cov; assumption]. apply times_one, branch_one; assumption.
  Qed.
  Theorem multiply_noise : forall offset a b, standard offset a -> standard offset b -> noise_branch b = true ->
    forall K, covariances offset (multiply offset a b) K -> uncorrelated K.
  Proof.
    intros offset a b Sa Sb Nb K H. apply (multiply_cov offset a b Sa Sb) in H. destruct H as (K1 & K2 & H1 & H2 & E).
    pose proof (branch_noise offset b K2 Sb Nb H2) as U. intros x i j Hij. rewrite E. cbn [op]. rewrite (U x i j Hij). ring.
  Qed.
  Theorem multiply_iff : forall a b, standard true a -> standard true b -> noise_branch a = false ->
    ((forall K, branch_covariances true a K -> approximated (covariances true (multiply true a b)) K) <-> noise_branch b = false).
  Proof.
    intros a b Sa Sb Na. split; [|intros Nb; apply multiply_expresses; assumption].
    intros H. destruct (noise_branch b) eqn:Nb; [|reflexivity]. exfalso.
    destruct (branch_one a Sa Na (fun i => INR i) 2%nat (/ 2)) as (K & HK & A); [lra|]. specialize (A 0%nat 1%nat ltac:(lia) ltac:(lia)). unfold one in A.
    destruct (H K HK (fun i => INR i) 2%nat (/ 4)) as (K' & HK' & B); [lra|]. specialize (B 0%nat 1%nat ltac:(lia) ltac:(lia)).
    rewrite (multiply_noise true a b Sa Sb Nb K' HK' (fun i => INR i) 0%nat 1%nat) in B by discriminate.
    apply Rabs_def2 in A, B. lra.
  Qed.
  Theorem change_expresses : forall offset c a b, standard offset a -> standard offset b ->
    forall K, branch_covariances offset a K \/ branch_covariances offset b K -> approximated (covariances offset (mk_change offset c a b)) K.
  Proof.
    intros offset c a b Sa Sb.
    assert (Inh : forall d : branch, exists K, branch_covariances offset d K) by (intros [d|x]; [apply base_inhabited|apply covariances_inhabited]).
    assert (E : same_family (covariances offset (mk_change offset c a b)) (change_family c (branch_covariances offset a) (branch_covariances offset b))).
    { unfold mk_change. cbn [simplify covariances].
      assert (HB : forall d, standard offset d -> same_family (branch_covariances offset (match d with inl b => inl b | inr x => extract (simplify offset x) end)) (branch_covariances offset d)).
      { intros [d|x] Sd; [reflexivity|]. destruct Sd as (_ & Nx & _). rewrite normal_fix by exact Nx. apply cov_extract, wf_top_of. eapply normal_wf, Nx. }
      apply change_family_proper; [apply (HB a Sa)|apply (HB b Sb)]. }
    intros K H. destruct H as [H|H].
    - assert (W : within (branch_covariances offset a) (covariances offset (mk_change offset c a b))); [|apply W, H].
      eapply within_trans; [|apply same_within; symmetry; exact E]. apply change_left, Inh.
    - assert (W : within (branch_covariances offset b) (covariances offset (mk_change offset c a b))); [|apply W, H].
      eapply within_trans; [|apply same_within; symmetry; exact E]. apply change_right, Inh.
  Qed.
End Public.

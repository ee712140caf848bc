(** C02 for constructors, C07 for add and multiply, C12. *)
From Coq Require Import Reals Lra List Bool Arith ZArith Lia Permutation Morphisms Setoid.
From Verif Require Import Py UtilModel UtilSpec UtilProofs KexModel KexSpec KexProofs KexSimp KexMore OpsModel KexCong KernModel KernSpec KernProper SemModel SemSpec SemProofs SemSimp.
Import ListNotations.
Local Open Scope Z_scope.

(** ** Occurrences in simplified expressions *)
Section Occurs.
  Variable offset : bool.
  Lemma simp_base_le k c n b : nodup c -> nonneg c -> cget (simp_base offset k c n) b <= cget c b.
  Proof.
    intros N NN. pose proof (NN b) as Hb. destruct k.
    - rewrite cget_simp_sum by assumption. destruct b; try lia. destruct (offset && _); lia.
    - rewrite cget_simp_prod by assumption. destruct (Z.ltb_spec 0 (cget c bWN)).
      + destruct b; try lia.
      + destruct b; try lia. destruct (Z.ltb_spec 0 (cget c bC)); [|lia]. destruct (lone_c c n); lia.
  Qed.
  Lemma bases_of_occ l b : In b (bases_of (map extract l)) -> (forall c, In c l -> wf_top c) -> exists c, In c l /\ occurs b c.
  Proof.
    unfold bases_of. intros Hb W. apply in_concat in Hb as (m & Hm & Hb). apply in_map_iff in Hm as (y & <- & Hy).
    apply in_map_iff in Hy as (z & <- & Hz). exists z. split; [exact Hz|]. specialize (W z Hz). destruct z as [kz bz cz|]; [|destruct Hb].
    destruct (extract_spec kz bz cz W) as [(b0 & -> & -> & Ez)|[(c & -> & -> & Ez)|(_ & Ez)]]; rewrite Ez in Hb; cbn in Hb; try tauto.
    destruct Hb as [<-|[]]. apply occurs_comm. left. rewrite cget_cons, base_eqb_refl. lia.
  Qed.
  Lemma occurs_node b e n : node n e -> occurs b n -> occurs b e.
  Proof.
    intros Hn [(k & bts & cts & Hm & Hp)|(c & l & r & Hm & Hp)].
    - left. exists k, bts, cts. split; [eapply node_trans; eauto|exact Hp].
    - right. exists c, l, r. split; [eapply node_trans; eauto|exact Hp].
  Qed.
  Lemma hsum_occ hs b : 0 < hsum hs b -> exists h, In h hs /\ 0 < cget (bts_of h) b.
  Proof.
    induction hs as [|h hs IH]; cbn; [lia|]. intros H. destruct (Z.ltb_spec 0 (cget (bts_of h) b)); [exists h; auto|].
    destruct IH as (h' & Hh & Hp); [unfold hsum in *; cbn in *; lia|]. exists h'; auto.
  Qed.
  Lemma bts_occurs h b : 0 < cget (bts_of h) b -> occurs b h.
  Proof. destruct h; simpl; [|unfold cget; simpl; lia]. intros. apply occurs_comm. auto. Qed.
  Lemma simp_node_occurs k bts cts b : wf_counter bts -> (forall c, In c cts -> wf c) ->
    occurs b (simp_node offset k bts cts) -> 0 < cget bts b \/ exists c, In c cts /\ occurs b c.
  Proof.
    intros W Wc. destruct (simp_node_spec offset k bts cts) as (ns & L & P & E). cbv zeta in E. rewrite E. clear E.
    set (hs := filter (is_kind k) cts) in *. set (hb := absorb_bts offset k bts hs ns) in *.
    assert (Wb : wf_counter hb) by (apply absorb_bts_wf, W).
    assert (Wr : forall x, In x (raised k cts) -> exists c, In c cts /\ node x c).
    { intros x Hx. apply raised_in in Hx as (c & Hin & [->|Hk]); exists c; split; auto; [constructor|apply kids_node, Hk]. }
    assert (Wt : forall x, In x (raised k cts) -> wf_top x).
    { intros x Hx. destruct (Wr x Hx) as (c & Hin & Hn). apply wf_top_of. eapply wf_sub; [apply (Wc c Hin)|exact Hn]. }
    intros Ho. apply occurs_comm in Ho as [Hp|(x & Hx & Ho)].
    - set (c1 := cupdate_list hb (bases_of (map extract (raised k cts)))) in *.
      assert (N1 : nodup c1) by (apply cupdate_list_nodup, wf_nodup, Wb).
      assert (NN1 : nonneg c1) by (apply nonneg_cupdate_list, wf_nn, Wb).
      assert (H1 : 0 < cget c1 b).
      { eapply Z.lt_le_trans; [exact Hp|]. etransitivity; [apply simp_base_le; [apply simp_base_nodup|apply simp_base_nonneg]; exact N1|].
        apply simp_base_le; assumption. }
      unfold c1 in H1. rewrite cget_cupdate_list in H1.
      destruct (count_occ base_eq_dec (bases_of (map extract (raised k cts))) b) eqn:Ec.
      + assert (Hh : 0 < cget hb b) by lia. destruct hs as [|h hs'] eqn:Ehs.
        * left. exact Hh.
        * assert (Whs : forall x, In x hs -> wf_counter (bts_of x)).
          { intros y Hy. unfold hs in Hy. apply filter_In in Hy as [Hy _]. apply wf_top_of, Wc, Hy. }
          assert (Hcl : ceq hb (simp_base offset k (total bts hs) 1)).
          { unfold hb. rewrite <- Ehs. apply absorb_bts_closed; [rewrite Ehs; discriminate|rewrite Ehs; exact L|exact P|apply wf_nodup, W|apply wf_nn, W|exact Whs]. }
          rewrite Hcl in Hh.
          assert (NNt : nonneg (total bts hs)).
          { intros y. rewrite cget_total by exact Whs. pose proof (hsum_nonneg hs y Whs). pose proof (wf_nonneg _ y W). lia. }
          assert (Hle : cget (simp_base offset k (total bts hs) 1) b <= cget (total bts hs) b) by (apply simp_base_le; [apply total_nodup, wf_nodup, W|exact NNt]).
          rewrite (cget_total bts hs b) in Hle by exact Whs. destruct (Z.ltb_spec 0 (cget bts b)); [left; assumption|right].
          destruct (hsum_occ hs b) as (h' & Hin & Hp'); [lia|]. unfold hs in Hin. apply filter_In in Hin as [Hin _].
          exists h'. split; [exact Hin|]. apply bts_occurs, Hp'.
      + right. destruct (bases_of_occ (raised k cts) b) as (x & Hx & Ho); [|exact Wt|].
        * apply (count_occ_In base_eq_dec). lia.
        * destruct (Wr x Hx) as (c & Hin & Hn). exists c. split; [exact Hin|]. eapply occurs_node; eauto.
    - right. apply kexs_of_in in Hx. apply in_map_iff in Hx as (y & Ey & Hy). destruct (Wr y Hy) as (c & Hin & Hn).
      exists c. split; [exact Hin|]. eapply occurs_node; [exact Hn|]. apply extract_inr in Ey as [->|Ek]; [exact Ho| |apply Wt, Hy].
      eapply occurs_node; [|exact Ho]. apply kids_node. rewrite Ek. left; auto.
  Qed.
  Lemma simplify_occurs b e : wf e -> occurs b (simplify offset e) -> occurs b e.
  Proof.
    induction e using kex_ind'; intros W Ho.
    - cbn [simplify] in Ho. apply wf_comm in W as [Wb Wc]. apply simp_node_occurs in Ho; [|exact Wb|].
      + apply occurs_comm. destruct Ho as [Hp|(c & Hin & Ho)]; [auto|right]. apply in_map_iff in Hin as (c0 & <- & Hc0). exists c0. split; [exact Hc0|]. auto.
      + intros c Hin. apply in_map_iff in Hin as (c0 & <- & Hc0). apply simplify_wf, Wc, Hc0.
    - cbn [simplify] in Ho. rewrite wf_change in W.
      assert (HB : forall br : branch, (forall x, br = inr x -> wf x /\ (occurs b (simplify offset x) -> occurs b x)) ->
        let br' := match br with inl b0 => inl b0 | inr x => extract (simplify offset x) end in
        (br' = inl b \/ exists x, br' = inr x /\ occurs b x) -> br = inl b \/ exists x, br = inr x /\ occurs b x).
      { intros [b0|x] Hx; cbv zeta; [intros [E|(x & E & _)]; [auto|discriminate]|]. destruct (Hx x eq_refl) as [Wx Ix].
        pose proof (wf_top_of _ (simplify_wf offset x Wx)) as Wt. intros HH. right. exists x. split; [reflexivity|]. apply Ix.
        destruct (simplify offset x) as [kz bz cz|cc l1 r1].
        - destruct (extract_spec kz bz cz Wt) as [(b0 & -> & -> & Ez)|[(c0 & -> & -> & Ez)|(_ & Ez)]]; rewrite Ez in HH.
          + destruct HH as [[= ->]|(x0 & E & _)]; [|discriminate]. apply occurs_comm. left. rewrite cget_cons, base_eqb_refl. lia.
          + destruct HH as [E|(x0 & [= ->] & Ho')]; [discriminate|]. apply occurs_comm. right. exists x0. split; [left; auto|exact Ho'].
          + destruct HH as [E|(x0 & [= <-] & Ho')]; [discriminate|]. exact Ho'.
        - destruct HH as [E|(x0 & [= <-] & Ho')]; [discriminate|]. exact Ho'. }
      apply occurs_change in Ho as [Ho|Ho]; apply occurs_change; [left|right]; (eapply HB; [|exact Ho]); intros x ->; auto.
  Qed.
  Lemma simplify_sigmoid_free e : wf e -> sigmoid_free e -> sigmoid_free (simplify offset e).
  Proof. intros W S b Hb Ho. apply (S b Hb). apply simplify_occurs; assumption. Qed.
End Occurs.

Lemma cardinality_weaken offset k bts n : cardinality offset k bts n -> cardinality false k bts n.
Proof. destruct k; [|exact (fun H => H)]. intros (H1 & H2 & _). repeat split; auto. discriminate. Qed.
Lemma normal_weaken offset e : normal offset e -> normal false e.
Proof.
  intros H n Hn. specialize (H n Hn). destruct n as [k bts cts|]; [|exact H]. destruct H as (W & C & G).
  split; [exact W|]. split; [eapply cardinality_weaken, C|exact G].
Qed.
Lemma pnf_weaken offset e : pnf offset e -> pnf false e.
Proof.
  destruct e; simpl.
  - intros (W & C & G). split; [exact W|]. split; [eapply cardinality_weaken, C|]. intros c Hc. destruct (G c Hc). split; auto. eapply normal_weaken; eauto.
  - intros G x Hx. destruct (G x Hx). split; auto. eapply normal_weaken; eauto.
Qed.

Section Sem.
  Variable o : bool.
  Notation cov := (covariances o).

  (** A normal, non-singleton product of base kernels has no factor C. *)
  Lemma normal_no_c offset k c : normal offset c -> ~ singleton c -> sigmoid_free c -> no_c_product k c.
  Proof.
    intros N S F _. destruct c as [[|] bts cts|]; auto. apply normal_iff in N. destruct N as (W & (_ & _ & C1 & C2) & _).
    apply sigmoid_free_comm in F as [F _]. pose proof (wf_nn _ W) as NN.
    destruct (Z.ltb_spec 0 (cget bts bC)) as [HC|HC]; [|specialize (NN bC); lia]. exfalso. apply S. apply singleton_comm.
    destruct (C2 HC) as [E0 Hz]. rewrite terms_bsum, bsum_expand, E0.
    pose proof (Hz bWN ltac:(discriminate) eq_refl). pose proof (Hz bLIN ltac:(discriminate) eq_refl).
    pose proof (Hz bSE ltac:(discriminate) eq_refl). pose proof (Hz bPER ltac:(discriminate) eq_refl).
    pose proof (F bS eq_refl). pose proof (F bSr eq_refl). pose proof (F bSI eq_refl). pose proof (F bSIr eq_refl).
    pose proof (NN bS). pose proof (NN bSr). pose proof (NN bSI). pose proof (NN bSIr). lia.
  Qed.

  Lemma key_fact bts cts : wf_counter bts -> (forall c, In c cts -> wf c /\ non_empty c /\ sigmoid_free c /\ no_c_product KProd c) ->
    filter (is_kind KProd) cts <> [] -> nonCs (total bts (filter (is_kind KProd) cts)) \/ raised KProd cts <> [].
  Proof.
    intros W H Hne. destruct (filter (is_kind KProd) cts) as [|h hs] eqn:E; [congruence|]. clear Hne.
    assert (Hin : In h (filter (is_kind KProd) cts)) by (rewrite E; left; auto). pose proof Hin as Hin'. apply filter_In in Hin' as [Hc Hk].
    destruct (H h Hc) as (Wh & Nh & Sh & Ch). destruct h as [k' hb hcs|]; [|discriminate]. cbn [is_kind] in Hk. apply kind_eqb_spec in Hk; subst k'.
    specialize (Ch eq_refl). cbn in Ch. destruct hcs as [|x t].
    - left. pose proof (non_empty_top _ Nh) as T. simpl in T. rewrite terms_bsum, bsum_expand in T. cbn [length] in T.
      apply sigmoid_free_comm in Sh as [Sb _].
      pose proof (Sb bS eq_refl). pose proof (Sb bSr eq_refl). pose proof (Sb bSI eq_refl). pose proof (Sb bSIr eq_refl).
      assert (Whs : forall x, In x (Comm KProd hb [] :: hs) -> wf_counter (bts_of x)).
      { intros x Hx. rewrite <- E in Hx. apply filter_In in Hx as [Hx _]. apply wf_top_of. apply (H x Hx). }
      assert (B : exists b, b <> bC /\ is_sigmoid b = false /\ 0 < cget hb b).
      { destruct (Z.ltb_spec 0 (cget hb bWN)); [exists bWN; repeat split; auto; discriminate|].
        destruct (Z.ltb_spec 0 (cget hb bLIN)); [exists bLIN; repeat split; auto; discriminate|].
        destruct (Z.ltb_spec 0 (cget hb bSE)); [exists bSE; repeat split; auto; discriminate|].
        exists bPER; repeat split; auto; [discriminate|lia]. }
      destruct B as (b & Hb & Hs & Hp). exists b. repeat split; auto. rewrite cget_total by exact Whs.
      pose proof (wf_nonneg _ b W). pose proof (hsum_nonneg hs b (fun x Hx => Whs x (or_intror Hx))).
      unfold hsum in *. cbn. lia.
    - right. unfold raised. rewrite E. intros R. apply app_eq_nil in R as [_ R]. discriminate.
  Qed.

  Lemma map_cov k l m : Forall2 (fun x y => same_family (cov x) (cov y)) l m -> same_family (fam_kexs o k l) (fam_kexs o k m).
  Proof. intros H. apply combine_all_proper. induction H; simpl; constructor; auto. Qed.

  Lemma pnf_cov e : pnf false e -> non_empty e -> sigmoid_free e -> same_family (cov (simplify false e)) (cov e).
  Proof.
    intros P N S. destruct e as [k bts cts|c l r].
    2:{ rewrite normal_fix by (apply normal_iff; exact P). reflexivity. }
    destruct P as (W & Hc & Hk). cbn [simplify].
    assert (E : map (simplify false) cts = cts).
    { rewrite <- (map_id cts) at 2. apply map_ext_in. intros c Hin. apply normal_fix, Hk, Hin. }
    rewrite E. clear E. apply non_empty_comm in N as [T Nk]. apply sigmoid_free_comm in S as [Sb Sk]. rewrite cov_comm.
    apply simp_node_cov; auto.
    - intros c Hin. split; [eapply normal_wf; apply (Hk c Hin)|]. auto.
    - intros -> Hne _. apply key_fact; auto. intros c Hin. destruct (Hk c Hin) as [Nc Sc].
      split; [eapply normal_wf, Nc|]. split; [auto|]. split; [auto|]. eapply normal_no_c; eauto.
  Qed.

  Lemma mk_cov k bts cts : wf_counter bts -> (forall b, is_sigmoid b = true -> ~ 0 < cget bts b) ->
    (forall c, In c cts -> pnf false c /\ non_empty c /\ sigmoid_free c /\ no_c_product k c) ->
    same_family (cov (mk false k bts cts)) (cov (Comm k bts cts)).
  Proof.
    intros W Sb H. unfold mk. cbn [simplify].
    assert (Hs : forall c, In c (map (simplify false) cts) -> wf c /\ non_empty c /\ sigmoid_free c /\ no_c_product k c).
    { intros c Hc. apply in_map_iff in Hc as (c0 & <- & Hc0). destruct (H c0 Hc0) as (P & N & S & C).
      split; [eapply normal_wf, pnf_simplify, P|]. split; [apply pnf_simplify_non_empty; assumption|].
      split; [apply simplify_sigmoid_free; [eapply pnf_wf, P|exact S]|apply pnf_simplify_no_c; assumption]. }
    rewrite simp_node_cov; auto.
    - rewrite cov_comm. rewrite (map_cov k (map (simplify false) cts) cts); [reflexivity|].
      assert (G : forall c, In c cts -> same_family (cov (simplify false c)) (cov c)).
      { intros c Hc. destruct (H c Hc) as (P & N & S & _). apply pnf_cov; assumption. }
      clear - G. induction cts as [|c t IH]; simpl; constructor; [apply G; left; auto|apply IH; intros; apply G; right; auto].
    - intros c Hc. destruct (Hs c Hc) as (? & ? & ? & _). auto.
    - intros -> Hne _. apply key_fact; auto.
  Qed.
  Lemma mk_change_cov c l r : (forall x, l = inr x \/ r = inr x -> pnf false x /\ non_empty x /\ sigmoid_free x) ->
    same_family (cov (mk_change false c l r)) (cov (Change c l r)).
  Proof.
    intros H. unfold mk_change. cbn [simplify covariances].
    assert (HB : forall br : branch, (forall x, br = inr x -> pnf false x /\ non_empty x /\ sigmoid_free x) ->
      same_family (branch_covariances o (match br with inl b => inl b | inr x => extract (simplify false x) end)) (branch_covariances o br)).
    { intros [b|x] Hx; [reflexivity|]. destruct (Hx x eq_refl) as (P & N & S). rewrite cov_extract by (eapply normal_wf_top, pnf_simplify, P).
      cbn [branch_covariances]. apply pnf_cov; assumption. }
    apply change_family_proper; [apply (HB l)|apply (HB r)]; intros x ->; apply H; auto.
  Qed.

  (** ** Public versions *)
  Definition fine (off : bool) (e : kex) : Prop := built off e /\ non_empty e /\ sigmoid_free e.
  Lemma fine_pnf off e : fine off e -> pnf false e /\ non_empty e /\ sigmoid_free e.
  Proof. intros (B & N & S). split; [eapply pnf_weaken, built_pnf, B|auto]. Qed.
End Sem.

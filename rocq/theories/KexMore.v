(** Proofs: built expressions, non-emptiness, traversal, base containment. *)
From Coq Require Import List Bool Arith ZArith Lia Permutation Sorted.
From Verif Require Import Py UtilModel UtilSpec UtilProofs KexModel KexSpec KexProofs KexSimp.
Import ListNotations.
Local Open Scope Z_scope.

Section WithOffset.
  Variable offset : bool.

  Lemma built_pnf e : built offset e -> pnf offset e.
  Proof.
    induction 1.
    - apply mk_pnf; [apply counter_of_wf|auto].
    - apply mk_pnf; auto.
    - apply mk_change_pnf; auto.
    - apply normal_pnf, pnf_simplify, IHbuilt.
    - eapply pnf_node; eauto.
  Qed.
  Lemma built_wf e : built offset e -> wf e.
  Proof. intros H. eapply pnf_wf, built_pnf, H. Qed.
  Lemma initialise_normal e : built offset e ->
    normal offset (initialise offset e) /\ simplify offset (initialise offset e) = initialise offset e.
  Proof.
    intros H. assert (N : normal offset (initialise offset e)) by (apply pnf_simplify, built_pnf, H).
    split; [exact N|apply normal_fix, N].
  Qed.

  (** ** Non-emptiness (C03) *)
  Definition nonC (c : counter) : Prop := exists b, b <> bC /\ 0 < cget c b.
  Lemma nonC_pos c : nodup c -> nonneg c -> nonC c -> 0 < csum c.
  Proof.
    intros N NN (b & _ & Hb). rewrite (csum_bsum _ N), bsum_expand.
    pose proof (NN bWN). pose proof (NN bC). pose proof (NN bLIN). pose proof (NN bSE). pose proof (NN bPER).
    pose proof (NN bS). pose proof (NN bSr). pose proof (NN bSI). pose proof (NN bSIr). destruct b; lia.
  Qed.
  Lemma pos_some c : nodup c -> nonneg c -> (0 < csum c <-> exists b, 0 < cget c b).
  Proof.
    intros N NN. rewrite (csum_bsum _ N), bsum_expand. 
    pose proof (NN bWN). pose proof (NN bC). pose proof (NN bLIN). pose proof (NN bSE). pose proof (NN bPER).
    pose proof (NN bS). pose proof (NN bSr). pose proof (NN bSI). pose proof (NN bSIr). split.
    - intros Hs.
      destruct (Z.ltb_spec 0 (cget c bWN)); [eauto|]. destruct (Z.ltb_spec 0 (cget c bC)); [eauto|].
      destruct (Z.ltb_spec 0 (cget c bLIN)); [eauto|]. destruct (Z.ltb_spec 0 (cget c bSE)); [eauto|].
      destruct (Z.ltb_spec 0 (cget c bPER)); [eauto|]. destruct (Z.ltb_spec 0 (cget c bS)); [eauto|].
      destruct (Z.ltb_spec 0 (cget c bSr)); [eauto|]. destruct (Z.ltb_spec 0 (cget c bSI)); [eauto|].
      exists bSIr; lia.
    - intros (b & Hb). destruct b; lia.
  Qed.
  Lemma simp_base_nonC k c n : nodup c -> nonneg c -> nonC c -> nonC (simp_base offset k c n).
  Proof.
    intros N NN (b & Hb & Hp). destruct k.
    - exists b. rewrite cget_simp_sum by assumption. destruct b; try tauto; split; auto; lia.
    - destruct (Z.ltb_spec 0 (cget c bWN)) as [W|W].
      + exists bWN. rewrite cget_simp_prod by assumption. split; [discriminate|].
        destruct (Z.ltb_spec 0 (cget c bWN)); lia.
      + exists b. rewrite cget_simp_prod by assumption. split; [exact Hb|].
        destruct (Z.ltb_spec 0 (cget c bWN)); [lia|]. destruct b; try tauto; lia.
  Qed.
  Lemma simp_base_sum_pos c n : nodup c -> nonneg c -> 0 < csum c -> 0 < csum (simp_base offset KSum c n).
  Proof.
    intros N NN. rewrite pos_some by assumption. intros (b & Hb).
    apply pos_some; [apply simp_base_nodup, N|apply simp_base_nonneg, N|].
    destruct (base_eq_dec b bC) as [->|Hc].
    - destruct (offset && (0 <? cget c bLIN)) eqn:E.
      + apply andb_true_iff in E as [_ E]. exists bLIN. rewrite cget_simp_sum by assumption. lia.
      + exists bC. rewrite cget_simp_sum, E by assumption. lia.
    - exists b. rewrite cget_simp_sum by assumption. destruct b; try congruence; lia.
  Qed.
  Lemma simp_base_pos k c n : nodup c -> nonneg c ->
    0 < csum c + Z.of_nat n -> 0 < csum (simp_base offset k c n) + Z.of_nat n.
  Proof.
    intros N NN H. destruct n as [|n].
    2:{ assert (0 <= csum (simp_base offset k c (S n))) by (apply wf_csum_nonneg, simp_base_wf, N). lia. }
    assert (Hs : 0 < csum c) by lia. clear H.
    destruct k; [pose proof (simp_base_sum_pos c 0 N NN Hs); lia|].
    enough (0 < csum (simp_base offset KProd c 0)) by lia.
    pose proof Hs as Hs'. rewrite pos_some in Hs' by assumption. destruct Hs' as (b & Hb).
    assert (D : nonC c \/ (forall x, x <> bC -> cget c x = 0)).
    { destruct (Z.ltb_spec 0 (csum c - cget c bC)) as [Hd|Hd].
      - left. destruct (base_eq_dec b bC) as [->|]; [|exists b; auto].
        rewrite (csum_bsum _ N), bsum_expand in Hd. pose proof (NN bSIr).
        destruct (Z.ltb_spec 0 (cget c bWN)); [exists bWN; split; [discriminate|lia]|].
        destruct (Z.ltb_spec 0 (cget c bLIN)); [exists bLIN; split; [discriminate|lia]|].
        destruct (Z.ltb_spec 0 (cget c bSE)); [exists bSE; split; [discriminate|lia]|].
        destruct (Z.ltb_spec 0 (cget c bPER)); [exists bPER; split; [discriminate|lia]|].
        destruct (Z.ltb_spec 0 (cget c bS)); [exists bS; split; [discriminate|lia]|].
        destruct (Z.ltb_spec 0 (cget c bSr)); [exists bSr; split; [discriminate|lia]|].
        destruct (Z.ltb_spec 0 (cget c bSI)); [exists bSI; split; [discriminate|lia]|].
        exists bSIr; split; [discriminate|lia].
      - right. intros x Hx. rewrite (csum_bsum _ N), bsum_expand in Hd.
        pose proof (NN bWN). pose proof (NN bC). pose proof (NN bLIN). pose proof (NN bSE). pose proof (NN bPER).
        pose proof (NN bS). pose proof (NN bSr). pose proof (NN bSI). pose proof (NN bSIr).
        destruct x; try congruence; lia. }
    destruct D as [D|D].
    - apply nonC_pos; [apply simp_base_nodup, N|apply simp_base_nonneg, N|apply simp_base_nonC; assumption].
    - apply pos_some; [apply simp_base_nodup, N|apply simp_base_nonneg, N|]. exists bC.
      rewrite cget_simp_prod by assumption. rewrite (D bWN) by discriminate. simpl.
      assert (b = bC) as -> by (destruct (base_eq_dec b bC); [assumption|rewrite D in Hb by assumption; lia]).
      destruct (Z.ltb_spec 0 (cget c bC)); [|lia].
      replace (lone_c c 0) with true; [lia|]. symmetry. apply lone_c_spec; auto.
      + apply D; discriminate.
      + repeat split; apply D; discriminate.
  Qed.

  (** Base terms gathered from same-type composites keep something other than C, if there is something. *)
  Lemma absorb_bts_nonC k b hs ns : length ns = length hs -> wf_counter b -> (forall h, In h hs -> wf_counter (bts_of h)) ->
    (nonC b \/ exists h, In h hs /\ nonC (bts_of h)) -> nonC (absorb_bts offset k b hs ns).
  Proof.
    unfold absorb_bts. revert b ns. induction hs as [|h hs IH]; intros b ns L W Wh H.
    - simpl. destruct H as [H|(h & [] & _)]. exact H.
    - destruct ns as [|n ns]; [discriminate|]. simpl.
      assert (Nb : nodup (cupdate b (bts_of h))) by (apply cupdate_nodup, wf_nodup, W).
      assert (Wh0 : wf_counter (bts_of h)) by (apply Wh; left; auto).
      assert (G : forall x, cget (cupdate b (bts_of h)) x = cget b x + cget (bts_of h) x)
        by (intros; apply cget_cupdate, wf_nodup, Wh0).
      assert (NN : nonneg (cupdate b (bts_of h))).
      { intros x. rewrite G. pose proof (wf_nonneg _ x W). pose proof (wf_nonneg _ x Wh0). lia. }
      apply IH.
      + simpl in L; congruence.
      + apply simp_base_wf, Nb.
      + intros; apply Wh; right; auto.
      + destruct H as [(x & Hx & Hp)|(h' & [<-|Hin] & (x & Hx & Hp))].
        * left. apply simp_base_nonC; auto. exists x; split; auto. rewrite G. pose proof (wf_nonneg _ x Wh0). lia.
        * left. apply simp_base_nonC; auto. exists x; split; auto. rewrite G. pose proof (wf_nonneg _ x W). lia.
        * right. exists h'; split; auto. exists x; auto.
  Qed.
  Lemma absorb_bts_sum_pos b hs ns : length ns = length hs -> wf_counter b -> (forall h, In h hs -> wf_counter (bts_of h)) ->
    (0 < csum b \/ exists h, In h hs /\ 0 < csum (bts_of h)) -> 0 < csum (absorb_bts offset KSum b hs ns).
  Proof.
    unfold absorb_bts. revert b ns. induction hs as [|h hs IH]; intros b ns L W Wh H.
    - simpl. destruct H as [H|(h & [] & _)]. exact H.
    - destruct ns as [|n ns]; [discriminate|]. cbn [combine fold_left fst snd].
      assert (Nb : nodup (cupdate b (bts_of h))) by (apply cupdate_nodup, wf_nodup, W).
      assert (Wh0 : wf_counter (bts_of h)) by (apply Wh; left; auto).
      assert (G : forall x, cget (cupdate b (bts_of h)) x = cget b x + cget (bts_of h) x)
        by (intros; apply cget_cupdate, wf_nodup, Wh0).
      assert (NN : nonneg (cupdate b (bts_of h))).
      { intros x. rewrite G. pose proof (wf_nonneg _ x W). pose proof (wf_nonneg _ x Wh0). lia. }
      assert (G' : csum (cupdate b (bts_of h)) = csum b + csum (bts_of h)).
      { rewrite (csum_bsum _ Nb), (csum_bsum b), (csum_bsum (bts_of h)) by (apply wf_nodup; assumption).
        rewrite !bsum_expand, !G. lia. }
      pose proof (wf_csum_nonneg _ W). pose proof (wf_csum_nonneg _ Wh0).
      apply IH.
      + simpl in L; congruence.
      + apply simp_base_wf, Nb.
      + intros; apply Wh; right; auto.
      + destruct H as [Hp|(h' & [<-|Hin] & Hp)].
        * left. apply simp_base_sum_pos; auto. lia.
        * left. apply simp_base_sum_pos; auto. lia.
        * right. exists h'; split; auto.
  Qed.

  (** One node, whose composites are already simplified and have terms. *)
  Definition has_terms (e : kex) : Prop :=
    match e with Comm _ bts cts => 0 < terms bts cts | Change _ _ _ => True end.

  Lemma singles_count l : (length (bases_of l) + length (kexs_of l) = length l)%nat.
  Proof.
    unfold bases_of, kexs_of. induction l as [|[b|x] t IH]; simpl; lia.
  Qed.
  Lemma csum_cupdate_list c l : nodup c -> csum (cupdate_list c l) = csum c + Z.of_nat (length l).
  Proof.
    revert c. induction l as [|b l IH]; intros c N; [change (cupdate_list c []) with c; cbn [length]; lia|].
    cbn [cupdate_list fold_left length]. fold (cupdate_list (cset c b (cget c b + 1)) l).
    rewrite IH by (apply cset_nodup, N).
    rewrite (csum_bsum _ (cset_nodup _ _ _ N)), (csum_bsum _ N), !bsum_expand, !cget_cset. destruct b; cbn [base_eqb]; lia.
  Qed.
  Lemma simp_node_has_terms k bts cts :
    wf_counter bts -> 0 < terms bts cts -> (forall c, In c cts -> wf_top c /\ has_terms c /\ no_c_product k c) ->
    has_terms (simp_node offset k bts cts).
  Proof.
    intros W T H. destruct (simp_node_spec offset k bts cts) as (ns & L & P & E). cbv zeta in E. rewrite E. clear E.
    set (hs := filter (is_kind k) cts) in *. set (hb := absorb_bts offset k bts hs ns).
    assert (Wb : wf_counter hb) by (apply absorb_bts_wf, W).
    assert (Whs : forall h, In h hs -> wf_counter (bts_of h)) by (intros h Hh; apply filter_In in Hh as [Hh _]; apply H, Hh).
    assert (Key : 0 < csum hb + Z.of_nat (length (raised k cts))).
    { pose proof (wf_csum_nonneg _ Wb) as Hb0. destruct (raised k cts) as [|x t] eqn:R; [|cbn [length]; lia].
      unfold raised in R. apply app_eq_nil in R as [R1 R2]. fold hs in R2.
      assert (Hk : forall h, In h hs -> kids h = []).
      { intros h Hh. destruct (kids h) as [|y ys] eqn:Ek; [reflexivity|].
        assert (In y (concat (map kids hs))) by (apply in_concat; exists (kids h); split; [apply in_map, Hh|rewrite Ek; left; auto]).
        rewrite R2 in *. contradiction. }
      assert (Hp : forall h, In h hs -> 0 < csum (bts_of h)).
      { intros h Hh. pose proof Hh as Hh'. apply filter_In in Hh' as [Hc K]. destruct h as [k' b' c'|]; [|discriminate].
        destruct (H _ Hc) as (Wt & Ht & _). specialize (Hk _ Hh). simpl in Hk; subst c'. simpl in Ht.
        rewrite terms_csum in Ht by (apply wf_nodup, Wt). simpl. cbn [length] in Ht. lia. }
      destruct hs as [|h hs'] eqn:Ehs.
      - assert (cts = []).
        { destruct cts as [|c t]; [reflexivity|]. exfalso. subst hs. simpl in Ehs, R1. destruct (is_kind k c); discriminate. }
        subst cts. rewrite terms_csum in T by (apply wf_nodup, W). unfold hb, absorb_bts. simpl. cbn [length] in T. lia.
      - cbn [length]. enough (0 < csum hb) by lia. destruct k.
        + apply absorb_bts_sum_pos; auto. right. exists h. split; [left; auto|]. apply Hp; left; auto.
        + apply nonC_pos; [apply wf_nodup, Wb|apply wf_nn, Wb|]. apply absorb_bts_nonC; auto.
          right. exists h. split; [left; auto|]. assert (Hh : In h hs) by (rewrite Ehs; left; auto).
          specialize (Hp h (or_introl eq_refl)). apply filter_In in Hh as [Hc K].
          destruct h as [k' b' c'|]; [|discriminate]. destruct k'; [discriminate K|].
          destruct (H _ Hc) as (Wt & _ & Hn). specialize (Hn eq_refl). simpl in *.
          apply pos_some in Hp; [|apply wf_nodup, Wt|apply wf_nn, Wt]. destruct Hp as (b & Hb). exists b; split; auto.
          intros ->. lia. }
    assert (N1 : nodup (cupdate_list hb (bases_of (map extract (raised k cts))))) by (apply cupdate_list_nodup, wf_nodup, Wb).
    assert (NN1 : nonneg (cupdate_list hb (bases_of (map extract (raised k cts))))).
    { intros b. rewrite cget_cupdate_list. pose proof (wf_nonneg _ b Wb). lia. }
    cbn [has_terms]. rewrite terms_csum by (apply simp_base_nodup, simp_base_nodup, N1).
    apply simp_base_pos; [apply simp_base_nodup, N1|apply simp_base_nonneg, N1|].
    apply simp_base_pos; [exact N1|exact NN1|].
    rewrite csum_cupdate_list by (apply wf_nodup, Wb).
    pose proof (singles_count (map extract (raised k cts))) as SC. rewrite map_length in SC. lia.
  Qed.

  Lemma non_empty_comm k bts cts : non_empty (Comm k bts cts) <-> 0 < terms bts cts /\ forall c, In c cts -> non_empty c.
  Proof.
    split.
    - intros H. split; [eapply H; constructor|]. intros c Hc k' b' c' Hn. eapply H. eapply node_comm; eauto.
    - intros [H1 H2] k' b' c' Hn. apply node_comm_inv in Hn as [[= -> -> ->]|(x & Hx & Hn)]; [exact H1|].
      eapply H2; eauto.
  Qed.
  Lemma non_empty_change c l r : non_empty (Change c l r) <-> forall x, l = inr x \/ r = inr x -> non_empty x.
  Proof.
    split.
    - intros H x Hx k' b' c' Hn. eapply H. destruct Hx as [->| ->]; [apply node_left|apply node_right]; eauto.
    - intros H k' b' c' Hn. apply node_change_inv in Hn as [E|[(x & -> & Hn)|(x & -> & Hn)]]; [discriminate| |];
        eapply H; eauto.
  Qed.
  Lemma non_empty_node e n : non_empty e -> node n e -> non_empty n.
  Proof. intros H Hn k b c Hm. eapply H. eapply node_trans; eauto. Qed.
  Lemma non_empty_top e : non_empty e -> has_terms e.
  Proof. intros H. destruct e; simpl; [|exact I]. eapply H. constructor. Qed.

  Lemma simp_node_non_empty k bts cts :
    wf_counter bts -> 0 < terms bts cts -> (forall c, In c cts -> wf c /\ non_empty c /\ no_c_product k c) ->
    non_empty (simp_node offset k bts cts).
  Proof.
    intros W T H. assert (HT : has_terms (simp_node offset k bts cts)).
    { apply simp_node_has_terms; auto. intros c Hc. destruct (H c Hc) as (Wc & Nc & Pc).
      split; [apply wf_top_of, Wc|]. split; [apply non_empty_top, Nc|exact Pc]. }
    destruct (simp_node offset k bts cts) as [k' b' c'|] eqn:E.
    2:{ destruct (simp_node_spec offset k bts cts) as (ns & _ & _ & E'). cbv zeta in E'. congruence. }
    apply non_empty_comm. split; [exact HT|]. intros x Hx.
    destruct (simp_node_cts offset k bts cts x) as (c & Hc & Hn).
    - intros c Hc. apply H, Hc.
    - rewrite E. exact Hx.
    - eapply non_empty_node; [apply (H c Hc)|exact Hn].
  Qed.

  (** A pre-normal non-empty expression stays non-empty when simplified (its composites are normal already), and a product
      without C stays without. *)
  Lemma terms_not_one k bts cts : ~ singleton (Comm k bts cts) -> 0 < terms bts cts -> 2 <= terms bts cts.
  Proof. rewrite singleton_comm. lia. Qed.

  Lemma csum_two_nonC c : wf_counter c -> 2 <= csum c -> cget c bC <= 1 -> nonC c.
  Proof.
    intros W H H1. pose proof (wf_nn _ W) as NN. rewrite (csum_bsum _ (wf_nodup _ W)), bsum_expand in H.
    destruct (Z.ltb_spec 0 (cget c bWN)); [exists bWN; split; [discriminate|lia]|].
    destruct (Z.ltb_spec 0 (cget c bLIN)); [exists bLIN; split; [discriminate|lia]|].
    destruct (Z.ltb_spec 0 (cget c bSE)); [exists bSE; split; [discriminate|lia]|].
    destruct (Z.ltb_spec 0 (cget c bPER)); [exists bPER; split; [discriminate|lia]|].
    destruct (Z.ltb_spec 0 (cget c bS)); [exists bS; split; [discriminate|lia]|].
    destruct (Z.ltb_spec 0 (cget c bSr)); [exists bSr; split; [discriminate|lia]|].
    destruct (Z.ltb_spec 0 (cget c bSI)); [exists bSI; split; [discriminate|lia]|].
    exists bSIr; split; [discriminate|lia].
  Qed.

  Lemma pnf_simplify_non_empty e : pnf offset e -> non_empty e -> non_empty (simplify offset e).
  Proof.
    destruct e as [k bts cts|c l r]; intros P N.
    2:{ rewrite normal_fix by (apply normal_iff; exact P). exact N. }
    destruct P as (W & Hc & Hk). cbn [simplify].
    assert (E : map (simplify offset) cts = cts).
    { rewrite <- (map_id cts) at 2. apply map_ext_in. intros c Hin. apply normal_fix, Hk, Hin. }
    rewrite E. clear E. apply non_empty_comm in N as [T Nk].
    (* top node: as simp_node_has_terms, but using that kids have at least two terms *)
    assert (HT : has_terms (simp_node offset k bts cts)).
    { destruct (simp_node_spec offset k bts cts) as (ns & L & P & E). cbv zeta in E. rewrite E. clear E.
      set (hs := filter (is_kind k) cts) in *. set (hb := absorb_bts offset k bts hs ns).
      assert (Wb : wf_counter hb) by (apply absorb_bts_wf, W).
      assert (Whs : forall h, In h hs -> wf_counter (bts_of h)).
      { intros h Hh; apply filter_In in Hh as [Hh _]. apply (normal_wf_top offset). apply Hk, Hh. }
      assert (Key : 0 < csum hb + Z.of_nat (length (raised k cts))).
      { pose proof (wf_csum_nonneg _ Wb) as Hb0. destruct (raised k cts) as [|x t] eqn:R; [|cbn [length]; lia].
        unfold raised in R. apply app_eq_nil in R as [R1 R2]. fold hs in R2.
        assert (Hkids : forall h, In h hs -> kids h = []).
        { intros h Hh. destruct (kids h) as [|y ys] eqn:Ek; [reflexivity|].
          assert (In y (concat (map kids hs))) by (apply in_concat; exists (kids h); split; [apply in_map, Hh|rewrite Ek; left; auto]).
          rewrite R2 in *. contradiction. }
        assert (Hp : forall h, In h hs -> nonC (bts_of h)).
        { intros h Hh. pose proof Hh as Hh'. apply filter_In in Hh' as [Hcc K]. destruct h as [k' b' c'|]; [|discriminate].
          destruct (Hk _ Hcc) as [Nh Sh]. specialize (Hkids _ Hh). simpl in Hkids; subst c'.
          pose proof (non_empty_top _ (Nk _ Hcc)) as Tt. simpl in Tt.
          pose proof (terms_not_one _ _ _ Sh Tt) as T2. apply normal_iff in Nh. destruct Nh as (Wh & Ch & _).
          rewrite terms_csum in T2 by (apply wf_nodup, Wh). cbn [length] in T2. simpl.
          apply csum_two_nonC; [exact Wh|lia|]. destruct k'; [apply Ch|apply Ch]. }
        destruct hs as [|h hs'] eqn:Ehs.
        - assert (cts = []).
          { destruct cts as [|c t]; [reflexivity|]. exfalso. subst hs. simpl in Ehs, R1. destruct (is_kind k c); discriminate. }
          subst cts. rewrite terms_csum in T by (apply wf_nodup, W). unfold hb, absorb_bts. simpl. cbn [length] in T. lia.
        - cbn [length]. enough (0 < csum hb) by lia. apply nonC_pos; [apply wf_nodup, Wb|apply wf_nn, Wb|].
          apply absorb_bts_nonC; auto. right. exists h. split; [left; auto|]. apply Hp. left; auto. }
      assert (N1 : nodup (cupdate_list hb (bases_of (map extract (raised k cts))))) by (apply cupdate_list_nodup, wf_nodup, Wb).
      assert (NN1 : nonneg (cupdate_list hb (bases_of (map extract (raised k cts))))).
      { intros b. rewrite cget_cupdate_list. pose proof (wf_nonneg _ b Wb). lia. }
      cbn [has_terms]. rewrite terms_csum by (apply simp_base_nodup, simp_base_nodup, N1).
      apply simp_base_pos; [apply simp_base_nodup, N1|apply simp_base_nonneg, N1|].
      apply simp_base_pos; [exact N1|exact NN1|].
      rewrite csum_cupdate_list by (apply wf_nodup, Wb).
      pose proof (singles_count (map extract (raised k cts))) as SC. rewrite map_length in SC. lia. }
    destruct (simp_node offset k bts cts) as [k' b' c'|] eqn:E.
    2:{ destruct (simp_node_spec offset k bts cts) as (ns & _ & _ & E'). cbv zeta in E'. congruence. }
    apply non_empty_comm. split; [exact HT|]. intros x Hx.
    destruct (simp_node_cts offset k bts cts x) as (c & Hcc & Hn).
    - intros c Hcc. apply (normal_wf offset). apply Hk, Hcc.
    - rewrite E. exact Hx.
    - eapply non_empty_node; [apply (Nk c Hcc)|exact Hn].
  Qed.
  Lemma pnf_simplify_no_c e k : pnf offset e -> no_c_product k e -> no_c_product k (simplify offset e).
  Proof.
    intros P Hn Hk. specialize (Hn Hk). destruct e as [[|] bts cts|c l r].
    - cbn [simplify]. destruct (simp_node_spec offset KSum bts (map (simplify offset) cts)) as (ns & _ & _ & E'). cbv zeta in E'.
      rewrite E'. exact I.
    - destruct P as (W & Hc & Hks). cbn [simplify].
      assert (E : map (simplify offset) cts = cts).
      { rewrite <- (map_id cts) at 2. apply map_ext_in. intros c Hin. apply normal_fix, Hks, Hin. }
      rewrite E. clear E.
      destruct (simp_node_spec offset KProd bts cts) as (ns & L & Pn & E). cbv zeta in E. rewrite E. clear E.
      set (hs := filter (is_kind KProd) cts) in *. set (hb := absorb_bts offset KProd bts hs ns).
      assert (Wb : wf_counter hb) by (apply absorb_bts_wf, W).
      assert (S : forall c, In c (raised KProd cts) -> wf_top c /\ ~ singleton c).
      { intros c Hin. destruct (raised_normal offset KProd cts c (fun c Hin => proj1 (Hks c Hin)) Hin) as [Nc Kc].
        split; [eapply normal_wf_top, Nc|]. unfold raised in Hin. apply in_app_iff in Hin as [Hin|Hin].
        - apply filter_In in Hin as [Hin _]. apply Hks, Hin.
        - apply in_concat in Hin as (m & Hm & Hx). apply in_map_iff in Hm as (h & <- & Hh). apply filter_In in Hh as [Hh Kh].
          destruct (Hks h Hh) as [Nh _]. apply normal_iff in Nh. destruct h; [|discriminate].
          destruct Nh as (_ & _ & G). apply (G c Hx). }
      destruct (singles_self (raised KProd cts) S) as [R1 R2]. rewrite R1, R2. cbn [cupdate_list fold_left].
      assert (Z0 : cget hb bC = 0).
      { assert (Whs : forall h, In h hs -> wf_counter (bts_of h)).
        { intros h Hh; apply filter_In in Hh as [Hh _]. apply (normal_wf_top offset). apply Hks, Hh. }
        assert (Hl : forall hs ns b, wf_counter b -> cget b bC = 0 -> Forall (fun n => (0 < n)%nat) ns ->
                  (forall h, In h hs -> wf_counter (bts_of h)) -> cget (absorb_bts offset KProd b hs ns) bC = 0).
        { clear. intros hs. induction hs as [|h hs IH]; intros ns b W0 Hz Hn Wh; [exact Hz|].
          unfold absorb_bts. destruct ns as [|n ns]; [exact Hz|]. cbn [combine fold_left fst snd].
          assert (N0 : nodup (cupdate b (bts_of h))) by (apply cupdate_nodup, wf_nodup, W0).
          assert (NN : nonneg (cupdate b (bts_of h))).
          { intros x. rewrite cget_cupdate by (apply wf_nodup, Wh; left; auto).
            pose proof (wf_nonneg _ x W0). pose proof (wf_nonneg _ x (Wh h (or_introl eq_refl))). lia. }
          apply IH; [apply simp_base_wf, N0| |inversion Hn; auto|intros; apply Wh; right; auto].
          rewrite cget_simp_prod by assumption.
          destruct (Z.ltb_spec 0 (cget (cupdate b (bts_of h)) bWN)); [reflexivity|].
          destruct (0 <? cget (cupdate b (bts_of h)) bC); [|reflexivity].
          destruct (lone_c (cupdate b (bts_of h)) n) eqn:Lc; [|reflexivity].
          apply lone_c_spec in Lc; auto; [|pose proof (NN bWN); lia]. inversion Hn; lia. }
        apply Hl; auto. }
      assert (St : forall c n, nodup c -> nonneg c -> cget c bC = 0 -> cget (simp_base offset KProd c n) bC = 0).
      { clear. intros c n N NN Hz. rewrite cget_simp_prod by assumption. rewrite Hz. simpl. destruct (0 <? cget c bWN); reflexivity. }
      apply St; [apply simp_base_nodup, wf_nodup, Wb|apply simp_base_nonneg, wf_nodup, Wb|].
      apply St; [apply wf_nodup, Wb|apply wf_nn, Wb|exact Z0].
    - exact I.
  Qed.

  Lemma mk_non_empty k bts cts :
    wf_counter bts -> 0 < terms bts cts ->
    (forall c, In c cts -> built offset c /\ non_empty c /\ no_c_product k c) ->
    non_empty (mk offset k bts cts).
  Proof.
    intros W T H. unfold mk. cbn [simplify]. apply simp_node_non_empty; [exact W| |].
    - unfold terms in *. rewrite map_length. exact T.
    - intros c Hc. apply in_map_iff in Hc as (c0 & <- & Hc0). destruct (H c0 Hc0) as (B & N & P).
      apply built_pnf in B. split; [|split].
      + eapply normal_wf, pnf_simplify, B.
      + apply pnf_simplify_non_empty; assumption.
      + apply pnf_simplify_no_c; assumption.
  Qed.
  Lemma extract_non_empty e x : wf_top e -> non_empty e -> extract e = inr x -> non_empty x.
  Proof.
    intros W N E. apply extract_inr in E as [->|E]; [exact N| |exact W].
    eapply non_empty_node; [exact N|]. apply kids_node. rewrite E; left; auto.
  Qed.
  Lemma mk_change_non_empty c l r :
    (forall x, l = inr x \/ r = inr x -> built offset x /\ non_empty x) -> non_empty (mk_change offset c l r).
  Proof.
    intros H. unfold mk_change. cbn [simplify]. apply non_empty_change.
    assert (HB : forall (b : branch) x, (forall y, b = inr y -> built offset y /\ non_empty y) ->
      match b with inl b0 => inl b0 | inr x => extract (simplify offset x) end = inr x -> non_empty x).
    { intros [b|y] x Hy E; [discriminate|]. destruct (Hy y eq_refl) as [By Ny]. apply built_pnf in By.
      eapply extract_non_empty; [| |exact E]; [eapply normal_wf_top, pnf_simplify, By|apply pnf_simplify_non_empty; auto]. }
    intros x [Hx|Hx]; eapply HB; try exact Hx; intros y ->; apply H; auto.
  Qed.
  Lemma initialise_non_empty e : built offset e -> non_empty e -> non_empty (initialise offset e).
  Proof. intros B N. apply pnf_simplify_non_empty; [apply built_pnf, B|exact N]. Qed.

  (** ** Traversal (C10) *)
  Lemma mkl_leaf b : mkl offset KSum [b] [] = Comm KSum [(b, 1)] [].
  Proof. destruct offset, b; reflexivity. Qed.

  Fixpoint addrs (e : kex) : list addr :=
    match e with
    | Comm _ _ cts => [] :: concat (map (fun ic => map (cons (fst ic)) (snd ic)) (combine (seq 0 (length cts)) (map addrs cts)))
    | Change _ l r => [] :: map (cons 0%nat) (match l with inl _ => [[]] | inr x => addrs x end)
                         ++ map (cons 1%nat) (match r with inl _ => [[]] | inr x => addrs x end)
    end.
  Definition addrs_from (i : nat) (ls : list (list addr)) : list addr :=
    concat (map (fun ic => map (cons (fst ic)) (snd ic)) (combine (seq i (length ls)) ls)).
  Lemma addrs_from_cons i l ls : addrs_from i (l :: ls) = map (cons i) l ++ addrs_from (S i) ls.
  Proof. reflexivity. Qed.
  Lemma addrs_comm k bts cts : addrs (Comm k bts cts) = [] :: addrs_from 0 (map addrs cts).
  Proof. cbn [addrs]. unfold addrs_from. rewrite map_length. reflexivity. Qed.
  Lemma addrs_from_in i ls p : In p (addrs_from i ls) <-> exists j l q, nth_error ls j = Some l /\ In q l /\ p = (i + j)%nat :: q.
  Proof.
    revert i; induction ls as [|l ls IH]; intros i.
    - split; [intros []|]. intros (j & l & q & E & _). destruct j; discriminate.
    - rewrite addrs_from_cons, in_app_iff, in_map_iff, IH. split.
      + intros [(q & <- & Hq)|(j & l' & q & E & Hq & ->)].
        * exists 0%nat, l, q. repeat split; auto. rewrite Nat.add_0_r; reflexivity.
        * exists (S j), l', q. repeat split; auto. f_equal; lia.
      + intros (j & l' & q & E & Hq & ->). destruct j as [|j].
        * injection E as <-. left. exists q. rewrite Nat.add_0_r. auto.
        * right. exists j, l', q. repeat split; auto. f_equal; lia.
  Qed.
  Lemma ss_app {A} (R : A -> A -> Prop) l m :
    StronglySorted R l -> StronglySorted R m -> (forall x y, In x l -> In y m -> R x y) -> StronglySorted R (l ++ m).
  Proof.
    induction 1 as [|x l H IH F]; intros Hm Hxy; [exact Hm|]. simpl. constructor.
    - apply IH; auto. intros; apply Hxy; [right|]; auto.
    - apply Forall_app; split; [exact F|]. apply Forall_forall. intros y Hy. apply Hxy; [left|]; auto.
  Qed.
  Lemma ss_map {A B} (R : A -> A -> Prop) (S : B -> B -> Prop) (f : A -> B) l :
    (forall x y, R x y -> S (f x) (f y)) -> StronglySorted R l -> StronglySorted S (map f l).
  Proof.
    intros HS. induction 1 as [|x l H IH F]; simpl; constructor; auto.
    rewrite Forall_forall in *. intros y Hy. apply in_map_iff in Hy as (z & <- & Hz). auto.
  Qed.
  Lemma addrs_sorted e : StronglySorted before (addrs e).
  Proof.
    induction e using kex_ind'.
    - rewrite addrs_comm. constructor.
      2:{ apply Forall_forall. intros p Hp. apply addrs_from_in in Hp as (j & l & q & _ & _ & ->). constructor. }
      generalize 0%nat. induction cts as [|c cts IH]; intros i; [constructor|]. cbn [map]. rewrite addrs_from_cons. apply ss_app.
      + eapply ss_map; [|apply H; left; auto]. intros; apply before_same; auto.
      + apply IH. intros; apply H; right; auto.
      + intros x y Hx Hy. apply in_map_iff in Hx as (q & <- & _). apply addrs_from_in in Hy as (j & l & q' & _ & _ & ->).
        constructor. lia.
    - cbn [addrs]. constructor.
      + apply ss_app.
        * eapply ss_map; [intros; apply before_same; eassumption|]. destruct l as [b|x]; [repeat constructor|apply H; auto].
        * eapply ss_map; [intros; apply before_same; eassumption|]. destruct r as [b|x]; [repeat constructor|apply H0; auto].
        * intros x y Hx Hy. apply in_map_iff in Hx as (q & <- & _). apply in_map_iff in Hy as (q' & <- & _). constructor. lia.
      + apply Forall_forall. intros p Hp. apply in_app_iff in Hp as [Hp|Hp]; apply in_map_iff in Hp as (q & <- & _); constructor.
  Qed.
  Lemma addrs_in e p : In p (addrs e) <-> at_addr e p <> None.
  Proof.
    revert p. induction e using kex_ind'; intros p.
    - rewrite addrs_comm. destruct p as [|i q]; [simpl; split; [discriminate|auto]|].
      cbn [at_addr child]. split.
      + intros [E|Hp]; [discriminate|]. apply addrs_from_in in Hp as (j & l & q' & E & Hq & [= -> ->]). simpl.
        rewrite nth_error_map in E. destruct (nth_error cts j) as [c|] eqn:En; [|discriminate]. injection E as <-.
        apply H in Hq; [exact Hq|]. eapply nth_error_In; eauto.
      + destruct (nth_error cts i) as [c|] eqn:En; [|tauto]. intros Hc. right. apply addrs_from_in.
        exists i, (addrs c), q. split; [rewrite nth_error_map, En; reflexivity|]. split; [|reflexivity].
        apply H; [eapply nth_error_In; eauto|exact Hc].
    - destruct p as [|i q]; [simpl; split; [discriminate|auto]|]. cbn [at_addr child addrs].
      assert (HB : forall (b : branch), (forall x, b = inr x -> forall p, In p (addrs x) <-> at_addr x p <> None) ->
        (In q (match b with inl _ => [[]] | inr x => addrs x end) <->
         match (match b with inl b0 => Some (Comm KSum [(b0, 1)] []) | inr x => Some x end) with Some c => at_addr c q | None => None end <> None)).
      { intros [b|x] Hx; [|apply Hx; auto]. destruct q as [|j q]; simpl; [split; [discriminate|auto]|].
        destruct j; simpl; split; try tauto; intros [E|[]]; discriminate. }
      split.
      + intros [E|Hp]; [discriminate|]. apply in_app_iff in Hp as [Hp|Hp]; apply in_map_iff in Hp as (q' & [= <- ->] & Hq); simpl.
        * apply (HB l H) in Hq. destruct l; exact Hq.
        * apply (HB r H0) in Hq. destruct r; exact Hq.
      + intros Hc. right. apply in_app_iff. destruct i as [|[|i]]; simpl in Hc; [| |tauto].
        * left. apply in_map. apply (HB l H). destruct l; exact Hc.
        * right. apply in_map. apply (HB r H0). destruct r; exact Hc.
  Qed.
  Lemma addrs_traverse e : map (at_addr e) (addrs e) = map Some (traverse offset e).
  Proof.
    induction e using kex_ind'.
    - rewrite addrs_comm. cbn [traverse map at_addr]. f_equal.
      set (e0 := Comm k bts cts).
      assert (G : forall i l, (forall c, In c l -> In c cts) -> (forall j, nth_error l j = nth_error cts (i + j)) ->
                map (at_addr e0) (addrs_from i (map addrs l)) = map Some (concat (map (traverse offset) l))).
      { intros i l; revert i. induction l as [|c l IH]; intros i Hl Hn; [reflexivity|].
        cbn [map]. rewrite addrs_from_cons. cbn [concat]. rewrite !map_app, map_map. f_equal.
        - rewrite <- (H c (Hl c (or_introl eq_refl))). apply map_ext. intros q. cbn [at_addr child e0].
          specialize (Hn 0%nat). rewrite Nat.add_0_r in Hn. subst e0; simpl. rewrite <- Hn. reflexivity.
        - apply IH; [intros; apply Hl; right; auto|]. intros j. specialize (Hn (S j)). simpl in Hn. rewrite Hn. f_equal; lia. }
      apply G; auto.
    - cbn [addrs traverse map at_addr]. f_equal. rewrite !map_app, !map_map. f_equal.
      + destruct l as [b|x]; [rewrite mkl_leaf; reflexivity|]. rewrite <- (H x eq_refl). apply map_ext. reflexivity.
      + destruct r as [b|x]; [rewrite mkl_leaf; reflexivity|]. rewrite <- (H0 x eq_refl). apply map_ext. reflexivity.
  Qed.
  Lemma traverse_spec e :
    exists ps, StronglySorted before ps /\ (forall p, In p ps <-> at_addr e p <> None)
               /\ map (at_addr e) ps = map Some (traverse offset e).
  Proof. exists (addrs e). split; [apply addrs_sorted|]. split; [apply addrs_in|apply addrs_traverse]. Qed.

  Lemma fold_left_map {A B C} (f : A -> B -> A) (g : C -> B) l a : fold_left f (map g l) a = fold_left (fun x y => f x (g y)) l a.
  Proof. revert a; induction l; simpl; auto. Qed.
  Lemma kreduce_spec {A} (f : kex -> A -> A) e acc :
    kreduce offset f e acc = fold_left (fun a n => f n a) (traverse offset e) acc.
  Proof.
    revert acc. induction e using kex_ind'; intros acc.
    - cbn [kreduce traverse fold_left]. generalize (f (Comm k bts cts) acc). induction cts as [|c cts IH]; intros a; [reflexivity|].
      cbn [map fold_left concat]. rewrite fold_left_app, IH by (intros; apply H; right; auto).
      rewrite (H c (or_introl eq_refl)). reflexivity.
    - cbn [kreduce traverse fold_left]. rewrite fold_left_app.
      destruct l as [b|x], r as [b'|x']; cbn [fold_left]; rewrite ?(H x eq_refl), ?(H0 x' eq_refl); reflexivity.
  Qed.
End WithOffset.

(** ** contains_base (C11) *)
Lemma occurs_comm b k bts cts : occurs b (Comm k bts cts) <-> 0 < cget bts b \/ exists c, In c cts /\ occurs b c.
Proof.
  split.
  - intros [(k' & b' & c' & Hn & Hp)|(c' & l & r & Hn & Hp)]; apply node_comm_inv in Hn as [E|(x & Hx & Hn)].
    + injection E as -> -> ->. auto.
    + right. exists x. split; [exact Hx|]. left; eauto 6.
    + discriminate.
    + right. exists x. split; [exact Hx|]. right; eauto 6.
  - intros [Hp|(c & Hc & [(k' & b' & c' & Hn & Hp)|(c' & l & r & Hn & Hp)])].
    + left. exists k, bts, cts. split; [constructor|exact Hp].
    + left. exists k', b', c'. split; [eapply node_comm; eauto|exact Hp].
    + right. exists c', l, r. split; [eapply node_comm; eauto|exact Hp].
Qed.
Lemma occurs_change b c l r : occurs b (Change c l r) <->
  (l = inl b \/ exists x, l = inr x /\ occurs b x) \/ (r = inl b \/ exists x, r = inr x /\ occurs b x).
Proof.
  split.
  - intros [(k' & b' & c' & Hn & Hp)|(c' & l' & r' & Hn & Hp)]; apply node_change_inv in Hn as [E|[(x & -> & Hn)|(x & -> & Hn)]].
    + discriminate.
    + left; right. exists x; split; auto. left; eauto 6.
    + right; right. exists x; split; auto. left; eauto 6.
    + injection E as -> -> ->. tauto.
    + left; right. exists x; split; auto. right; eauto 6.
    + right; right. exists x; split; auto. right; eauto 6.
  - intros [[->|(x & -> & [(k' & b' & c' & Hn & Hp)|(c' & l' & r' & Hn & Hp)])]|[->|(x & -> & [(k' & b' & c' & Hn & Hp)|(c' & l' & r' & Hn & Hp)])]].
    + right. exists c, (inl b), r. split; [constructor|auto].
    + left. exists k', b', c'. split; [apply node_left; exact Hn|exact Hp].
    + right. exists c', l', r'. split; [apply node_left; exact Hn|exact Hp].
    + right. exists c, l, (inl b). split; [constructor|auto].
    + left. exists k', b', c'. split; [apply node_right; exact Hn|exact Hp].
    + right. exists c', l', r'. split; [apply node_right; exact Hn|exact Hp].
Qed.
Lemma contains_base_spec bs e : wf e -> (contains_base bs e = true <-> exists b, In b bs /\ occurs b e).
Proof.
  induction e using kex_ind'; intros W; cbn [contains_base].
  - rewrite orb_true_iff, !existsb_exists. split.
    + intros [(b & Hb & Hh)|(c & Hc & Hcb)].
      * exists b; split; auto. apply occurs_comm. left. apply wf_has; [eapply W; constructor|exact Hh].
      * apply H in Hcb; [|exact Hc|eapply wf_sub; [exact W|eapply node_comm; [exact Hc|constructor]]].
        destruct Hcb as (b & Hb & Ho). exists b; split; auto. apply occurs_comm. right; eauto.
    + intros (b & Hb & Ho). apply occurs_comm in Ho as [Hp|(c & Hc & Ho)].
      * left. exists b; split; auto. apply wf_has; [eapply W; constructor|exact Hp].
      * right. exists c; split; auto. apply H; [exact Hc|eapply wf_sub; [exact W|eapply node_comm; [exact Hc|constructor]]|eauto].
  - assert (HB : forall (br : branch), (forall x, br = inr x -> contains_base bs x = true <-> exists b, In b bs /\ occurs b x) ->
      ((match br with inl b => existsb (base_eqb b) bs | inr x => contains_base bs x end) = true <->
       exists b, In b bs /\ (br = inl b \/ exists x, br = inr x /\ occurs b x))).
    { intros [b|x] Hx.
      - rewrite existsb_exists. split.
        + intros (b' & Hb & E). apply base_eqb_spec in E; subst b'. eauto.
        + intros (b' & Hb & [[= <-]|(x & E & _)]); [|discriminate]. exists b; split; auto. apply base_eqb_refl.
      - rewrite Hx by reflexivity. split.
        + intros (b & Hb & Ho). eauto 6.
        + intros (b & Hb & [E|(y & [= <-] & Ho)]); [discriminate|eauto]. }
    rewrite orb_true_iff, (HB l), (HB r).
    + split.
      * intros [(b & Hb & Ho)|(b & Hb & Ho)]; exists b; split; auto; apply occurs_change; auto.
      * intros (b & Hb & Ho). apply occurs_change in Ho as [Ho|Ho]; [left|right]; eauto.
    + intros x ->. apply H0; auto. eapply wf_sub; [exact W|apply node_right; constructor].
    + intros x ->. apply H; auto. eapply wf_sub; [exact W|apply node_left; constructor].
Qed.

(** Exactly which constructor calls give an empty expression (C03). *)
From Coq Require Import List Bool Arith ZArith Lia Permutation.
From Verif Require Import Py UtilModel UtilSpec UtilProofs KexModel KexSpec KexProofs KexSimp KexMore HollowSpec.
Import ListNotations.
Local Open Scope list_scope.
Local Open Scope Z_scope.

Section Hollow.
  Context (offset : bool).
  Lemma nonC_or c : nonneg c -> nonC c \/ only_C c.
  Proof.
    intros NN. destruct (existsb (fun b => negb (base_eqb b bC) && (0 <? cget c b)) all_bases) eqn:E.
    - left. apply existsb_exists in E as (b & _ & H). apply andb_true_iff in H as [H1 H2]. exists b. split; [|apply Z.ltb_lt, H2].
      intros ->. cbn in H1. discriminate.
    - right. intros b Hb. pose proof (NN b). destruct (Z.ltb_spec 0 (cget c b)); [|lia]. exfalso.
      assert (X : existsb (fun b => negb (base_eqb b bC) && (0 <? cget c b)) all_bases = true).
      { apply existsb_exists. exists b. split; [destruct b; cbn; auto 12|]. apply andb_true_iff. split; [destruct b; try reflexivity; congruence|apply Z.ltb_lt; assumption]. }
      congruence.
  Qed.
  Lemma nonC_not c : nonC c -> ~ only_C c.
  Proof. intros (b & H & P) O. rewrite (O b H) in P. lia. Qed.
  Lemma only_none c n : nodup c -> nonneg c -> only_C c -> (0 < n)%nat -> forall x, cget (simp_base offset KProd c n) x = 0.
  Proof.
    intros N NN O Hn x. rewrite cget_simp_prod by assumption. rewrite (O bWN) by discriminate. cbn [Z.ltb Z.compare].
    assert (OSE : cget c bSE = 0) by (apply O; discriminate). rewrite OSE.
    destruct x; try (apply O; discriminate); try reflexivity.
    destruct (0 <? cget c bC); [|reflexivity]. destruct (lone_c c n) eqn:L; [|reflexivity].
    apply lone_c_spec in L; auto; [lia|apply O; discriminate].
  Qed.
  Lemma none_none c n : nodup c -> nonneg c -> (forall x, cget c x = 0) -> forall x, cget (simp_base offset KProd c n) x = 0.
  Proof.
    intros N NN O x. rewrite cget_simp_prod by assumption. rewrite !O. cbn. destruct x; try reflexivity; apply O.
  Qed.
  Lemma absorb_none hs : forall ns b, length ns = length hs -> wf_counter b -> only_C b -> Forall (fun n => (0 < n)%nat) ns ->
    (forall h, In h hs -> wf_counter (bts_of h) /\ only_C (bts_of h)) -> hs <> [] -> forall x, cget (absorb_bts offset KProd b hs ns) x = 0.
  Proof.
    induction hs as [|h hs IH]; intros ns b L W O Hn Hh Hne x; [congruence|]. destruct ns as [|n ns]; [discriminate L|].
    unfold absorb_bts. cbn [combine fold_left fst snd]. fold (absorb_bts offset KProd (simp_base offset KProd (cupdate b (bts_of h)) n) hs ns).
    destruct (Hh h (or_introl eq_refl)) as [Wh Oh].
    assert (N0 : nodup (cupdate b (bts_of h))) by (apply cupdate_nodup, wf_nodup, W).
    assert (G : forall x, cget (cupdate b (bts_of h)) x = cget b x + cget (bts_of h) x) by (intros y; apply cget_cupdate, wf_nodup, Wh).
    assert (NN : nonneg (cupdate b (bts_of h))).
    { intros y. rewrite G. pose proof (wf_nonneg _ y W). pose proof (wf_nonneg _ y Wh). lia. }
    assert (Z0 : forall x, cget (simp_base offset KProd (cupdate b (bts_of h)) n) x = 0).
    { apply only_none; auto; [|inversion Hn; assumption]. intros y Hy. rewrite G, (O y Hy), (Oh y Hy). reflexivity. }
    destruct hs as [|h2 hs]; [apply Z0|]. apply IH; [injection L as L; exact L|apply simp_base_wf, N0|intros y _; apply Z0|inversion Hn; assumption| |discriminate].
    intros h' Hh'. apply Hh. right. exact Hh'.
  Qed.
  (** A built product that simplifies to a product of constants is one. *)
  Lemma simplified_C e : pnf offset e -> non_empty e -> product_of_C (simplify offset e) -> product_of_C e.
  Proof.
    intros P N (b & E & O). destruct e as [k bts cts|c l r]; [|discriminate E]. destruct P as (W & Hc & Hk). cbn [simplify] in E.
    assert (M : map (simplify offset) cts = cts).
    { rewrite <- (map_id cts) at 2. apply map_ext_in. intros c Hin. apply normal_fix, Hk, Hin. }
    rewrite M in E. clear M. destruct (simp_node_spec offset k bts cts) as (ns & L & Pn & E'). cbv zeta in E'. rewrite E' in E. clear E'. injection E as -> Eb Ek.
    rewrite Ek in Eb. cbn [length] in Eb. apply non_empty_comm in N as [T Nk].
    set (hs := filter (is_kind KProd) cts) in *. set (hb := absorb_bts offset KProd bts hs ns) in *.
    assert (Wb : wf_counter hb) by (apply absorb_bts_wf, W).
    assert (Whs : forall h, In h hs -> wf_counter (bts_of h)).
    { intros h Hh; apply filter_In in Hh as [Hh _]. apply (normal_wf_top offset). apply Hk, Hh. }
    assert (N1 : nodup (cupdate_list hb (bases_of (map extract (raised KProd cts))))) by (apply cupdate_list_nodup, wf_nodup, Wb).
    assert (NN1 : nonneg (cupdate_list hb (bases_of (map extract (raised KProd cts))))).
    { intros x. rewrite cget_cupdate_list. pose proof (wf_nonneg _ x Wb). lia. }
    (* nothing but C in what was gathered *)
    assert (Ohb : ~ nonC hb).
    { intros (x & Hx & Px). apply (nonC_not b); [|exact O]. rewrite <- Eb.
      apply simp_base_nonC; [apply simp_base_nodup, N1|apply simp_base_nonneg, N1|]. apply simp_base_nonC; [exact N1|exact NN1|].
      exists x. split; [exact Hx|]. rewrite cget_cupdate_list. pose proof (wf_nonneg _ x Wb). lia. }
    (* raised composites are no singletons, so there are none *)
    assert (R : raised KProd cts = []).
    { destruct (singles_self (raised KProd cts)) as [R1 R2].
      - intros c Hin. destruct (raised_normal offset KProd cts c (fun c Hin => proj1 (Hk c Hin)) Hin) as [Nc Kc].
        split; [eapply normal_wf_top, Nc|]. unfold raised in Hin. apply in_app_iff in Hin as [Hin|Hin].
        + apply filter_In in Hin as [Hin _]. apply Hk, Hin.
        + apply in_concat in Hin as (m & Hm & Hx). apply in_map_iff in Hm as (h & <- & Hh). apply filter_In in Hh as [Hh Kh].
          destruct (Hk h Hh) as [Nh _]. apply normal_iff in Nh. destruct h; [|discriminate]. destruct Nh as (_ & _ & G). apply (G c Hx).
      - rewrite R2 in Ek || rewrite R1 in Ek. exact Ek. }
    assert (Hcts : cts = []).
    { destruct cts as [|c t] eqn:Ec; [reflexivity|]. exfalso. unfold raised in R. apply app_eq_nil in R as [Ra Rb]. fold hs in Rb.
      assert (Kc : is_kind KProd c = true).
      { destruct (is_kind KProd c) eqn:Kc; [reflexivity|]. cbn [filter] in Ra. rewrite Kc in Ra. discriminate Ra. }
      assert (Hh : In c hs) by (apply filter_In; split; [left; reflexivity|exact Kc]).
      apply Ohb. apply absorb_bts_nonC; auto. right. exists c. split; [exact Hh|].
      destruct c as [k' b' c'|]; [|discriminate]. destruct (Hk _ (or_introl eq_refl)) as [Nh Sh].
      assert (c' = []) as ->.
      { destruct c' as [|y ys]; [reflexivity|]. assert (In y (concat (map kids hs))) by (apply in_concat; exists (y :: ys); split; [apply in_map_iff; eexists; split; [|exact Hh]; reflexivity|left; reflexivity]).
        rewrite Rb in *. contradiction. }
      pose proof (non_empty_top _ (Nk _ (or_introl eq_refl))) as Tt. simpl in Tt.
      pose proof (terms_not_one _ _ _ Sh Tt) as T2. apply normal_iff in Nh. destruct Nh as (Wh & Ch & _).
      rewrite terms_csum in T2 by (apply wf_nodup, Wh). cbn [length] in T2. simpl. apply csum_two_nonC; [exact Wh|lia|]. destruct k'; apply Ch. }
    subst cts. exists bts. split; [reflexivity|]. destruct (nonC_or bts (wf_nn _ W)) as [C|C]; [|exact C]. exfalso. apply Ohb.
    apply absorb_bts_nonC; auto.
  Qed.
  Lemma C_simplified e : wf_top e -> non_empty e -> product_of_C e -> exists b, simplify offset e = Comm KProd b [] /\ wf_counter b /\ only_C b.
  Proof.
    intros W N (b & -> & O). destruct (simp_node_spec offset KProd b []) as (ns & L & Pn & E). cbv zeta in E. cbn [simplify map]. rewrite E. clear E.
    destruct ns; [|discriminate L]. change (absorb_bts offset KProd b (filter (is_kind KProd) []) []) with b.
    cbn [raised filter map kids concat app bases_of kexs_of length cupdate_list fold_left]. cbn in W.
    assert (Nb : nodup b) by (apply wf_nodup, W).
    exists (simp_base offset KProd (simp_base offset KProd b 0) 0). split; [reflexivity|]. split; [apply simp_base_wf, simp_base_nodup, Nb|].
    assert (S : forall c, nodup c -> nonneg c -> only_C c -> only_C (simp_base offset KProd c 0)).
    { clear. intros c N NN O x Hx. rewrite cget_simp_prod by assumption. rewrite (O bWN) by discriminate. cbn [Z.ltb Z.compare].
      assert (OSE : cget c bSE = 0) by (apply O; discriminate). rewrite OSE.
      destruct x; try congruence; try (apply O; discriminate); reflexivity. }
    apply S; [apply simp_base_nodup, Nb|apply simp_base_nonneg, Nb|]. apply S; [exact Nb|apply wf_nn, W|exact O].
  Qed.
  Lemma mk_empty_exactly k bts cts : wf_counter bts -> 0 < terms bts cts -> (forall c, In c cts -> built offset c /\ non_empty c) ->
    (non_empty (mk offset k bts cts) <-> ~ (k = KProd /\ cts <> [] /\ only_C bts /\ forall c, In c cts -> product_of_C c)).
  Proof.
    intros W T H. split.
    - intros N (-> & Hne & O & Hc). unfold mk in N. cbn [simplify] in N. set (cs := map (simplify offset) cts) in *.
      assert (Hs : forall c, In c cs -> exists b, c = Comm KProd b [] /\ wf_counter b /\ only_C b).
      { intros c Hin. apply in_map_iff in Hin as (c0 & <- & H0). destruct (H c0 H0) as [B Nc]. apply C_simplified; [|exact Nc|apply Hc, H0].
        destruct (Hc c0 H0) as (b & -> & _). apply built_pnf in B. destruct B as [B _]. exact B. }
      destruct (simp_node_spec offset KProd bts cs) as (ns & L & Pn & E). cbv zeta in E. rewrite E in N. clear E.
      assert (F : filter (is_kind KProd) cs = cs).
      { clear - Hs. induction cs as [|c t IH]; [reflexivity|]. cbn [filter]. destruct (Hs c (or_introl eq_refl)) as (b & -> & _). cbn. f_equal. apply IH.
        intros x Hx. apply Hs. right. exact Hx. }
      assert (R : raised KProd cs = []).
      { unfold raised. rewrite F. clear - Hs. induction cs as [|c t IH]; [reflexivity|]. destruct (Hs c (or_introl eq_refl)) as (b & -> & _). cbn. apply IH.
        intros x Hx. apply Hs. right. exact Hx. }
      rewrite F in *. rewrite R in N. cbn [map bases_of kexs_of concat length cupdate_list fold_left] in N.
      set (hb := absorb_bts offset KProd bts cs ns) in *. assert (Wb : wf_counter hb) by (apply absorb_bts_wf, W).
      assert (Z0 : forall x, cget hb x = 0).
      { apply absorb_none; auto; [|destruct cts; [congruence|discriminate]]. intros h Hh. destruct (Hs h Hh) as (b & -> & Wh & Oh). split; assumption. }
      assert (Z2 : forall x, cget (simp_base offset KProd (simp_base offset KProd hb 0) 0) x = 0).
      { apply none_none; [apply simp_base_nodup, wf_nodup, Wb|apply simp_base_nonneg, wf_nodup, Wb|]. apply none_none; [apply wf_nodup, Wb|apply wf_nn, Wb|exact Z0]. }
      specialize (N _ _ _ (node_self _)). unfold terms in N. cbn [length fold_right all_bases] in N. rewrite !Z2 in N. lia.
    - intros Hn. assert (Wc : forall c, In c (map (simplify offset) cts) -> wf c /\ non_empty c).
      { intros c Hin. apply in_map_iff in Hin as (c0 & <- & H0). destruct (H c0 H0) as [B Nc]. apply built_pnf in B.
        split; [eapply normal_wf, pnf_simplify, B|apply pnf_simplify_non_empty; assumption]. }
      destruct k.
      { apply mk_non_empty; [exact W|exact T|]. intros c Hin. destruct (H c Hin). repeat split; auto. intros X. discriminate X. }
      unfold mk. cbn [simplify]. set (cs := map (simplify offset) cts) in *.
      assert (HT : has_terms (simp_node offset KProd bts cs)).
      { destruct (simp_node_spec offset KProd bts cs) as (ns & L & P & E). cbv zeta in E. rewrite E. clear E.
        set (hs := filter (is_kind KProd) cs) in *. set (hb := absorb_bts offset KProd bts hs ns).
        assert (Wb : wf_counter hb) by (apply absorb_bts_wf, W).
        assert (Whs : forall h, In h hs -> wf_counter (bts_of h)).
        { intros h Hh; apply filter_In in Hh as [Hh Kh]. destruct (Wc h Hh) as [Wh _]. destruct h as [k' b' c'|]; [|discriminate]. exact (Wh k' b' c' (node_self _)). }
        assert (Key : 0 < csum hb + Z.of_nat (length (raised KProd cs))).
        { pose proof (wf_csum_nonneg _ Wb) as Hb0. destruct (raised KProd cs) as [|x t] eqn:R; [|cbn [length]; lia].
          unfold raised in R. apply app_eq_nil in R as [R1 R2]. fold hs in R2.
          assert (Hall : forall c, In c cs -> is_kind KProd c = true /\ kids c = []).
          { intros c Hin. assert (Kc : is_kind KProd c = true).
            { destruct (is_kind KProd c) eqn:Kc; [reflexivity|]. assert (X : In c (filter (fun e => negb (is_kind KProd e)) cs)) by (apply filter_In; rewrite Kc; auto).
              rewrite R1 in X. contradiction. }
            split; [exact Kc|]. destruct (kids c) as [|y ys] eqn:Ek; [reflexivity|].
            assert (X : In y (concat (map kids hs))) by (apply in_concat; exists (kids c); split; [apply in_map; apply filter_In; auto|rewrite Ek; left; auto]).
            rewrite R2 in X. contradiction. }
          cbn [length]. enough (0 < csum hb) by lia.
          destruct cts as [|c0 t0] eqn:Ects.
          - cbn in hs. subst hs hb. unfold absorb_bts. cbn [combine fold_left]. destruct ns; cbn [combine fold_left]; rewrite terms_csum in T by (apply wf_nodup, W); cbn [length] in T; lia.
          - apply nonC_pos; [apply wf_nodup, Wb|apply wf_nn, Wb|]. apply absorb_bts_nonC; auto.
            destruct (nonC_or bts (wf_nn _ W)) as [C|C]; [left; exact C|right].
            destruct (existsb (fun c => existsb (fun b => negb (base_eqb b bC) && (0 <? cget (bts_of c) b)) all_bases) cs) eqn:Ex.
            + apply existsb_exists in Ex as (c & Hin & Ex). apply existsb_exists in Ex as (b & _ & Hb). apply andb_true_iff in Hb as [Hb1 Hb2].
              exists c. split; [apply filter_In; split; [exact Hin|apply Hall, Hin]|]. exists b. split; [intros ->; discriminate Hb1|apply Z.ltb_lt, Hb2].
            + exfalso. apply Hn. split; [reflexivity|]. split; [discriminate|]. split; [exact C|]. intros c Hin. destruct (H c Hin) as [B Nc].
              apply simplified_C; [apply built_pnf, B|exact Nc|]. assert (Hin' : In (simplify offset c) cs) by (apply in_map, Hin).
              destruct (Hall _ Hin') as [Kc Kk]. destruct (simplify offset c) as [k' b' c'|] eqn:Es; [|discriminate]. cbn in Kk. subst c'.
              destruct k'; [discriminate|]. exists b'. split; [reflexivity|]. intros x Hx.
              assert (Wb' : wf_counter b') by (apply (Whs (Comm KProd b' [])); apply filter_In; auto).
              pose proof (wf_nonneg _ x Wb'). destruct (Z.ltb_spec 0 (cget b' x)); [|lia]. exfalso.
              assert (X : existsb (fun c => existsb (fun b => negb (base_eqb b bC) && (0 <? cget (bts_of c) b)) all_bases) cs = true); [|congruence].
              apply existsb_exists. exists (Comm KProd b' []). split; [exact Hin'|]. apply existsb_exists. exists x. split; [destruct x; cbn; auto 12|].
              apply andb_true_iff. split; [destruct x; try reflexivity; congruence|apply Z.ltb_lt; assumption]. }
        assert (N1 : nodup (cupdate_list hb (bases_of (map extract (raised KProd cs))))) by (apply cupdate_list_nodup, wf_nodup, Wb).
        assert (NN1 : nonneg (cupdate_list hb (bases_of (map extract (raised KProd cs))))).
        { intros b. rewrite cget_cupdate_list. pose proof (wf_nonneg _ b Wb). lia. }
        cbn [has_terms]. rewrite terms_csum by (apply simp_base_nodup, simp_base_nodup, N1).
        apply simp_base_pos; [apply simp_base_nodup, N1|apply simp_base_nonneg, N1|].
        apply simp_base_pos; [exact N1|exact NN1|].
        rewrite csum_cupdate_list by (apply wf_nodup, Wb).
        pose proof (singles_count (map extract (raised KProd cs))) as SC. rewrite map_length in SC. lia. }
      destruct (simp_node offset KProd bts cs) as [k' b' c'|] eqn:E.
      2:{ destruct (simp_node_spec offset KProd bts cs) as (ns & _ & _ & E'). cbv zeta in E'. congruence. }
      apply non_empty_comm. split; [exact HT|]. intros x Hx. destruct (simp_node_cts offset KProd bts cs x) as (c & Hcc & Hn').
      + intros c Hcc. apply Wc, Hcc.
      + rewrite E. exact Hx.
      + eapply non_empty_node; [apply (Wc c Hcc)|exact Hn'].
  Qed.
End Hollow.

(** Proofs about the size of expansions and their number. *)
From Coq Require Import String List Bool Arith ZArith Lia Permutation.
From Verif Require Import Py UtilModel UtilSpec UtilProofs KexModel KexSpec KexProofs KexSimp KexCong KexMore OpsModel OpsSpec OpsProofs SemSpec SemProofs SemOps CountSpec CountProofs ReachSpec ReachProofs ReachCong ReachOver CostSpec.
Import ListNotations.
Local Open Scope list_scope.
Local Open Scope Z_scope.

Section Cost.
  Variable offset : bool.
  (** ** In terms of the counts of base terms *)
  Definition zs (e : kex) : Z := Z.of_nat (symbols e).
  Definition zss (l : list kex) : Z := Z.of_nat (total_of symbols l).
  Definition zn (c : counter) : Z := bsum (cget c).
  Definition zsr (b : branch) : Z := match b with inl _ => 1 | inr x => zs x end.
  Lemma zn_spec c : nonneg c -> Z.of_nat (length (bases_in c)) = zn c.
  Proof. intros N. rewrite <- (total_of_one (bases_in c)), total_bases by exact N. unfold zn. rewrite !bsum_expand. lia. Qed.
  Lemma zs_comm k bts cts : nonneg bts -> zs (Comm k bts cts) = 1 + zn bts + zss cts.
  Proof. intros N. unfold zs, zss. cbn [symbols]. rewrite <- zn_spec by exact N. lia. Qed.
  Lemma zs_change o l r : zs (Change o l r) = 1 + zsr l + zsr r.
  Proof. unfold zs. cbn [symbols]. destruct l, r; cbn [zsr]; unfold zs; lia. Qed.
  Lemma zs_pos e : 1 <= zs e.
  Proof. unfold zs. destruct e; cbn [symbols]; lia. Qed.
  Lemma zsr_pos b : 1 <= zsr b.
  Proof. destruct b; cbn; [lia|apply zs_pos]. Qed.
  Lemma zss_nil : zss [] = 0.
  Proof. reflexivity. Qed.
  Lemma zss_cons x l : zss (x :: l) = zs x + zss l.
  Proof. unfold zss, zs. cbn [total_of fold_right]. fold (total_of symbols l). lia. Qed.
  Lemma zss_app l m : zss (l ++ m) = zss l + zss m.
  Proof. unfold zss. rewrite total_of_app. lia. Qed.
  Lemma zss_nonneg l : 0 <= zss l.
  Proof. unfold zss. lia. Qed.
  Lemma zss_perm l m : Permutation l m -> zss l = zss m.
  Proof. intros P. unfold zss. f_equal. apply total_of_perm, P. Qed.
  Lemma zn_nonneg c : nonneg c -> 0 <= zn c.
  Proof. intros N. rewrite <- zn_spec by exact N. lia. Qed.
  Ltac nn N := pose proof (N bWN); pose proof (N bC); pose proof (N bLIN); pose proof (N bSE); pose proof (N bPER); pose proof (N bS); pose proof (N bSr); pose proof (N bSI); pose proof (N bSIr).
  Lemma zn_le a b : (forall x, cget a x <= cget b x) -> zn a <= zn b.
  Proof. intros N. unfold zn. rewrite !bsum_expand. nn N. lia. Qed.
  Lemma zn_simp k c n : nodup c -> nonneg c -> zn (simp_base offset k c n) <= zn c.
  Proof.
    intros N NN. unfold zn. rewrite !bsum_expand. nn NN.
    destruct k; [rewrite !cget_simp_sum by assumption|rewrite !cget_simp_prod by assumption].
    - destruct (offset && (0 <? cget c bLIN)); lia.
    - destruct (Z.ltb_spec 0 (cget c bWN)); [lia|]. destruct (Z.ltb_spec 0 (cget c bC)); [destruct (lone_c c n)|]; lia.
  Qed.
  Lemma zn_add a b c : (forall x, cget c x = cget a x + cget b x) -> zn c = zn a + zn b.
  Proof. intros H. unfold zn. rewrite !bsum_expand, !H. lia. Qed.
  Lemma zn_nil : zn [] = 0.
  Proof. reflexivity. Qed.
  Lemma zn_single b n : zn [(b, n)] = n.
  Proof. unfold zn. rewrite !bsum_expand, !cget_cons. destruct b; cbn; lia. Qed.
  Lemma zn_list c l : nonneg c -> zn (cupdate_list c l) = zn c + Z.of_nat (length l).
  Proof.
    revert c. induction l as [|b l IH]; intros c N; [change (cupdate_list c []) with c; cbn; lia|].
    change (cupdate_list c (b :: l)) with (cupdate_list (cset c b (cget c b + 1)) l).
    assert (G : forall x, cget (cset c b (cget c b + 1)) x = cget c x + cget [(b, 1)] x).
    { intros x. rewrite cget_cset, cget_cons. destruct (base_eqb b x) eqn:E; [|change (cget [] x) with 0; lia]. apply base_eqb_spec in E; subst. lia. }
    assert (N1 : nonneg [(b, 1)]) by (apply wf_nn, wf_single).
    assert (N' : nonneg (cset c b (cget c b + 1))) by (intros x; rewrite G; specialize (N x); specialize (N1 x); lia).
    rewrite (IH _ N'), (zn_add c [(b, 1)] _ G), zn_single. cbn [length]. lia.
  Qed.
  Lemma zn_counter_of l : zn (counter_of l) = Z.of_nat (length l).
  Proof. unfold counter_of. rewrite zn_list; [reflexivity|]. intros x. cbn. lia. Qed.

  (** ** Simplification *)
  Definition hsum (hs : list kex) : Z := fold_right (fun h s => zn (bts_of h) + s) 0 hs.
  Lemma zn_absorb k hs : forall b ns, nodup b -> nonneg b -> (forall h, In h hs -> wf_counter (bts_of h)) ->
    zn (absorb_bts offset k b hs ns) <= zn b + hsum hs.
  Proof.
    induction hs as [|h hs IH]; intros b ns N NN W; [cbn -[zn]; lia|]. cbn [hsum fold_right]. fold (hsum hs).
    assert (Wh : wf_counter (bts_of h)) by (apply W; left; auto).
    assert (HR : 0 <= hsum hs).
    { clear - W. assert (W' : forall h, In h hs -> wf_counter (bts_of h)) by (intros; apply W; right; auto). clear W. induction hs as [|x hs IHs]; cbn [hsum fold_right]; [lia|]. fold (hsum hs).
      assert (0 <= zn (bts_of x)) by (apply zn_nonneg, wf_nn, W'; left; auto). assert (0 <= hsum hs) by (apply IHs; intros; apply W'; right; auto). lia. }
    destruct ns as [|n ns].
    - pose proof (zn_nonneg (bts_of h) (wf_nn _ Wh)). cbn -[zn hsum]. lia.
    - change (absorb_bts offset k b (h :: hs) (n :: ns)) with (absorb_bts offset k (simp_base offset k (cupdate b (bts_of h)) n) hs ns).
      assert (N1 : nodup (cupdate b (bts_of h))) by (apply cupdate_nodup, N).
      assert (NN1 : nonneg (cupdate b (bts_of h))) by (apply nonneg_cupdate; [apply wf_nodup, Wh|exact NN|apply wf_nn, Wh]).
      specialize (IH (simp_base offset k (cupdate b (bts_of h)) n) ns (simp_base_nodup offset k _ n N1) (simp_base_nonneg offset k _ n N1) (fun x Hx => W x (or_intror Hx))).
      pose proof (zn_simp k _ n N1 NN1). pose proof (zn_add b (bts_of h) (cupdate b (bts_of h)) (fun x => cget_cupdate _ _ x (wf_nodup _ Wh))). lia.
  Qed.
  Lemma zss_raised k cts : (forall c, In c cts -> wf c) -> zss (raised k cts) + hsum (filter (is_kind k) cts) <= zss cts.
  Proof.
    unfold raised. rewrite zss_app. induction cts as [|c t IH]; intros W; [cbn; lia|]. cbn [filter].
    assert (IH' := IH (fun x Hx => W x (or_intror Hx))). rewrite zss_cons. destruct (is_kind k c) eqn:E; cbn [negb map concat hsum fold_right].
    - rewrite zss_app. destruct c as [k' b' c'|]; [|discriminate]. fold (hsum (filter (is_kind k) t)).
      cbn [kids bts_of]. rewrite zs_comm by (apply wf_nn; eapply (W _ (or_introl eq_refl)); constructor). lia.
    - rewrite zss_cons. lia.
  Qed.
  Lemma zs_extract e : wf e -> zsr (extract e) <= zs e.
  Proof.
    intros W. destruct e as [k bts cts|]; [|cbn; lia]. apply wf_comm in W as [Wb Wc].
    destruct (extract_spec k bts cts Wb) as [(b & -> & -> & ->)|[(c & -> & -> & ->)|(_ & ->)]]; [| |cbn; lia]; cbn [zsr].
    - rewrite zs_comm by (apply wf_nn, Wb). rewrite zn_single, zss_nil. lia.
    - rewrite zs_comm by (apply wf_nn, Wb). rewrite zss_cons, zn_nil, zss_nil. lia.
  Qed.
  Lemma zs_extracts l : (forall c, In c l -> wf c) ->
    zss (kexs_of (map extract l)) + Z.of_nat (length (bases_of (map extract l))) <= zss l.
  Proof.
    unfold kexs_of, bases_of. induction l as [|e l IH]; intros W; [cbn; lia|]. specialize (IH (fun x Hx => W x (or_intror Hx))).
    pose proof (zs_extract e (W e (or_introl eq_refl))) as H. cbn [map concat]. rewrite zss_app, app_length, zss_cons. destruct (extract e) as [b|x]; cbn [zsr] in H.
    - rewrite zss_nil. cbn [length]. lia.
    - rewrite zss_cons, zss_nil. cbn [length]. lia.
  Qed.
  Lemma zs_node k bts cts : wf (Comm k bts cts) -> zs (simp_node offset k bts cts) <= zs (Comm k bts cts).
  Proof.
    intros W. pose proof W as W0. apply wf_comm in W as [Wb Wc]. destruct (simp_node_spec offset k bts cts) as (ns & L & P & E). cbv zeta in E. rewrite E. clear E.
    set (hs := filter (is_kind k) cts) in *. set (ex := map extract (raised k cts)). set (hb := absorb_bts offset k bts hs ns).
    assert (Wh : forall h, In h hs -> wf_counter (bts_of h)).
    { intros h Hh. apply filter_In in Hh as [Hh _]. specialize (Wc h Hh). destruct h as [k' b' c'|]; [apply wf_comm in Wc as [Wc _]; exact Wc|split; [constructor|intros ? ? []]]. }
    assert (Whb : wf_counter hb) by (apply absorb_bts_wf, Wb).
    assert (Wr : forall c, In c (raised k cts) -> wf c).
    { intros x Hx. apply raised_in in Hx as (c & Hc & [->|Hx]); [auto|]. specialize (Wc c Hc). destruct c as [k' b' c'|]; [apply wf_comm in Wc as [_ Wc]; auto|destruct Hx]. }
    assert (N1 : nodup (cupdate_list hb (bases_of ex))) by (apply cupdate_list_nodup, wf_nodup, Whb).
    assert (NN1 : nonneg (cupdate_list hb (bases_of ex))) by (apply nonneg_cupdate_list, wf_nn, Whb).
    rewrite zs_comm by (apply simp_base_nonneg, simp_base_nodup, N1). rewrite zs_comm by (apply wf_nn, Wb).
    pose proof (zn_simp k _ (length (kexs_of ex)) (simp_base_nodup offset k _ (length (kexs_of ex)) N1) (simp_base_nonneg offset k _ (length (kexs_of ex)) N1)).
    pose proof (zn_simp k _ (length (kexs_of ex)) N1 NN1). pose proof (zn_list hb (bases_of ex) (wf_nn _ Whb)).
    pose proof (zn_absorb k hs bts ns (wf_nodup _ Wb) (wf_nn _ Wb) Wh). fold hb in H2.
    pose proof (zss_raised k cts Wc). fold hs in H3. pose proof (zs_extracts _ Wr). fold ex in H4. lia.
  Qed.
  Lemma zs_simplify e : wf e -> zs (simplify offset e) <= zs e.
  Proof.
    induction e as [k bts cts IH|o l r IHl IHr] using kex_ind'; intros W.
    - cbn [simplify]. apply wf_comm in W as [Wb Wc].
      assert (W' : wf (Comm k bts (map (simplify offset) cts))).
      { apply wf_comm. split; [exact Wb|]. intros c Hc. apply in_map_iff in Hc as (x & <- & Hx). apply simplify_wf, Wc, Hx. }
      pose proof (zs_node k bts _ W') as H. rewrite (zs_comm k bts (map _ _)), (zs_comm k bts cts) in * by (apply wf_nn, Wb).
      assert (zss (map (simplify offset) cts) <= zss cts); [|lia]. clear - IH Wc. induction cts as [|c t IHt]; [cbn; lia|]. cbn [map]. rewrite !zss_cons.
      pose proof (IH c (or_introl eq_refl) (Wc c (or_introl eq_refl))). specialize (IHt (fun x Hx => IH x (or_intror Hx)) (fun x Hx => Wc x (or_intror Hx))). lia.
    - cbn [simplify]. rewrite !zs_change. rewrite wf_change in W.
      assert (HB : forall br : branch, (forall x, br = inr x -> wf x /\ zs (simplify offset x) <= zs x) ->
        zsr (match br with inl b => inl b | inr x => extract (simplify offset x) end) <= zsr br).
      { intros [b|x] Hx; [reflexivity|]. destruct (Hx x eq_refl) as [Wx Hle]. pose proof (zs_extract _ (simplify_wf offset x Wx)). cbn [zsr]. lia. }
      apply Z.add_le_mono.
      + apply Z.add_le_mono_l. exact (HB l (fun x Ex => conj (W x (or_introl Ex)) (IHl x Ex (W x (or_introl Ex))))).
      + exact (HB r (fun x Ex => conj (W x (or_intror Ex)) (IHr x Ex (W x (or_intror Ex))))).
  Qed.
  Lemma zs_standardise e : wf e -> zs (standardise offset e) <= zs e.
  Proof.
    remember (size e) as n eqn:En. revert e En. induction n as [n IH] using lt_wf_ind. intros e En W.
    pose proof (simplify_size offset e) as Hs. pose proof (simplify_wf offset e W) as Ws. pose proof (zs_simplify e W) as Os. rewrite (standardise_unfold offset e W).
    destruct (simplify offset e) as [k bts cts|o l r] eqn:E; [|exact Os]. pose proof Ws as Ws0. apply wf_comm in Ws as [Wb Wc].
    pose proof (extract_spec k bts cts Wb) as X. destruct (extract (Comm k bts cts)) as [b|x] eqn:Ex.
    - destruct X as [(b' & -> & -> & [= <-])|[(y & _ & _ & X)|(_ & X)]]; try discriminate. rewrite mkl_leaf.
      rewrite zs_comm in Os by (apply wf_nn, Wb). rewrite zs_comm by (apply wf_nn, Wb). exact Os.
    - destruct (is_singleton bts cts) eqn:S; [|exact Os]. pose proof (extract_single k bts cts x Wb Ex S) as ->.
      assert (zs (standardise offset x) <= zs x).
      { eapply IH; [|reflexivity|apply Wc; left; auto]. rewrite size_comm in Hs. unfold sizes in Hs; simpl in Hs. lia. }
      rewrite zs_comm, zss_cons in Os by (apply wf_nn, Wb). pose proof (zn_nonneg bts (wf_nn _ Wb)). rewrite zss_nil in Os. lia.
  Qed.
  Lemma zs_reord a : forall b, reord a b -> zs a = zs b.
  Proof.
    induction a as [k bts cts IH|o l r IHl IHr] using kex_ind'; intros b R.
    - apply reord_comm_inv in R as (b2 & c2 & c2' & -> & Hc & P & F). unfold zs. cbn [symbols]. rewrite (bases_in_ceq _ _ Hc), (total_of_perm symbols _ _ P).
      f_equal. f_equal. clear - F IH. induction F as [|x y l m R F IHF]; [reflexivity|].
      cbn [total_of fold_right]. pose proof (IH x (or_introl eq_refl) y R) as H. unfold zs in H. apply Nat2Z.inj in H. rewrite H. f_equal. apply IHF. intros c' Hc'; apply IH; right; exact Hc'.
    - apply reord_change_inv in R as (l2 & r2 & -> & Rl & Rr). rewrite !zs_change. apply reord_branch_inv in Rl, Rr.
      assert (zsr l = zsr l2) by (destruct l as [|y], l2 as [|y']; try contradiction; [reflexivity|exact (IHl y eq_refl y' Rl)]).
      assert (zsr r = zsr r2) by (destruct r as [|y], r2 as [|y']; try contradiction; [reflexivity|exact (IHr y eq_refl y' Rr)]). lia.
  Qed.
  Lemma zs_mk k bts cts : wf_counter bts -> (forall c, In c cts -> wf c) -> zs (mk offset k bts cts) <= 1 + zn bts + zss cts.
  Proof. intros H1 H2. rewrite <- (zs_comm k) by (apply wf_nn, H1). apply zs_simplify, wf_comm. auto. Qed.
  Lemma zs_mkl k l cts : (forall c, In c cts -> wf c) -> zs (mkl offset k l cts) <= 1 + Z.of_nat (length l) + zss cts.
  Proof. intros H. unfold mkl. rewrite <- zn_counter_of. apply zs_mk; [apply counter_of_wf|exact H]. Qed.
  Lemma zs_mk_change o l r : wf_branch l -> wf_branch r -> zs (mk_change offset o l r) <= 1 + zsr l + zsr r.
  Proof. intros Hl Hr. rewrite <- (zs_change o). apply zs_simplify, wf_change. intros x [E|E]; [apply Hl|apply Hr]; exact E. Qed.
  Lemma zn_cadd c d : wf_counter c -> nodup d -> nonneg d -> zn (cadd (cpos c) d) = zn c + zn d.
  Proof.
    intros W N NN. apply zn_add. intros x. rewrite cget_cadd, cget_cpos by auto using cpos_nodup, wf_nodup.
    pose proof (wf_nn _ W x). specialize (NN x). lia.
  Qed.
  Lemma wf_cadd c d : wf_counter c -> nodup d -> wf_counter (cadd (cpos c) d).
  Proof. intros W N. apply cadd_wf; [apply cpos_nodup, wf_nodup, W|exact N]. Qed.

  (** ** The rules *)
  Lemma mkl_wf k l cts : (forall c, In c cts -> wf c) -> wf (mkl offset k l cts).
  Proof. intros H. apply mk_wf; [apply counter_of_wf|exact H]. Qed.
  Lemma plus_size k b c B : wf (Comm k b c) -> zs (mk offset k (cadd (cpos b) (counter_of [B])) c) <= zs (Comm k b c) + 1.
  Proof.
    intros W. apply wf_comm in W as [Wb Wc]. pose proof (zs_mk k (cadd (cpos b) (counter_of [B])) c (wf_cadd b _ Wb (counter_of_nodup [B])) Wc) as H.
    rewrite zn_cadd, zn_counter_of in H by auto using counter_of_nodup, wf_nn, counter_of_wf. rewrite zs_comm by (apply wf_nn, Wb). cbn [length] in H. lia.
  Qed.
  Lemma nested_size k k' b c B : wf (Comm k b c) ->
    forall m, In m (map (fun bt => mk offset k (csub (cpos b) (counter_of [bt])) (c ++ [mkl offset k' [B; bt] []])) (celements b)) -> zs m <= zs (Comm k b c) + 2.
  Proof.
    intros W. apply wf_comm in W as [Wb Wc]. apply all_map. intros x Hx. pose proof (wf_nodup _ Wb) as Nb. pose proof (counter_of_wf [x]) as Wx.
    assert (HM : wf (mkl offset k' [B; x] [])) by (apply mkl_wf; intros ? []).
    assert (WS : wf_counter (csub (cpos b) (counter_of [x]))) by (apply csub_wf; [apply cpos_nodup, Nb|apply wf_nodup, Wx]).
    pose proof (zs_mk k (csub (cpos b) (counter_of [x])) (c ++ [mkl offset k' [B; x] []]) WS) as H.
    rewrite zss_app, zss_cons, zss_nil in H. pose proof (zs_mkl k' [B; x] [] (fun _ F => match F with end)) as H2. rewrite zss_nil in H2. cbn [length] in H2.
    assert (Hx' : 0 < cget b x) by (apply in_celements in Hx; [exact Hx|exact Nb]).
    assert (HZ : zn b = zn (csub (cpos b) (counter_of [x])) + zn [(x, 1)]).
    { apply zn_add. intros y. rewrite cget_csub, cget_cpos, cget_counter1; auto using cpos_nodup, wf_nodup; [|intros z; apply wf_nonneg, Wx].
      pose proof (wf_nn _ Wb y). rewrite cget_cons. destruct (base_eqb x y) eqn:E; [apply base_eqb_spec in E as <-; lia|]. change (cget [] y) with 0. lia. }
    rewrite zn_single in HZ. rewrite zs_comm by (apply wf_nn, Wb).
    assert (HC : forall d, In d (c ++ [mkl offset k' [B; x] []]) -> wf d) by (apply all_app; [exact Wc|apply all_one, HM]). specialize (H HC). lia.
  Qed.
  Lemma add_nested_size S B : wf S -> forall m, In m (add_nested offset (inr S) (inl B)) -> zs m <= zs S + 2.
  Proof.
    intros W. destruct S as [[|] b c|o l r]; cbn [add_nested add].
    - apply all_one. pose proof (plus_size KSum b c B W). lia.
    - apply all_cons; [|apply nested_size; assumption].
      pose proof (zs_mkl KSum [B] [Comm KProd b c] (all_one wf _ W)) as H. rewrite zss_cons, zss_nil in H. cbn [length] in H. lia.
    - apply all_one. pose proof (zs_mkl KSum [B] [Change o l r] (all_one wf _ W)) as H. rewrite zss_cons, zss_nil in H. cbn [length] in H. lia.
  Qed.
  Lemma multiply_nested_size S B : wf S -> forall m, In m (multiply_nested offset (inr S) (inl B)) -> zs m <= zs S + 2.
  Proof.
    intros W. destruct S as [[|] b c|o l r]; cbn [multiply_nested multiply].
    - apply all_cons; [|apply nested_size; assumption].
      pose proof (zs_mkl KProd [B] [Comm KSum b c] (all_one wf _ W)) as H. rewrite zss_cons, zss_nil in H. cbn [length] in H. lia.
    - apply all_one. pose proof (plus_size KProd b c B W). lia.
    - apply all_one. pose proof (zs_mkl KProd [B] [Change o l r] (all_one wf _ W)) as H. rewrite zss_cons, zss_nil in H. cbn [length] in H. lia.
  Qed.
  Lemma multiply_expr_size S x : wf S -> wf x -> forall m, In m (multiply_nested offset (inr S) (inr x)) -> zs m <= 1 + zs S + zs x.
  Proof.
    intros W Wx. assert (E : forall y, multiply_nested offset (inr y) (inr x) = [multiply offset (inr y) (inr x)]) by (intros [[|] ? ?|? ? ?]; reflexivity).
    rewrite E. apply all_one. destruct (operate_shape KProd (inr S) (inr x)) as (B & C & EE & WB & G & P); [intros ? [= <-]; exact W|intros ? [= <-]; exact Wx|].
    specialize (EE offset). cbn [operate] in EE. rewrite EE.
    assert (K : forall d, wf d -> zn (part_bases KProd (inr d)) + zss (part_kexs KProd (inr d)) <= zs d).
    { intros [[|] b c|o l r] Wd; cbn [part_bases part_kexs kind_eqb]; rewrite ?zss_cons, ?zss_nil, ?zn_nil; try lia. apply wf_comm in Wd as [Wd _]. rewrite zs_comm by (apply wf_nn, Wd). lia. }
    pose proof (K S W). pose proof (K x Wx). pose proof (zs_mk KProd B C WB) as H1. rewrite (zn_add _ _ _ G), (zss_perm _ _ P), zss_app in H1.
    assert (HC : forall c, In c C -> wf c).
    { intros c Hc. apply (Permutation_in c P), in_app_iff in Hc as [Hc|Hc]; (eapply part_kexs_wf; [|exact Hc]); intros ? [= <-]; assumption. }
    specialize (H1 HC). lia.
  Qed.
  Lemma zn_swap x B : zn (swap_counter x B) = 0 \/ zn (swap_counter x B) = 1.
  Proof. unfold zn. rewrite bsum_expand. destruct x, B; cbn; auto. Qed.
  Lemma swap_base_size S B : wf S -> forall m, In m (swap_base offset S B) -> zs m <= zs S + 1.
  Proof.
    intros W. destruct S as [k b c|o l r]; cbn [swap_base].
    - apply wf_comm in W as [Wb Wc]. apply all_map. unfold swap_args. intros d Hd. apply in_map_iff in Hd as (x & <- & Hx).
      pose proof (zs_mk k (cadd (cpos b) (swap_counter x B)) c (wf_cadd b _ Wb (swap_counter_nodup x B)) Wc) as H. rewrite zs_comm by (apply wf_nn, Wb).
      assert (HZ : zn (cadd (cpos b) (swap_counter x B)) = zn b + zn (swap_counter x B)).
      { apply zn_add. intros y. rewrite cget_cadd, cget_cpos by auto using cpos_nodup, wf_nodup, swap_counter_nodup. pose proof (wf_nn _ Wb y).
        rewrite (wf_cpos _ Wb) in Hx. assert (0 < cget b x).
        { apply in_map_iff in Hx as ([x' n] & <- & Hx). cbn [fst]. rewrite (cget_in b x' n (wf_nodup _ Wb) Hx). exact (proj2 Wb _ _ Hx). }
        assert (cget (swap_counter x B) y = -1 -> y = x).
        { unfold swap_counter. rewrite !cget_cset. change (cget [] y) with 0. destruct (base_eqb B y); [lia|]. destruct (base_eqb x y) eqn:E; [|lia]. intros _. symmetry. apply base_eqb_spec, E. }
        assert (-1 <= cget (swap_counter x B) y).
        { unfold swap_counter. rewrite !cget_cset. change (cget [] y) with 0. destruct (base_eqb B y); [lia|]. destruct (base_eqb x y); lia. }
        destruct (Z.eq_dec (cget (swap_counter x B) y) (-1)) as [E|E]; [specialize (H2 E); subst y; lia|lia]. }
      destruct (zn_swap x B); lia.
    - rewrite wf_change in W. rewrite zs_change.
      assert (Wl : wf_branch l) by (intros y Ey; apply W; auto). assert (Wr : wf_branch r) by (intros y Ey; apply W; auto). assert (WB : wf_branch (inl B)) by (intros y [=]).
      apply all_app; [destruct l as [b|]|destruct r as [b|]]; try apply none_all; destruct (base_eqb b B); try apply none_all; apply all_one.
      + pose proof (zs_mk_change o (inl B) r WB Wr) as H. cbn [zsr] in *. lia.
      + pose proof (zs_mk_change o l (inl B) Wl WB) as H. cbn [zsr] in *. lia.
  Qed.
  Lemma one_change_size S o b : wf S -> forall m, In m (one_change offset (inr S) o (Some (inl b))) -> zs m <= zs S + 2.
  Proof.
    intros W. assert (WS : wf_branch (inr S)) by (intros y [= <-]; exact W). assert (WB : wf_branch (inl b)) by (intros y [=]).
    cbn [one_change branch_eqb]. apply all_two; [pose proof (zs_mk_change o _ _ WS WB) as H|pose proof (zs_mk_change o _ _ WB WS) as H]; cbn [zsr] in H; lia.
  Qed.
  Lemma both_changes_size S b : wf S -> forall m, In m (both_changes offset (inr S) (Some (inl b))) -> zs m <= zs S + 2.
  Proof.
    intros W. unfold both_changes. cbn [map concat branch_eqb app].
    apply all_cons; [apply (one_change_size S CP b W); left; auto|]. apply all_cons; [apply (one_change_size S CP b W); right; left; auto|].
    apply all_two; [apply (one_change_size S CW b W); left; auto|apply (one_change_size S CW b W); right; left; auto].
  Qed.
  Lemma same_size S : wf S -> forall m, In m (both_changes offset (inr S) None) -> zs m <= 2 * zs S + 1.
  Proof.
    intros W. assert (WS : wf_branch (inr S)) by (intros y [= <-]; exact W). unfold both_changes. cbn [map concat app].
    apply all_two; [pose proof (zs_mk_change CP _ _ WS WS) as H|pose proof (zs_mk_change CW _ _ WS WS) as H]; cbn [zsr] in H; lia.
  Qed.
  Lemma remove_size S : wf S -> forall m, In m (remove_a_term offset S) -> zs m <= zs S.
  Proof.
    intros W. destruct S as [k b c|o l r]; cbn [remove_a_term].
    - apply wf_comm in W as [Wb Wc]. rewrite zs_comm by (apply wf_nn, Wb). unfold remove_args. destruct (1 <? _); [|apply none_all]. apply all_map. intros [d e] Hd. cbn [fst snd].
      apply in_app_iff in Hd as [Hd|Hd]; apply in_map_iff in Hd as (x & [= <- <-] & Hx).
      + pose proof (zs_mk k (cadd (cpos b) [(x, -1)]) c (wf_cadd b _ Wb (nodup_single x (-1))) Wc) as H.
        assert (zn (cadd (cpos b) [(x, -1)]) <= zn b); [|lia]. apply zn_le. intros y. rewrite cget_cadd, cget_cpos by auto using cpos_nodup, wf_nodup, nodup_single.
        pose proof (wf_nn _ Wb y). rewrite cget_cons. change (cget [] y) with 0. destruct (base_eqb x y); lia.
      + assert (P : zss (drop_nth x c) <= zss c).
        { unfold drop_nth. rewrite zss_app. rewrite <- (firstn_skipn x c) at 3. rewrite zss_app. apply Z.add_le_mono_l.
          clear. revert x. induction c as [|y c IH]; intros x; [destruct x; cbn; lia|]. destruct x; [cbn [skipn]; rewrite zss_cons; pose proof (zs_pos y); lia|]. apply IH. }
        pose proof (zs_mk k (cpos b) (drop_nth x c)) as H. rewrite (wf_cpos _ Wb) in H. rewrite (wf_cpos _ Wb). specialize (H Wb).
        assert (HC : forall d, In d (drop_nth x c) -> wf d).
        { intros y Hy. apply Wc. unfold drop_nth in Hy. apply in_app_iff in Hy as [Hy|Hy].
          * rewrite <- (firstn_skipn x c). apply in_app_iff. auto.
          * rewrite <- (firstn_skipn (S x) c). apply in_app_iff. auto. }
        specialize (H HC). lia.
    - rewrite zs_change. pose proof (zsr_pos l). pose proof (zsr_pos r). apply all_map. intros [b|e] Hx.
      + pose proof (zs_mkl KSum [b] [] (none_all wf)) as H1. rewrite zss_nil in H1. cbn [length] in H1. lia.
      + destruct Hx as [->|[->|[]]]; cbn [zsr] in *; lia.
  Qed.
  Lemma del_se_size m : wf m -> zs (del_se m) <= zs m.
  Proof.
    destruct m as [k b c|]; [|cbn; lia]. intros W. apply wf_comm in W as [Wb Wc]. cbn [del_se]. rewrite !zs_comm by (apply wf_nn; (apply dict_del_wf, Wb || exact Wb)).
    assert (zn (dict_del base_eqb b bSE) <= zn b); [|lia]. apply zn_le. intros x. rewrite cget_del by (apply wf_nodup, Wb). pose proof (wf_nn _ Wb x). destruct (base_eqb x bSE); lia.
  Qed.
  Lemma all_del_size (l : list kex) z : (forall x, In x l -> wf x /\ zs x <= z) -> forall x, In x (map del_se l) -> zs x <= z.
  Proof. intros H. apply all_map. intros x Hx. destruct (H x Hx) as [W L]. pose proof (del_se_size x W). lia. Qed.
  Lemma higher_size x : In x (higher_kers offset) -> wf x /\ zs x <= 4.
  Proof.
    intros [<-|[<-|[]]]; (split; [apply mkl_wf; intros ? []|]).
    - pose proof (zs_mkl KProd [bLIN; bLIN] [] (none_all wf)) as H. rewrite zss_nil in H. cbn [length] in H. lia.
    - pose proof (zs_mkl KProd [bLIN; bLIN; bLIN] [] (none_all wf)) as H. rewrite zss_nil in H. cbn [length] in H. lia.
  Qed.
  Lemma higher_curves_size S : wf S -> forall m, In m (higher_curves offset S) -> zs m <= zs S + 4.
  Proof.
    intros W. destruct S as [[|] b c|o l r]; cbn [higher_curves].
    - apply wf_comm in W as [Wb Wc]. rewrite zs_comm by (apply wf_nn, Wb).
      assert (A : forall m, In m (map (fun ct => mk offset KSum (cpos b) (c ++ [ct])) (higher_kers offset)) -> wf m /\ zs m <= 1 + zn b + zss c + 4).
      { apply all_map. intros x Hx. destruct (higher_size x Hx) as [Wx Lx]. rewrite (wf_cpos _ Wb).
        assert (HC : forall d, In d (c ++ [x]) -> wf d) by (apply all_app; [exact Wc|apply all_one, Wx]).
        split; [apply mk_wf; [exact Wb|exact HC]|]. pose proof (zs_mk KSum b (c ++ [x]) Wb HC) as H. rewrite zss_app, zss_cons, zss_nil in H. lia. }
      destruct (chas (cpos b) bSE); [apply all_del_size; exact A|intros m Hm; apply A, Hm].
    - apply wf_comm in W as [Wb Wc]. rewrite zs_comm by (apply wf_nn, Wb). set (ds := [[(bLIN, 2)]; [(bLIN, 3)]; (if chas (cpos b) bPER then [(bPER, 1)] else [(bPER, 2)])]).
      assert (A : forall m, In m (map (fun d => mk offset KProd (cadd (cpos b) d) c) ds) -> wf m /\ zs m <= 1 + zn b + zss c + 4).
      { apply all_map. intros d Hd. assert (K : exists x n, d = [(x, n)] /\ 0 <= n <= 3).
        { destruct Hd as [<-|[<-|[<-|[]]]]; [do 2 eexists; split; [reflexivity|lia]|do 2 eexists; split; [reflexivity|lia]|]. destruct (chas (cpos b) bPER); (do 2 eexists; split; [reflexivity|lia]). }
        destruct K as (x & n & -> & Hn). pose proof (wf_cadd b [(x, n)] Wb (nodup_single x n)) as WA. split; [apply mk_wf; [exact WA|exact Wc]|].
        pose proof (zs_mk KProd _ c WA Wc) as H. rewrite zn_cadd, zn_single in H; [lia|exact Wb|apply nodup_single|].
        intros y. rewrite cget_cons. change (cget [] y) with 0. destruct (base_eqb x y); lia. }
      destruct (chas (cpos b) bSE); [apply all_del_size; exact A|intros m Hm; apply A, Hm].
    - rewrite wf_change in W. rewrite zs_change.
      assert (Wl : wf_branch l) by (intros y Ey; apply W; auto). assert (Wr : wf_branch r) by (intros y Ey; apply W; auto).
      apply all_app; [destruct l as [b|]|destruct r as [b|]]; try apply none_all; apply all_map; intros x Hx; destruct (higher_size x Hx) as [Wx Lx].
      + pose proof (zs_mk_change o (inr x) r) as H. cbn [zsr] in *. assert (wf_branch (inr x)) by (intros y [= <-]; exact Wx). specialize (H H0 Wr). lia.
      + pose proof (zs_mk_change o l (inr x) Wl) as H. cbn [zsr] in *. assert (wf_branch (inr x)) by (intros y [= <-]; exact Wx). specialize (H H0). lia.
  Qed.
End Cost.

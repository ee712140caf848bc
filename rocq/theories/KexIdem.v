(** Proofs: everything simplification returns is in normal form except that a Sum may be left in a Sum, or a Product in a Product; when
    that happens (C05, C18). *)
From Coq Require Import List Bool Arith ZArith Lia Permutation.
From Verif Require Import Py UtilModel UtilSpec UtilProofs KexModel KexSpec KexProofs KexSimp KexMore OpsModel OpsSpec KexCong OpsProofs
  KexIdemSpec.
Import ListNotations.
Local Open Scope list_scope.
Local Open Scope Z_scope.

Section WithOffset.
  Variable offset : bool.
  (** As normal, without asking that composites are not of the kind of the expression they are in. *)
  Definition weak_node (n : kex) : Prop :=
    match n with
    | Comm k bts cts => wf_counter bts /\ cardinality offset k bts (length cts) /\ forall c, In c cts -> ~ singleton c
    | Change _ l r => forall x, l = inr x \/ r = inr x -> ~ singleton x
    end.
  Definition weak (e : kex) : Prop := forall n, node n e -> weak_node n.
  Definition weak' (e : kex) : Prop :=
    match e with
    | Comm k bts cts => wf_counter bts /\ cardinality offset k bts (length cts) /\ forall c, In c cts -> weak c /\ ~ singleton c
    | Change _ l r => forall x, l = inr x \/ r = inr x -> weak x /\ ~ singleton x
    end.
  Lemma weak_iff e : weak e <-> weak' e.
  Proof.
    destruct e as [k bts cts|c l r]; split.
    - intros H. destruct (H _ (node_self _)) as (W & Hc & Hk). split; [exact W|]. split; [exact Hc|].
      intros c Hin. split; [|apply Hk, Hin]. intros n Hn. apply H. eapply node_comm; eauto.
    - intros (W & Hc & Hk) n Hn. apply node_comm_inv in Hn as [->|(c & Hin & Hn)].
      + split; [exact W|]. split; [exact Hc|]. intros c Hin. destruct (Hk c Hin) as (_ & ?); auto.
      + apply (Hk c Hin). exact Hn.
    - intros H x Hx. split; [|apply (H _ (node_self _)), Hx]. intros n Hn. apply H.
      destruct Hx as [->| ->]; [apply node_left|apply node_right]; exact Hn.
    - intros H n Hn. apply node_change_inv in Hn as [->|[(x & -> & Hn)|(x & -> & Hn)]].
      + intros x Hx. apply H, Hx.
      + apply (H x); auto.
      + apply (H x); auto.
  Qed.
  Lemma weak_wf e : weak e -> wf e.
  Proof. intros H k bts cts Hn. apply H in Hn. apply Hn. Qed.
  Lemma weak_wf_top e : weak e -> wf_top e.
  Proof. intros H. apply wf_top_of, weak_wf, H. Qed.
  Lemma normal_weak e : normal offset e -> weak e.
  Proof.
    intros N n Hn. specialize (N n Hn). destruct n; cbn [normal_node weak_node] in *; [|exact N].
    destruct N as (W & C & K). split; [exact W|]. split; [exact C|]. intros c Hc. apply K, Hc.
  Qed.
  Lemma pnf_weak e : pnf offset e -> weak e.
  Proof.
    intros P. apply weak_iff. destruct e as [k bts cts|o l r]; cbn [pnf weak'] in *.
    - destruct P as (W & C & K). split; [exact W|]. split; [exact C|]. intros c Hc. destruct (K c Hc). split; [apply normal_weak|]; auto.
    - intros x Hx. destruct (P x Hx). split; [apply normal_weak|]; auto.
  Qed.
  Lemma is_kind_iff k c : is_kind k c = true <-> exists b' c', c = Comm k b' c'.
  Proof.
    destruct c as [k' b c|]; cbn [is_kind]; [|split; [discriminate|intros (? & ? & E); discriminate]].
    split.
    - intros E. apply kind_eqb_spec in E as ->. eauto.
    - intros (? & ? & [= -> -> ->]). apply kind_eqb_spec. reflexivity.
  Qed.
  Lemma normal_weak_nested e : normal offset e <-> weak e /\ ~ nested e.
  Proof.
    split.
    - intros N. split; [apply normal_weak, N|]. intros (k & b & c & b' & c' & Hn & Hc). specialize (N _ Hn). destruct N as (_ & _ & K).
      destruct (K _ Hc) as [_ K']. enough (is_kind k (Comm k b' c') = true) by congruence. apply is_kind_iff. eauto.
    - intros [W NN] n Hn. specialize (W n Hn). destruct n as [k b c|]; cbn [normal_node weak_node] in *; [|exact W].
      destruct W as (Wb & C & K). split; [exact Wb|]. split; [exact C|]. intros x Hx. split; [apply K, Hx|].
      destruct (is_kind k x) eqn:E; [|reflexivity]. apply is_kind_iff in E as (b' & c' & ->). exfalso. apply NN.
      exists k, b, c, b', c'. auto.
  Qed.

  Lemma raised_weak k cts x : (forall c, In c cts -> weak c) -> In x (raised k cts) -> weak x.
  Proof.
    intros Hn. unfold raised. rewrite in_app_iff. intros [H|H].
    - apply filter_In in H as [H K]. apply Hn, H.
    - apply in_concat in H as (m & Hm & Hx). apply in_map_iff in Hm as (c & <- & Hc). apply filter_In in Hc as [Hc K].
      specialize (Hn c Hc). apply weak_iff in Hn. destruct c as [k' b' c'|]; [|discriminate]. destruct Hn as (_ & _ & G). apply (G x Hx).
  Qed.
  Lemma extract_weak e x : weak e -> extract e = inr x -> weak x /\ ~ singleton x.
  Proof.
    intros We E. destruct e as [k b c|o l r]; [|injection E as <-; split; [exact We|apply not_singleton_change]].
    destruct (extract_spec k b c (weak_wf_top _ We)) as [(y & _ & _ & E')|[(y & -> & -> & E')|(T & E')]]; rewrite E' in E; try discriminate.
    - injection E as <-. apply weak_iff in We as (_ & _ & G). apply G. left; auto.
    - injection E as <-. split; [exact We|]. rewrite singleton_comm. exact T.
  Qed.
  Lemma simp_node_weak k bts cts : wf_counter bts -> (forall c, In c cts -> weak c) -> weak (simp_node offset k bts cts).
  Proof.
    intros W Hn. destruct (simp_node_spec offset k bts cts) as (ns & _ & _ & E). cbv zeta in E. rewrite E. clear E.
    set (hb := absorb_bts offset k bts (filter (is_kind k) cts) ns).
    assert (Wb : wf_counter hb) by (apply absorb_bts_wf, W).
    apply weak_iff. split; [apply simp_base_wf, simp_base_nodup, cupdate_list_nodup, wf_nodup, Wb|]. split.
    - apply simp_base_card; [apply simp_base_nodup|apply simp_base_nonneg]; apply cupdate_list_nodup, wf_nodup, Wb.
    - intros c Hin. rewrite kexs_of_in, in_map_iff in Hin. destruct Hin as (y & Ey & Hy).
      eapply extract_weak; [|exact Ey]. eapply raised_weak; eauto.
  Qed.
  Lemma simplify_weak e : wf e -> weak (simplify offset e).
  Proof.
    induction e as [k bts cts IH|o l r IHl IHr] using kex_ind'; intros W; cbn [simplify].
    - apply wf_comm in W as [Wb Wc]. apply simp_node_weak; [exact Wb|]. intros c Hc. apply in_map_iff in Hc as (c0 & <- & Hc0). auto.
    - rewrite wf_change in W. apply weak_iff. cbn [weak'].
      assert (B : forall b x, (forall y, b = inr y -> weak (simplify offset y)) ->
        match b with inl b0 => inl b0 | inr y => extract (simplify offset y) end = inr x -> weak x /\ ~ singleton x).
      { intros [b|y] x Hb Ex; [discriminate|]. eapply extract_weak; [|exact Ex]. auto. }
      intros x [Ex|Ex]; [apply (B l)|apply (B r)]; auto.
  Qed.
  Lemma leaf_weak b : weak (Comm KSum [(b, 1)] []).
  Proof. apply normal_weak, leaf_normal. Qed.
  Lemma standardise_weak e : wf e -> weak (standardise offset e).
  Proof.
    remember (size e) as n eqn:En. revert e En. induction n as [n IH] using lt_wf_ind. intros e En W.
    pose proof (simplify_size offset e) as Hs. pose proof (simplify_weak e W) as Ws. rewrite (standardise_unfold offset e W).
    destruct (simplify offset e) as [k bts cts|o l r] eqn:E; [|exact Ws]. pose proof Ws as Ws0. apply weak_iff in Ws as (Wb & _ & Wc).
    destruct (extract (Comm k bts cts)) as [b|x] eqn:Ex; [rewrite mkl_leaf; apply leaf_weak|].
    destruct (is_singleton bts cts) eqn:S; [|exact Ws0].
    pose proof (extract_single k bts cts x Wb Ex S) as ->. eapply IH; [|reflexivity|apply weak_wf, Wc; left; auto].
    rewrite size_comm in Hs. unfold sizes in Hs; simpl in Hs. lia.
  Qed.
  Lemma weak_reord a : forall b, weak a -> wf b -> reord a b -> weak b.
  Proof.
    induction a as [k bts cts IH|o l r IHl IHr] using kex_ind'; intros b N W R; apply weak_iff in N; apply weak_iff.
    - destruct b as [k' b' c'|]; [|inversion R]. assert (k' = k) as -> by (inversion R; auto).
      apply reord_comm_iff in R as [Hb Hl]. destruct N as (Wa & Ca & Ka). apply wf_comm in W as [Wb Wc].
      split; [exact Wb|]. split; [rewrite <- (lreord_length _ _ Hl); eapply cardinality_ceq; eauto|].
      intros y Hy. destruct (lreord_in_r cts c' y Hl Hy) as (x & Hx & Rx). destruct (Ka x Hx) as (Nx & Sx).
      split; [eapply IH; eauto|]. intros Sy. apply Sx. eapply singleton_reord; [exact Sy|apply reord_sym, Rx].
    - destruct b as [|o' l' r']; [inversion R|]. apply reord_change_inv in R as (l2 & r2 & [= -> -> ->] & Rl & Rr).
      rewrite wf_change in W. intros y Hy. destruct Hy as [->| ->].
      + apply reord_branch_cases in Rl as [(x & _ & E)|(x & y' & -> & [= ->] & Rx)]; [discriminate|].
        destruct (N x (or_introl eq_refl)) as [Nx Sx]. split; [eapply IHl; eauto|].
        intros Sy. apply Sx. eapply singleton_reord; [exact Sy|apply reord_sym, Rx].
      + apply reord_branch_cases in Rr as [(x & _ & E)|(x & y' & -> & [= ->] & Rx)]; [discriminate|].
        destruct (N x (or_intror eq_refl)) as [Nx Sx]. split; [eapply IHr; eauto|].
        intros Sy. apply Sx. eapply singleton_reord; [exact Sy|apply reord_sym, Rx].
  Qed.

  (** ** C05 *)
  Lemma fixed_iff_nested e : built offset e -> (keq (simplify offset e) e = true <-> ~ nested e).
  Proof.
    intros B. pose proof (built_pnf offset e B) as P. rewrite keq_spec. split.
    - intros R. apply (normal_weak_nested e). eapply normal_reord; [apply pnf_simplify, P|apply (built_wf offset), B|exact R].
    - intros NN. rewrite normal_fix; [apply reord_refl|]. apply normal_weak_nested. split; [apply pnf_weak, P|exact NN].
  Qed.
  (** A composite of the constructed expression that is of its own kind was the only thing in a composite passed to the constructor. *)
  Lemma simp_node_own k bts cts : (forall c, In c cts -> normal offset c) ->
    ((exists b' c', In (Comm k b' c') (kids (simp_node offset k bts cts)))
     <-> exists k' b' c', In (Comm k' [] [Comm k b' c']) cts).
  Proof.
    intros N. destruct (simp_node_spec offset k bts cts) as (ns & _ & _ & E). cbv zeta in E. rewrite E. clear E. cbn [kids]. split.
    - intros (b' & c' & Hin). rewrite kexs_of_in, in_map_iff in Hin. destruct Hin as (y & Ey & Hy).
      pose proof (raised_normal offset k cts y N Hy) as [Ny Ky]. destruct y as [k' b c|]; [|discriminate].
      destruct (extract_spec k' b c (normal_wf_top offset _ Ny)) as [(z & _ & _ & E')|[(z & -> & -> & E')|(T & E')]]; rewrite E' in Ey; try discriminate.
      + injection Ey as ->. unfold raised in Hy. apply in_app_iff in Hy as [Hy|Hy].
        * apply filter_In in Hy as [Hy _]. eauto.
        * exfalso. apply in_concat in Hy as (m & Hm & Hx). apply in_map_iff in Hm as (h & <- & Hh). apply filter_In in Hh as [Hh _].
          pose proof (N h Hh) as Nh. apply normal_iff in Nh. destruct h as [k2 b2 c2|]; [|destruct Hx].
          destruct Nh as (_ & _ & G). destruct (G _ Hx) as (_ & NS & _). apply NS. exists k', [], [Comm k b' c']. auto.
      + injection Ey as -> -> ->. exfalso. enough (is_kind k (Comm k b' c') = true) by congruence. apply is_kind_iff; eauto.
    - intros (k' & b' & c' & Hin). exists b', c'. apply kexs_of_in, in_map_iff. exists (Comm k' [] [Comm k b' c']). split.
      + destruct (extract_spec k' [] [Comm k b' c'] (normal_wf_top offset _ (N _ Hin))) as [(z & E1 & _)|[(z & _ & [= <-] & E')|(T & _)]];
          [discriminate|exact E'|]. exfalso. apply T. reflexivity.
      + apply in_app_iff. left. apply filter_In. split; [exact Hin|].
        specialize (N _ Hin). apply normal_iff in N as (_ & _ & G). destruct (G _ (or_introl eq_refl)) as (_ & _ & K).
        destruct (is_kind k (Comm k' [] [Comm k b' c'])) eqn:E; [|reflexivity].
        apply is_kind_iff in E as (b2 & c2 & [= -> _ _]). enough (is_kind k (Comm k b' c') = true) by congruence. apply is_kind_iff; eauto.
  Qed.
  Lemma pnf_nested_top k bts cts : pnf offset (Comm k bts cts) -> (nested (Comm k bts cts) <-> exists b' c', In (Comm k b' c') cts).
  Proof.
    intros (_ & _ & G). split.
    - intros (k1 & b1 & c1 & b2 & c2 & Hn & Hi). apply node_comm_inv in Hn as [[= -> -> ->]|(x & Hx & Hn)]; [eauto|].
      destruct (G x Hx) as [Nx _]. exfalso. apply normal_weak_nested in Nx as [_ NN]. apply NN. exists k1, b1, c1, b2, c2. auto.
    - intros (b' & c' & Hi). exists k, bts, cts, b', c'. split; [apply node_self|exact Hi].
  Qed.
  Lemma mk_fixed_iff k bts cts : wf_counter bts -> (forall c, In c cts -> built offset c) ->
    (keq (simplify offset (mk offset k bts cts)) (mk offset k bts cts) = true
     <-> ~ exists c k' b' c', In c cts /\ simplify offset c = Comm k' [] [Comm k b' c']).
  Proof.
    intros W B. rewrite fixed_iff_nested by (apply built_counter; assumption).
    assert (Nm : forall c, In c (map (simplify offset) cts) -> normal offset c).
    { intros c Hc. apply in_map_iff in Hc as (c0 & <- & Hc0). apply pnf_simplify, built_pnf, B, Hc0. }
    unfold mk. cbn [simplify].
    pose proof (simp_node_own k bts (map (simplify offset) cts) Nm) as Own.
    pose proof (simp_node_pnf offset k bts (map (simplify offset) cts) W Nm) as P.
    destruct (simp_node_spec offset k bts (map (simplify offset) cts)) as (ns & _ & _ & E). cbv zeta in E. rewrite E in Own, P |- *. clear E.
    rewrite (pnf_nested_top _ _ _ P). cbn [kids] in Own. rewrite Own. apply not_iff_compat. split.
    - intros (k' & b' & c' & Hin). apply in_map_iff in Hin as (c & Ec & Hc). exists c, k', b', c'. auto.
    - intros (c & k' & b' & c' & Hc & Ec). exists k', b', c'. rewrite <- Ec. apply in_map, Hc.
  Qed.
  Lemma mk_change_fixed o l r : (forall x, l = inr x \/ r = inr x -> built offset x) ->
    simplify offset (mk_change offset o l r) = mk_change offset o l r.
  Proof.
    intros B. apply normal_fix. pose proof (mk_change_pnf offset o l r (fun x Hx => built_pnf offset x (B x Hx))) as P.
    apply normal_iff. unfold mk_change in *. cbn [simplify] in *. exact P.
  Qed.

  (** ** C18 *)
  Lemma expand_nested G bases noC e x : In G (groups offset) -> normal offset e -> In x (expand offset (G bases noC) e) ->
    (normal offset x <-> ~ nested x).
  Proof.
    intros HG N Hx. pose proof (normal_wf offset e N) as W.
    destruct (expand_sound offset (G bases noC) e W (groups_wf offset G bases noC HG) x Hx)
      as (p & n & new & t & Ha & Hp & Wn & Ht & Wt & R & Wx).
    assert (Wk : weak x) by (eapply weak_reord; [apply standardise_weak, Wt|exact Wx|apply reord_sym, R]).
    rewrite normal_weak_nested. tauto.
  Qed.
  (** As [simp_node_normal], with the exact condition on the composites. *)
  Lemma simp_node_normal' k bts cts : wf_counter bts -> (forall c, In c cts -> normal offset c) ->
    (forall k' b' c', ~ In (Comm k' [] [Comm k b' c']) cts) -> normal offset (simp_node offset k bts cts).
  Proof.
    intros W N H. pose proof (simp_node_own k bts cts N) as Own. pose proof (simp_node_pnf offset k bts cts W N) as P.
    apply normal_weak_nested. split; [apply pnf_weak, P|].
    destruct (simp_node_spec offset k bts cts) as (ns & _ & _ & E). cbv zeta in E. rewrite E in Own, P |- *. clear E.
    rewrite (pnf_nested_top _ _ _ P). cbn [kids] in Own. rewrite Own. intros (k' & b' & c' & Hin). eapply H; eauto.
  Qed.
  Lemma replace_normal' p : forall e new t, normal offset e -> pnf offset new -> replace_addr e p new = Some t ->
    no_own_kind offset t p -> normal offset (simplify offset t).
  Proof.
    induction p as [|i q IH]; intros e new t N Pn H HC; cbn [replace_addr] in H; [injection H as <-; apply pnf_simplify, Pn|].
    destruct (child e i) as [c|] eqn:E; [|discriminate]. destruct (replace_addr c q new) as [c'|] eqn:R; [|discriminate].
    assert (Hc' : child t i = Some c').
    { destruct e as [k b cts|o l r]; cbn [child] in E.
      - injection H as <-. cbn [child]. rewrite nth_error_app2 by (rewrite firstn_length; lia).
        assert (i < length cts)%nat by (apply nth_error_Some; congruence).
        rewrite firstn_length, Nat.min_l, Nat.sub_diag by lia. reflexivity.
      - destruct i as [|[|i]]; [| |discriminate]; injection H as <-; reflexivity. }
    assert (Nc : normal offset (simplify offset c')).
    { eapply IH; [eapply child_normal; eauto|exact Pn|exact R|]. intros q1 i1 r1 k bts cts s k' b1 c1 Eq Hq Hs Es.
      apply (HC (i :: q1) i1 r1 k bts cts s k' b1 c1); [rewrite Eq; reflexivity| |exact Hs|exact Es].
      cbn [at_addr]. rewrite Hc'. exact Hq. }
    apply normal_iff in N. destruct e as [k b cts|o l r].
    - injection H as <-. destruct N as (W & _ & Hk). cbn [simplify]. apply simp_node_normal'; [exact W| |].
      + intros x Hx. apply in_map_iff in Hx as (y & <- & Hy). apply in_set_nth in Hy as [->|Hy]; [exact Nc|].
        destruct (Hk y Hy) as (Ny & _ & _). rewrite (normal_fix offset y Ny). exact Ny.
      + intros k' b1 c1 Hin. apply in_map_iff in Hin as (y & Ey & Hy). apply in_set_nth in Hy as [->|Hy].
        * apply (HC [] i q k b (firstn i cts ++ c' :: skipn (S i) cts) c' k' b1 c1); [reflexivity|reflexivity|exact Hc'|exact Ey].
        * destruct (Hk y Hy) as (Ny & NSy & _). rewrite (normal_fix offset y Ny) in Ey. subst y. apply NSy.
          exists k', [], [Comm k b1 c1]. auto.
    - assert (Hb : forall x, l = inr x \/ r = inr x -> normal offset (simplify offset x)).
      { intros x Hx. destruct (N x Hx) as [Nx _]. rewrite normal_fix; exact Nx. }
      assert (G : pnf offset (simplify offset t)).
      { destruct i; injection H as <-; apply pnf_change; intros x Ex; try (injection Ex as <-; exact Nc); auto. }
      destruct i; injection H as <-; apply normal_iff; exact G.
  Qed.
  Lemma expand_normal' G bases noC e x : In G (groups offset) -> normal offset e -> In x (expand offset (G bases noC) e) ->
    exists p n new t, at_addr e p = Some n /\ produced (G bases noC) n new /\ replace_addr e (target e p) new = Some t
      /\ keq x (standardise offset t) = true /\ (no_own_kind offset t (target e p) -> normal offset x).
  Proof.
    intros HG N Hx. pose proof (normal_wf offset e N) as W.
    destruct (expand_sound offset (G bases noC) e W (groups_wf offset G bases noC HG) x Hx)
      as (p & n & new & t & Ha & Hp & Wn & Ht & Wt & R & Wx).
    exists p, n, new, t. rewrite keq_spec. repeat (split; [assumption|]). intros HC.
    eapply normal_reord; [|exact Wx|apply reord_sym, R]. apply standardise_normal; [exact Wt|].
    eapply replace_normal'; [exact N| |exact Ht|exact HC]. destruct Hp as (r & g & Hr & Hg & Hn).
    eapply rules_all_pnf; [eapply groups_incl; eauto| |exact Hg|exact Hn]. apply normal_pnf. eapply at_addr_normal; eauto.
  Qed.
End WithOffset.

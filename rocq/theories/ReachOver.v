(** Expansions and searches stay within the base kernels they are given (C61). *)
From Coq Require Import String List Bool Arith ZArith Lia Permutation.
From Verif Require Import Py UtilModel KexModel KexSpec KexProofs KexSimp KexCong KexMore OpsModel OpsSpec OpsProofs SemMore SearchModel SearchSpec ReachSpec ReachProofs ReachCong ReachSearch.
Import ListNotations.
Local Open Scope list_scope.
Local Open Scope Z_scope.

Section Over.
  Variables (offset : bool) (bs : list base).
  Lemma over_comm k bts cts : over bs (Comm k bts cts) <-> (forall b, 0 < cget bts b -> In b bs) /\ forall c, In c cts -> over bs c.
  Proof.
    unfold over. split.
    - intros H. split; [intros b Hb|intros c Hc b Hb]; apply H, occurs_comm; eauto.
    - intros [H1 H2] b Hb. apply occurs_comm in Hb as [Hb|(c & Hc & Hb)]; eauto.
  Qed.
  Definition over_branch (l : branch) : Prop := match l with inl b => In b bs | inr e => over bs e end.
  Lemma over_change o l r : over bs (Change o l r) <-> over_branch l /\ over_branch r.
  Proof.
    unfold over. split.
    - intros H. split; [destruct l as [b|e]|destruct r as [b|e]]; cbn; try (intros b Hb); apply H, occurs_change; eauto 6.
    - intros [H1 H2] b Hb. apply occurs_change in Hb as [[->|(x & -> & Hb)]|[->|(x & -> & Hb)]]; auto.
  Qed.
  Lemma over_simplify e : wf e -> over bs e -> over bs (simplify offset e).
  Proof. intros W H b Hb. apply H, (simplify_occurs offset b e W Hb). Qed.
  (** A well-formed expression over the bases. *)
  Definition good (e : kex) : Prop := wf e /\ over bs e.
  Definition goodc (c : counter) : Prop := wf_counter c /\ forall b, 0 < cget c b -> In b bs.
  Lemma good_comm k bts cts : good (Comm k bts cts) <-> goodc bts /\ forall c, In c cts -> good c.
  Proof.
    unfold good, goodc. rewrite wf_comm, over_comm. split.
    - intros [[H1 H2] [H3 H4]]. auto.
    - intros [[H1 H2] H3]. split; split; auto; intros c Hc; apply H3, Hc.
  Qed.
  Lemma good_mk k bts cts : goodc bts -> (forall c, In c cts -> good c) -> good (mk offset k bts cts).
  Proof.
    intros H1 H2. assert (G : good (Comm k bts cts)) by (apply good_comm; auto). destruct G as [W O].
    split; [apply simplify_wf, W|apply over_simplify; assumption].
  Qed.
  Lemma goodc_list l : (forall b, In b l -> In b bs) -> goodc (counter_of l).
  Proof. intros H. split; [apply counter_of_wf|]. intros b Hb. apply H, (count_occ_In base_eq_dec). rewrite cget_counter_of in Hb. lia. Qed.
  Lemma good_mkl k l cts : (forall b, In b l -> In b bs) -> (forall c, In c cts -> good c) -> good (mkl offset k l cts).
  Proof. intros H1 H2. apply good_mk; [apply goodc_list, H1|exact H2]. Qed.
  Lemma good_change o l r : (match l with inl b => In b bs | inr e => good e end) -> (match r with inl b => In b bs | inr e => good e end) -> good (mk_change offset o l r).
  Proof.
    intros Hl Hr. assert (G : good (Change o l r)).
    { split; [apply wf_change; intros x [->| ->]; [apply Hl|apply Hr]|]. apply over_change. split; [destruct l|destruct r]; try assumption; [apply Hl|apply Hr]. }
    destruct G as [W O]. split; [apply simplify_wf, W|apply over_simplify; assumption].
  Qed.
  Lemma goodc_cpos c : goodc c -> goodc (cpos c).
  Proof. intros [W H]. rewrite wf_cpos by exact W. split; assumption. Qed.
  Lemma goodc_cadd c d : goodc c -> nodup d -> (forall b, 0 < cget d b -> In b bs) -> goodc (cadd (cpos c) d).
  Proof.
    intros [W H] N Hd. pose proof (wf_nodup _ W) as Nc. split; [apply cadd_wf; [apply cpos_nodup, Nc|exact N]|].
    intros b Hb. rewrite cget_cadd, cget_cpos in Hb by auto using cpos_nodup.
    destruct (Z.lt_ge_cases 0 (cget d b)) as [L|L]; [auto|]. apply H. lia.
  Qed.
  Lemma goodc_csub c l : goodc c -> goodc (csub (cpos c) (counter_of l)).
  Proof.
    intros [W H]. pose proof (wf_nodup _ W) as Nc. pose proof (counter_of_wf l) as Wl. split; [apply csub_wf; [apply cpos_nodup, Nc|apply wf_nodup, Wl]|].
    intros b Hb. rewrite cget_csub, cget_cpos in Hb; auto using cpos_nodup, wf_nodup; [|intros y; apply wf_nonneg, Wl].
    pose proof (wf_nonneg _ b Wl). apply H. lia.
  Qed.
  Lemma all_app (P : kex -> Prop) a b : (forall x, In x a -> P x) -> (forall x, In x b -> P x) -> forall x, In x (a ++ b) -> P x.
  Proof. intros Ha Hb x Hx. apply in_app_iff in Hx as [Hx|Hx]; auto. Qed.
  Lemma all_one (P : kex -> Prop) a : P a -> forall x, In x [a] -> P x.
  Proof. intros Ha x [<-|[]]; assumption. Qed.
  Lemma all_two (P : kex -> Prop) a b : P a -> P b -> forall x, In x [a; b] -> P x.
  Proof. intros Ha Hb x [<-|[<-|[]]]; assumption. Qed.
  Lemma all_cons (P : kex -> Prop) a l : P a -> (forall x, In x l -> P x) -> forall x, In x (a :: l) -> P x.
  Proof. intros Ha Hb x [<-|Hx]; auto. Qed.
  Lemma all_map {A} (P : kex -> Prop) (f : A -> kex) l : (forall x, In x l -> P (f x)) -> forall x, In x (map f l) -> P x.
  Proof. intros H x Hx. apply in_map_iff in Hx as (y & <- & Hy). auto. Qed.
  Lemma none_all (P : kex -> Prop) : forall x, In x [] -> P x.
  Proof. intros x []. Qed.
  Lemma one_base b : In b bs -> forall x, In x [b] -> In x bs.
  Proof. intros H x [<-|[]]. exact H. Qed.
  Lemma two_bases b c : In b bs -> In c bs -> forall x, In x [b; c] -> In x bs.
  Proof. intros H H' x [<-|[<-|[]]]; assumption. Qed.

  Lemma plus_good k b c B : good (Comm k b c) -> In B bs -> good (mk offset k (cadd (cpos b) (counter_of [B])) c).
  Proof.
    intros G HB. apply good_comm in G as [Gb Gc]. apply good_mk; [|exact Gc]. apply goodc_cadd; [exact Gb|apply counter_of_nodup|].
    apply goodc_list, one_base, HB.
  Qed.
  Lemma nested_good k k' b c B : good (Comm k b c) -> In B bs ->
    forall m, In m (map (fun bt => mk offset k (csub (cpos b) (counter_of [bt])) (c ++ [mkl offset k' [B; bt] []])) (celements b)) -> good m.
  Proof.
    intros G HB. apply good_comm in G as [Gb Gc]. apply all_map. intros x Hx. apply good_mk; [apply goodc_csub, Gb|].
    apply all_app; [exact Gc|]. apply all_one, good_mkl; [|apply none_all]. apply two_bases; [exact HB|].
    apply Gb. apply in_celements in Hx; [exact Hx|apply wf_nodup, Gb].
  Qed.
  Lemma add_nested_good S B : good S -> In B bs -> forall m, In m (add_nested offset (inr S) (inl B)) -> good m.
  Proof.
    intros G HB. destruct S as [[|] b c|o l r]; cbn [add_nested add].
    - apply all_one, plus_good; assumption.
    - apply all_cons; [apply good_mkl; [apply one_base, HB|apply all_one, G]|apply nested_good; assumption].
    - apply all_one, good_mkl; [apply one_base, HB|apply all_one, G].
  Qed.
  Lemma multiply_nested_good S B : good S -> In B bs -> forall m, In m (multiply_nested offset (inr S) (inl B)) -> good m.
  Proof.
    intros G HB. destruct S as [[|] b c|o l r]; cbn [multiply_nested multiply].
    - apply all_cons; [apply good_mkl; [apply one_base, HB|apply all_one, G]|apply nested_good; assumption].
    - apply all_one, plus_good; assumption.
    - apply all_one, good_mkl; [apply one_base, HB|apply all_one, G].
  Qed.
  Lemma multiply_expr_good S x : good S -> good x -> forall m, In m (multiply_nested offset (inr S) (inr x)) -> good m.
  Proof.
    intros G Gx. assert (E : forall y, multiply_nested offset (inr y) (inr x) = [multiply offset (inr y) (inr x)]) by (intros [[|] ? ?|? ? ?]; reflexivity).
    rewrite E. apply all_one. destruct S as [[|] b c|o l r], x as [[|] b3 c3|o3 l3 r3]; cbn [multiply];
      try (apply good_mkl; [intros ? []|apply all_two; assumption]);
      try (pose proof (proj1 (good_comm _ _ _) G) as [G1 G2]); try (pose proof (proj1 (good_comm _ _ _) Gx) as [G3 G4]);
      try (apply good_mk; [apply goodc_cpos; assumption|apply all_app; [assumption|apply all_one; assumption]]).
    apply good_mk; [|apply all_app; assumption]. apply goodc_cadd; [exact G1|apply wf_nodup, G3|apply G3].
  Qed.
  Lemma swap_counter_get x B b : 0 < cget (swap_counter x B) b -> b = B.
  Proof.
    unfold swap_counter. intros H. rewrite cget_cset in H. destruct (base_eqb B b) eqn:E; [symmetry; apply base_eqb_spec, E|].
    exfalso. rewrite cget_cset in H. destruct (base_eqb x b); cbn in H; lia.
  Qed.
  Lemma swap_base_good S B : good S -> In B bs -> forall m, In m (swap_base offset S B) -> good m.
  Proof.
    intros G HB. destruct S as [k b c|o l r]; cbn [swap_base].
    - apply good_comm in G as [Gb Gc]. apply all_map. unfold swap_args. intros d Hd. apply in_map_iff in Hd as (x & <- & _).
      apply good_mk; [|exact Gc]. apply goodc_cadd; [exact Gb|apply swap_counter_nodup|]. intros y Hy. apply swap_counter_get in Hy as ->. exact HB.
    - destruct G as [W O]. apply over_change in O as [Ol Or]. rewrite wf_change in W.
      assert (Gl : match l with inl b => In b bs | inr e => good e end) by (destruct l; [exact Ol|split; [apply W; auto|exact Ol]]).
      assert (Gr : match r with inl b => In b bs | inr e => good e end) by (destruct r; [exact Or|split; [apply W; auto|exact Or]]).
      apply all_app; [destruct l as [b|]|destruct r as [b|]]; try apply none_all; destruct (base_eqb b B); try apply none_all; apply all_one, good_change; assumption.
  Qed.
  Lemma one_change_good S o b : good S -> In b bs -> forall m, In m (one_change offset (inr S) o (Some (inl b))) -> good m.
  Proof. intros G Hb. cbn [one_change branch_eqb]. apply all_two; apply good_change; assumption. Qed.
  Lemma both_changes_good S s : good S -> match s with Some (inl b) => In b bs | Some (inr _) => False | None => True end ->
    forall m, In m (both_changes offset (inr S) s) -> good m.
  Proof.
    intros G Hs. unfold both_changes. cbn [map concat]. destruct s as [[b|]|]; [|contradiction|]; cbn [branch_eqb app];
      repeat (apply all_cons; [apply good_change; assumption|]); apply none_all.
  Qed.
  Lemma remove_good S : good S -> forall m, In m (remove_a_term offset S) -> good m.
  Proof.
    intros G. destruct S as [k b c|o l r]; cbn [remove_a_term].
    - apply good_comm in G as [Gb Gc]. unfold remove_args. destruct (1 <? _); [|apply none_all]. apply all_map. intros [d e] Hd. cbn [fst snd].
      apply in_app_iff in Hd as [Hd|Hd]; apply in_map_iff in Hd as (x & [= <- <-] & Hx).
      + apply good_mk; [|exact Gc]. apply goodc_cadd; [exact Gb|apply nodup_single|]. intros y Hy. exfalso. unfold cget in Hy. cbn in Hy. destruct (base_eqb x y); cbn in Hy; lia.
      + apply good_mk; [apply goodc_cpos, Gb|]. intros y Hy. apply Gc. unfold drop_nth in Hy. apply in_app_iff in Hy as [Hy|Hy].
        * rewrite <- (firstn_skipn x c). apply in_app_iff. auto.
        * rewrite <- (firstn_skipn (S x) c). apply in_app_iff. auto.
    - destruct G as [W O]. apply over_change in O as [Ol Or]. rewrite wf_change in W. apply all_map. intros [b|e] Hx.
      + apply good_mkl; [|apply none_all]. apply one_base. destruct Hx as [->|[->|[]]]; assumption.
      + destruct Hx as [->|[->|[]]]; (split; [apply W; auto|assumption]).
  Qed.
  Lemma del_se_good m : good m -> good (del_se m).
  Proof.
    destruct m as [k b c|]; [|auto]. intros G. apply good_comm in G as [[W H] Gc]. cbn [del_se]. apply good_comm. split; [|exact Gc].
    split; [apply dict_del_wf, W|]. intros x Hx. rewrite cget_del in Hx by (apply wf_nodup, W). destruct (base_eqb x bSE); [lia|auto].
  Qed.
  Lemma all_del (l : list kex) : (forall x, In x l -> good x) -> forall x, In x (map del_se l) -> good x.
  Proof. intros H. apply all_map. intros x Hx. apply del_se_good; auto. Qed.
  Context (HL : In bLIN bs) (HP : In bPER bs) (HC : In bC bs).
  Lemma higher_good x : In x (higher_kers offset) -> good x.
  Proof. intros [<-|[<-|[]]]; (apply good_mkl; [intros y Hy; repeat destruct Hy as [<-|Hy]; auto; destruct Hy|apply none_all]). Qed.
  Lemma higher_curves_good S : good S -> forall m, In m (higher_curves offset S) -> good m.
  Proof.
    intros G. destruct S as [[|] b c|o l r]; cbn [higher_curves].
    - apply good_comm in G as [Gb Gc].
      assert (A : forall m, In m (map (fun ct => mk offset KSum (cpos b) (c ++ [ct])) (higher_kers offset)) -> good m).
      { apply all_map. intros x Hx. apply good_mk; [apply goodc_cpos, Gb|apply all_app; [exact Gc|apply all_one, higher_good, Hx]]. }
      destruct (chas (cpos b) bSE); [apply all_del|]; exact A.
    - apply good_comm in G as [Gb Gc]. set (ds := [[(bLIN, 2)]; [(bLIN, 3)]; (if chas (cpos b) bPER then [(bPER, 1)] else [(bPER, 2)])]).
      assert (A : forall m, In m (map (fun d => mk offset KProd (cadd (cpos b) d) c) ds) -> good m).
      { apply all_map. intros d Hd. assert (K : exists x n, d = [(x, n)] /\ In x bs).
        { destruct Hd as [<-|[<-|[<-|[]]]]; [eauto|eauto|]. destruct (chas (cpos b) bPER); eauto. }
        destruct K as (x & n & -> & Hx). apply good_mk; [|exact Gc]. apply goodc_cadd; [exact Gb|apply nodup_single|].
        intros y Hy. unfold cget in Hy. cbn in Hy. destruct (base_eqb x y) eqn:E; [apply base_eqb_spec in E as <-; exact Hx|cbn in Hy; lia]. }
      destruct (chas (cpos b) bSE); [apply all_del|]; exact A.
    - destruct G as [W O]. apply over_change in O as [Ol Or]. rewrite wf_change in W.
      assert (Gl : match l with inl b => In b bs | inr e => good e end) by (destruct l; [exact Ol|split; [apply W; auto|exact Ol]]).
      assert (Gr : match r with inl b => In b bs | inr e => good e end) by (destruct r; [exact Or|split; [apply W; auto|exact Or]]).
      apply all_app; [destruct l as [b|]|destruct r as [b|]]; try apply none_all; apply all_map; intros x Hx; apply good_change; try assumption; apply higher_good, Hx.
  Qed.

  Lemma produced_good G bases noC n m : In G (groups offset) -> (forall b, In b bases \/ In b noC -> In b bs) -> good n -> produced (G bases noC) n m -> good m.
  Proof.
    intros HG Hb Gn (r & g & Hr & Hg & Hm). apply (groups_incl offset G bases noC r HG) in Hr. cbn [rules_all In] in Hr.
    repeat (destruct Hr as [<-|Hr]); [..|destruct Hr];
      try (apply in_map_iff in Hg as (B & <- & HB); assert (HB' : In B bs) by (apply Hb; auto)); try (destruct Hg as [<-|[]]).
    - exact (add_nested_good n B Gn HB' m Hm).
    - exact (multiply_nested_good n B Gn HB' m Hm).
    - exact (swap_base_good n B Gn HB' m Hm).
    - exact (both_changes_good n (Some (inl B)) Gn HB' m Hm).
    - exact (both_changes_good n None Gn Logic.I m Hm).
    - exact (one_change_good n _ _ Gn HL m Hm).
    - exact (one_change_good n _ _ Gn HC m Hm).
    - exact (one_change_good n _ _ Gn HL m Hm).
    - refine (multiply_expr_good n _ Gn _ m Hm). apply good_mkl; [apply two_bases; assumption|apply none_all].
    - cbn [replace_node] in Hm. destruct Hm as [<-|[]]. apply good_mkl; [apply one_base, HB'|apply none_all].
    - exact (remove_good n Gn m Hm).
    - exact (higher_curves_good n Gn m Hm).
  Qed.
  Lemma all2_right {A B} (P : A -> B -> Prop) l m : Forall2 P l m -> forall y, In y m -> exists x, In x l /\ P x y.
  Proof. induction 1 as [|x y l m H _ IH]; [intros ? []|]. intros z [<-|Hz]; [exists x; cbn; auto|]. destruct (IH z Hz) as (w & Hw & Pw). exists w. cbn; auto. Qed.
  Lemma over_reord a : forall b, reord a b -> over bs a -> over bs b.
  Proof.
    induction a as [k bts cts IH|o l r IHl IHr] using kex_ind'; intros b R O.
    - apply reord_comm_inv in R as (b' & c' & c'' & -> & E & P & F). apply over_comm in O as [O1 O2]. apply over_comm. split.
      + intros x Hx. apply O1. rewrite E. exact Hx.
      + intros x Hx. destruct (all2_right _ _ _ F x) as (y & Hy & Ry); [eapply Permutation_in; [exact P|exact Hx]|].
        apply (IH y Hy x Ry), O2, Hy.
    - apply reord_change_inv in R as (l' & r' & -> & Rl & Rr). apply over_change in O as [O1 O2]. apply over_change.
      apply reord_branch_inv in Rl, Rr. split.
      + destruct l as [|y], l' as [|y']; try contradiction; [subst; exact O1|]. exact (IHl y eq_refl y' Rl O1).
      + destruct r as [|y], r' as [|y']; try contradiction; [subst; exact O2|]. exact (IHr y eq_refl y' Rr O2).
  Qed.
  Lemma over_child e i x : over bs e -> child e i = Some x -> over bs x.
  Proof.
    intros O H. destruct e as [k b c|o l r]; cbn [child] in H.
    - apply over_comm in O as [_ O]. apply O. eapply nth_error_In, H.
    - apply over_change in O as [Ol Or].
      assert (K : forall y : branch, over_branch y -> over bs (match y with inl b => Comm KSum [(b, 1)] [] | inr e => e end)).
      { intros [b|e] Hy; [|exact Hy]. apply over_comm. split; [|intros ? []]. intros z Hz. unfold cget in Hz. cbn in Hz. destruct (base_eqb b z) eqn:E; [apply base_eqb_spec in E as <-; exact Hy|cbn in Hz; lia]. }
      destruct i as [|[|i]]; [specialize (K l Ol)|specialize (K r Or)|discriminate H]; [destruct l|destruct r]; injection H as <-; exact K.
  Qed.
  Lemma over_at e p n : over bs e -> at_addr e p = Some n -> over bs n.
  Proof.
    revert e. induction p as [|i q IH]; intros e O H; cbn [at_addr] in H; [injection H as <-; exact O|].
    destruct (child e i) as [x|] eqn:E; [|discriminate]. exact (IH x (over_child e i x O E) H).
  Qed.
  Lemma over_replace p : forall e m t, over bs e -> over bs m -> replace_addr e p m = Some t -> over bs t.
  Proof.
    induction p as [|i q IH]; intros e m t O Om H; cbn [replace_addr] in H; [injection H as <-; exact Om|].
    destruct (child e i) as [x|] eqn:E; [|discriminate]. destruct (replace_addr x q m) as [y|] eqn:Ey; [|discriminate].
    assert (Oy : over bs y) by exact (IH x m y (over_child e i x O E) Om Ey).
    destruct e as [k b c|o l r].
    - injection H as <-. apply over_comm in O as [Ob Oc]. apply over_comm. split; [exact Ob|].
      intros z Hz. apply in_app_iff in Hz as [Hz|[<-|Hz]]; [|exact Oy|]; apply Oc.
      + rewrite <- (firstn_skipn i c). apply in_app_iff. auto.
      + rewrite <- (firstn_skipn (S i) c). apply in_app_iff. auto.
    - apply over_change in O as [Ol Or]. destruct i; injection H as <-; apply over_change; auto.
  Qed.
  Lemma over_standardise e : wf e -> over bs e -> over bs (standardise offset e).
  Proof.
    remember (size e) as n eqn:En. revert e En. induction n as [n IH] using lt_wf_ind. intros e En W O.
    pose proof (simplify_size offset e) as Hs. pose proof (simplify_wf offset e W) as Ws. pose proof (over_simplify e W O) as Os. rewrite (standardise_unfold offset e W).
    destruct (simplify offset e) as [k bts cts|o l r] eqn:E; [|exact Os]. pose proof Ws as Ws0. apply wf_comm in Ws as [Wb Wc].
    pose proof (extract_spec k bts cts Wb) as X. destruct (extract (Comm k bts cts)) as [b|x] eqn:Ex.
    - destruct X as [(b' & -> & -> & [= <-])|[(y & _ & _ & X)|(_ & X)]]; try discriminate. apply over_comm in Os as [Os _].
      apply (good_mkl KSum [b] []); [apply one_base, Os; unfold cget; cbn; rewrite base_eqb_refl; lia|apply none_all].
    - destruct (is_singleton bts cts) eqn:S; [|exact Os]. pose proof (extract_single k bts cts x Wb Ex S) as ->.
      apply over_comm in Os as [_ Os]. eapply IH; [|reflexivity|apply Wc; left; auto|apply Os; left; auto].
      rewrite size_comm in Hs. unfold sizes in Hs; simpl in Hs. lia.
  Qed.
  Lemma expand_over G bases noC e x : In G (groups offset) -> (forall b, In b bases \/ In b noC -> In b bs) -> wf e -> over bs e ->
    In x (expand offset (G bases noC) e) -> over bs x.
  Proof.
    intros HG Hb W O Hx. destruct (expand_sound offset (G bases noC) e W (groups_wf offset G bases noC HG) x Hx) as (p & n & new & t & Ha & Hp & Wn & Ht & Wt & Rx & _).
    apply (over_reord _ _ (reord_sym _ _ Rx)). apply over_standardise; [exact Wt|]. eapply over_replace; [exact O| |exact Ht].
    apply (produced_good G bases noC n new HG Hb); [|exact Hp]. split; [exact (at_addr_wf _ _ _ W Ha)|exact (over_at _ _ _ O Ha)].
  Qed.
  Lemma reached_over G bases noC e x : In G (groups offset) -> (forall b, In b bases \/ In b noC -> In b bs) -> wf e -> over bs e ->
    reaches offset (G bases noC) e x -> over bs x.
  Proof.
    intros HG Hb W O H. cut (wf x /\ over bs x); [tauto|]. induction H as [|x y _ [IHw IHo] Hy]; [auto|].
    split; [|eapply expand_over; eauto]. destruct (expand_sound offset _ x IHw (groups_wf offset G bases noC HG) y Hy) as (? & ? & ? & ? & _ & _ & _ & _ & _ & _ & Wy). exact Wy.
  Qed.
End Over.

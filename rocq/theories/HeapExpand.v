(** Lemmas for C19: applying the production rules at a node. *)
From Coq Require Import List Bool Arith ZArith NArith Lia Permutation.
From Verif Require Import Py UtilModel KexModel KexSpec KexProofs KexSimp OpsModel HeapModel HeapSpec HeapBase HeapSimp HeapSimp2 HeapNew HeapOps HeapOps2 HeapRepl HeapMix HeapSpoil HeapTree.
Import ListNotations.

Lemma expression_frame h h' i e ids : expression h i e ids -> (next h <= next h')%N -> (forall j, In j ids -> obj h' j = obj h j) -> expression h' i e ids.
Proof.
  intros (T & (P & L & R) & A) N O. split; [eapply tree_frame; [exact T|]; intros j Hj; rewrite O by exact Hj; reflexivity|]. split; [|intros j Hj; specialize (A j Hj); lia].
  split; [rewrite O by (eapply tree_top; exact T); exact P|]. split; [eapply linked_frame; eassumption|]. intros n Hn. rewrite O by exact Hn. apply R, Hn.
Qed.
Lemma expression_ext h h' i e ids : ext h h' -> expression h i e ids -> expression h' i e ids.
Proof. intros X E. pose proof E as (_ & _ & A). eapply expression_frame; [exact E|apply X|]. intros j Hj. apply X, A, Hj. Qed.
Lemma planted_ext h h' lo e r er ids : ext h h' -> planted h lo e r er ids -> planted h' lo e r er ids.
Proof.
  intros X (t & E & Lo & Ro & rids & T & I). pose proof E as (_ & _ & A). exists t. split; [eapply expression_ext; eassumption|]. split; [exact Lo|].
  assert (Hr : In r rids) by (eapply tree_top; exact T). split; [rewrite (proj2 X r) by (apply A, I, Hr); exact Ro|]. exists rids. split; [|exact I]. eapply tree_ext; [exact X|intros j Hj; apply A, I, Hj|exact T].
Qed.
Lemma planted_mono h lo lo' e r er ids : (lo' <= lo)%N -> planted h lo e r er ids -> planted h lo' e r er ids.
Proof. intros L (t & E & Lo & R). exists t. split; [exact E|]. split; [intros j Hj; specialize (Lo j Hj); lia|exact R]. Qed.
Lemma apart_all {A B} (P : A -> B -> list ref -> Prop) (Q : ref -> Prop) xs ys ids : apart P xs ys ids -> (forall x y js, P x y js -> forall j, In j js -> Q j) -> forall j, In j ids -> Q j.
Proof. intros H I. induction H as [|x y ids xs ys jds H1 H2 IH D]; intros j Hj; [destruct Hj|]. apply in_app_iff in Hj as [Hj|Hj]; [eapply I; eassumption|auto]. Qed.

Section Crop.
  Context (offset : bool).
  Lemma muddied_ext h h' lo e r er ids : ext h h' -> muddied offset h lo e r er ids -> muddied offset h' lo e r er ids.
  Proof.
    intros X (t & own & sh & -> & M & Lo & R & T). assert (O : forall j, In j (own ++ sh) -> obj h' j = obj h j) by (intros j Hj; apply X, Lo, Hj). exists t, own, sh. split; [reflexivity|]. split; [|split; [|split]].
    - eapply mx_frame; [exact M|]. intros j Hj. rewrite O by (apply in_app_iff; exact Hj). reflexivity.
    - intros j Hj. destruct (Lo j Hj), X. lia.
    - rewrite O by (apply in_app_iff; right; eapply tree_top; exact T). exact R.
    - eapply tree_frame; [exact T|]. intros j Hj. rewrite O by (apply in_app_iff; auto). reflexivity.
  Qed.
  Lemma muddied_mono h lo lo' e r er ids : (lo' <= lo)%N -> muddied offset h lo e r er ids -> muddied offset h lo' e r er ids.
  Proof. intros L (t & own & sh & E & M & Lo & R). exists t, own, sh. split; [exact E|]. split; [exact M|]. split; [intros j Hj; specialize (Lo j Hj); lia|exact R]. Qed.

  (** [crop g h m f ers]: the call returns nodes of new, separate expressions; the nodes have the trees [ers], the expressions are their images by
      [f].  In those for trees of [g] a part may be shared. *)
  Definition plants (g : kex -> Prop) (h : heap) (lo : N) (f : kex -> kex) (r : ref) (er : kex) (ids : list ref) : Prop :=
    planted h lo (f er) r er ids \/ (g er /\ muddied offset h lo (f er) r er ids).
  Lemma plants_ext g h h' lo f r er ids : ext h h' -> plants g h lo f r er ids -> plants g h' lo f r er ids.
  Proof. intros X [P|[G M]]; [left; eapply planted_ext; eassumption|right; split; [exact G|eapply muddied_ext; eassumption]]. Qed.
  Lemma plants_mono g h lo lo' f r er ids : (lo' <= lo)%N -> plants g h lo f r er ids -> plants g h lo' f r er ids.
  Proof. intros L [P|[G M]]; [left; eapply planted_mono; eassumption|right; split; [exact G|eapply muddied_mono; eassumption]]. Qed.
  Lemma plants_range g h lo f r er ids j : plants g h lo f r er ids -> In j ids -> (lo <= j)%N /\ (j < next h)%N.
  Proof. intros [(t & (_ & _ & A) & Lo & _)|[_ (t & own & sh & _ & _ & Lo & _)]] Hj; [split; [apply Lo, Hj|apply A, Hj]|apply Lo, Hj]. Qed.
  Lemma plants_tree g h lo f r er ids : plants g h lo f r er ids -> some_tree h r er.
  Proof. intros [(t & _ & _ & _ & rids & T & _)|[_ (t & own & sh & _ & _ & _ & _ & T)]]; eexists; exact T. Qed.
  Definition crop (g : kex -> Prop) (h : heap) (m : nat -> HM (list ref)) (f : kex -> kex) (ers : list kex) : Prop :=
    exists rs h' F, evaluates m h rs h' /\ ext h h' /\ apart (plants g h' (next h) f) rs ers F.
  Definition crops (g : kex -> Prop) (h : heap) (m : nat -> HM (list (list ref))) (f : kex -> kex) (erss : list (list kex)) : Prop :=
    exists rss h' F, evaluates m h rss h' /\ ext h h' /\ apart (plants g h' (next h) f) (concat rss) (concat erss) F.
  Lemma join g h h1 h2 f rs ers F rs2 ers2 F2 : ext h h1 -> ext h1 h2 -> apart (plants g h1 (next h) f) rs ers F -> apart (plants g h2 (next h1) f) rs2 ers2 F2 ->
    apart (plants g h2 (next h) f) (rs ++ rs2) (ers ++ ers2) (F ++ F2).
  Proof.
    intros X1 X2 A1 A2. apply apart_app.
    - eapply apart_impl; [exact A1|]. intros x y js _ _ _. apply plants_ext, X2.
    - eapply apart_impl; [exact A2|]. intros x y js _ _ _. apply plants_mono, X1.
    - assert (Q1 : forall j, In j F -> (j < next h1)%N). { eapply apart_all; [exact A1|]. intros x y js P j Hj. eapply plants_range; eassumption. }
      assert (Q2 : forall j, In j F2 -> (next h1 <= j)%N). { eapply apart_all; [exact A2|]. intros x y js P j Hj. eapply plants_range; eassumption. }
      intros j Hj K. specialize (Q1 j Hj). specialize (Q2 j K). lia.
  Qed.
  Lemma crops_map {X} g h (m : nat -> X -> HM (list ref)) f q l : (forall x h1, In x l -> ext h h1 -> crop g h1 (fun n => m n x) f (q x)) -> crops g h (fun n => hmap (m n) l) f (map q l).
  Proof.
    intros H. assert (Q : forall h1, ext h h1 -> crops g h1 (fun n => hmap (m n) l) f (map q l)). 2:{ apply Q, ext_refl. }
    induction l as [|x l IH]; intros h1 X1; [exists [], h1, []; split; [apply ev_nil|]; split; [apply ext_refl|constructor]|].
    destruct (H x h1 (or_introl eq_refl) X1) as (rs & h2 & F & E2 & X2 & A2). destruct (IH (fun y g0 Hy => H y g0 (or_intror Hy)) h2 (ext_trans _ _ _ X1 X2)) as (rss & h3 & F3 & E3 & X3 & A3).
    exists (rs :: rss), h3, (F ++ F3). split; [eapply ev_cons; eassumption|]. split; [eapply ext_trans; eassumption|]. cbn [map concat]. eapply join; eassumption.
  Qed.
  Lemma crops_one g h m f ers : crop g h m f ers -> crops g h (fun n => let* l := m n in hret [l]) f [ers].
  Proof. intros (rs & h' & F & E & X & A). exists [rs], h', F. split; [eapply ev_bind; [exact E|apply ev_ret]|]. split; [exact X|]. cbn [concat]. rewrite !app_nil_r. exact A. Qed.
  Lemma crop_after g h m e k f ers : makes h m e -> (forall s h1, built h h1 s e -> crop g h1 (fun n => k n s) f ers) -> crop g h (fun n => hbind (m n) (k n)) f ers.
  Proof.
    intros (s & h1 & E1 & B1) H. destruct (H s h1 B1) as (rs & h2 & F & E2 & X2 & A2). pose proof B1 as (X1 & _). exists rs, h2, F. split; [eapply ev_bind; eassumption|].
    split; [eapply ext_trans; eassumption|]. eapply apart_impl; [exact A2|]. intros x y js _ _ _. apply plants_mono, X1.
  Qed.
End Crop.

(** ** unique *)
Lemma unique_apart (P : ref -> kex -> list ref -> Prop) rs ers F : apart P rs ers F -> forall seen,
  exists F', apart P (map fst (unique_aux (fun a b : ref * kex => keq (snd a) (snd b)) seen (combine rs ers))) (unique_aux keq (map snd seen) ers) F' /\ incl F' F.
Proof.
  induction 1 as [|r er ids rs ers jds H1 H2 IH D]; intros seen; cbn [combine unique_aux map]; [exists []; split; [constructor|apply incl_refl]|].
  assert (Ex : existsb (fun s : ref * kex => keq (snd s) er) seen = existsb (fun s => keq s er) (map snd seen)) by (induction seen as [|z seen IHs]; cbn; [reflexivity|rewrite IHs; reflexivity]).
  cbn [snd]. rewrite Ex. destruct (existsb _ (map snd seen)).
  - destruct (IH seen) as (F' & A & I). exists F'. split; [exact A|]. intros j Hj. apply in_app_iff. right. apply I, Hj.
  - destruct (IH (seen ++ [(r, er)])) as (F' & A & I). rewrite map_app in A. cbn [map snd] in A. exists (ids ++ F'). split; [cbn [map fst]; constructor; [exact H1|exact A|intros j Hj K; exact (D j Hj (I j K))]|].
    intros j Hj. apply in_app_iff. apply in_app_iff in Hj as [Hj|Hj]; auto.
Qed.
Lemma ev_unique h (P : ref -> kex -> list ref -> Prop) rs ers F : (forall r er ids, P r er ids -> some_tree h r er) -> apart P rs ers F ->
  exists rs' F', evaluates (fun n => unique_refs n rs) h rs' h /\ apart P rs' (unique keq ers) F' /\ incl F' F.
Proof.
  intros S A. destruct (unique_apart P rs ers F A []) as (F' & A' & I). exists (map fst (unique (fun a b : ref * kex => keq (snd a) (snd b)) (combine rs ers))), F'. split; [|split; [exact A'|exact I]].
  unfold unique_refs. eapply ev_bind; [|apply ev_ret]. clear -S A. induction A as [|r er ids rs ers jds H1 H2 IH D]; [apply (ev_nil read)|].
  destruct (S _ _ _ H1) as (js & T). eapply (ev_cons read); [eapply ev_read; exact T|exact IH].
Qed.

Section Rules.
  Context (offset : bool) (bases noC : list base) (Rm : Prop).
  (** [s] stands for a place of the expression [i]. *)
  Definition site (h : heap) (i : ref) (e : kex) (ids : list ref) (s : ref) (en : kex) (f : kex -> kex) (cl : bool) (sids : list ref) : Prop :=
    expression h i e ids /\ placed offset h i e s en f cl /\ good_branch h (inr s) (inr en) sids.
  Lemma site_ext h h' i e ids s en f cl sids : ext h h' -> site h i e ids s en f cl sids -> site h' i e ids s en f cl sids.
  Proof.
    intros X (E & P & G). split; [eapply expression_ext; eassumption|]. split; [|eapply good_branch_ext; eassumption].
    destruct P as [P|(Ns & p & Sp & Pa & Ro)]; [left; exact P|right]. split; [exact Ns|]. exists p. pose proof E as (T & _ & A).
    assert (Os : obj h' s = obj h s) by (apply X; destruct G as (B & Al & _); apply Al; eapply branch_child; [exact B|reflexivity]). rewrite Os. split; [|auto].
    eapply spot_frame; [exact T|exact Sp|]. intros j Hj. f_equal. apply X, A, Hj.
  Qed.
  (** The trees for which a part may be shared: the branches of a Change *)
  Definition branch_of (en er : kex) : Prop := exists o l r, en = Change o l r /\ (l = inr er \/ r = inr er).
  Definition unclean (en : kex) (cl : bool) (er : kex) : Prop := Rm /\ cl = false /\ branch_of en er.
  (** What new_tree_with_self_replaced may be given *)
  Definition fit (h h' : heap) (ids : list ref) (s : ref) (en : kex) (cl : bool) (sids : list ref) (r : ref) (er : kex) : Prop :=
    (exists inn, offered h h' inn r er /\ forall j, In j inn -> ~ In j ids \/ (is_change en = true /\ cl = true /\ In j sids))
    \/ (Rm /\ cl = false /\ branch_ref h' s r en er /\ normal offset er /\ ~ singleton er).
  Lemma ev_deep_fit h i e ids s en f cl sids op ers rs h1 : site h i e ids s en f cl sids -> evaluates op h rs h1 -> ext h h1 -> Forall2 (fit h h1 ids s en cl sids) rs ers ->
    crop offset (unclean en cl) h (fun n => deep_apply n (op n) s) f ers.
  Proof.
    intros S E1 X1 Q. unfold deep_apply.
    assert (Z : forall g, ext h1 g -> exists rs' g' F, evaluates (fun n => hmap (new_tree_with_self_replaced n s) rs) g rs' g' /\ ext g g' /\ apart (plants offset (unclean en cl) g' (next g) f) rs' ers F).
    { clear E1. induction Q as [|r er rs ers Hr Q IH]; intros g X; [exists [], g, []; split; [apply (ev_nil (fun n => new_tree_with_self_replaced n s))|]; split; [apply ext_refl|constructor]|].
      pose proof (site_ext _ _ _ _ _ _ _ _ _ _ (ext_trans _ _ _ X1 X) S) as (Eg & Pg & Gg). pose proof (good_tree _ _ _ _ Gg) as Ts.
      assert (N1 : exists g1 ids1, evaluates (fun n => new_tree_with_self_replaced n s r) g (next g + r)%N g1 /\ ext g g1 /\ plants offset (unclean en cl) g1 (next g) f (next g + r)%N er ids1).
      { destruct Hr as [(inn & Of & Hi)|(HR & -> & Br & Ne & Se)].
        - destruct (offered_ext _ _ _ _ _ _ X Of) as (rids & Tr & Ar & Lr & Rr).
          destruct (ev_new_tree offset g i e ids s sids en f cl r er rids Eg Pg Ts Tr Ar Lr) as (g1 & ids1 & E2 & X2 & P2).
          { intros j Hj. destruct (Rr j Hj) as [K|K]; [left|apply Hi, K]. intros J. destruct S as ((_ & _ & A) & _). specialize (A j J). lia. }
          exists g1, ids1. split; [exact E2|]. split; [exact X2|]. left. exact P2.
        - assert (Bg : branch_ref g s r en er).
          { destruct Br as (o & l & rr & l' & r' & D & B). exists o, l, rr, l', r'. split; [|exact B]. rewrite (proj2 X); [exact D|].
            pose proof (site_ext _ _ _ _ _ _ _ _ _ _ X1 S) as (_ & _ & (_ & A & _)). apply A. eapply tree_top; exact Ts. }
          destruct (ev_spoilt_tree offset g i e ids s sids en f r er Eg Pg Ts Bg Ne Se) as (g1 & ids1 & E2 & X2 & P2). exists g1, ids1. split; [exact E2|]. split; [exact X2|]. right.
          split; [split; [exact HR|split; [reflexivity|]]|exact P2]. destruct Br as (o & l & rr & l' & r' & _ & E & B). exists o, l', r'. split; [exact E|]. destruct B as [[_ B]|[_ B]]; auto. }
      destruct N1 as (g1 & ids1 & E2 & X2 & P2). destruct (IH g1 (ext_trans _ _ _ X X2)) as (rs' & g2 & F & E3 & X3 & A3). exists ((next g + r)%N :: rs'), g2, (ids1 ++ F).
      split; [eapply (ev_cons (fun n => new_tree_with_self_replaced n s)); eassumption|]. split; [eapply ext_trans; eassumption|].
      apply (join offset (unclean en cl) g g1 g2 f [(next g + r)%N] [er] ids1 rs' ers F); auto. apply apart_one. exact P2. }
    destruct (Z h1 (ext_refl h1)) as (rs' & h2 & F & E2 & X2 & A2). exists rs', h2, F. split; [eapply ev_bind; [exact E1|exact E2]|]. split; [eapply ext_trans; eassumption|].
    eapply apart_impl; [exact A2|]. intros x y js _ _ _. apply plants_mono, X1.
  Qed.
  Lemma ev_deep_apply h i e ids s en f cl sids op inn ers : site h i e ids s en f cl sids -> yields h op inn ers ->
    (forall j, In j inn -> ~ In j ids \/ (is_change en = true /\ cl = true /\ In j sids)) ->
    crop offset (unclean en cl) h (fun n => deep_apply n (op n) s) f ers.
  Proof.
    intros S (rs & h1 & E1 & X1 & Q) Hi. eapply ev_deep_fit; [exact S|exact E1|exact X1|]. eapply F2_impl; [|exact Q]. intros r er Of. left. exists inn. auto.
  Qed.
  Lemma deep_plain h i e ids s en f cl sids op ers : site h i e ids s en f cl sids -> yields h op [] ers -> crop offset (unclean en cl) h (fun n => deep_apply n (op n) s) f ers.
  Proof. intros S Y. eapply ev_deep_apply; [exact S|exact Y|]. intros j []. Qed.
  Lemma disjoint_nil a : disjoint a []. Proof. intros j _ []. Qed.
  (** remove_a_term *)
  Lemma fit_branch h s en i e ids f cl sids b b' F g : Rm -> site h i e ids s en f cl sids -> cl = false -> normal offset en -> ext h g -> good_branch g b b' F ->
    (forall x ex, b = inr x -> b' = inr ex -> branch_ref h s x en ex) ->
    exists r h', evaluates (fun n => match b with inl b => new_list offset n KSum [b] [] | inr x => hret x end) g r h' /\ ext g h'
      /\ fit h h' ids s en cl sids r (match b' with inl b => mkl offset KSum [b] [] | inr e => e end).
  Proof.
    intros HR S Cl Nm X (B & A & L) Hb. inversion B as [b0|d x js T]; subst.
    - destruct (makes_leaf offset g KSum [b0]) as (r & h' & E & Bu). exists r, h'. split; [exact E|]. split; [apply Bu|]. left. exists []. split; [|intros j []].
      eapply (offered_mono h g _ []); [apply X|intros j []|apply built_offered, Bu].
    - exists d, g. split; [apply ev_ret|]. split; [apply ext_refl|]. right. specialize (Hb d x eq_refl eq_refl). pose proof Hb as (o & l & rr & l' & r' & D & -> & Bx).
      assert (Hs : (s < next h)%N) by (destruct S as (_ & _ & G); pose proof G as (_ & Ag & _); apply Ag; eapply tree_top; eapply good_tree; exact G).
      split; [exact HR|]. split; [reflexivity|]. split; [exists o, l, rr, l', r'; split; [rewrite (proj2 X) by exact Hs; exact D|auto]|].
      apply normal_iff in Nm. apply Nm. destruct Bx as [[_ ->]|[_ ->]]; auto.
  Qed.
  Lemma deep_remove h i e ids s en f cl sids : Rm -> site h i e ids s en f cl sids -> (is_change en = true -> cl = false -> normal offset en) ->
    crop offset (unclean en cl) h (fun n => deep_apply n (remove_a_term offset n s) s) f (OpsModel.remove_a_term offset en).
  Proof.
    intros HR S Hn. pose proof S as (_ & _ & G). destruct (is_change en && negb cl) eqn:C.
    - apply andb_prop in C as [Ch Cl]. apply negb_true_iff in Cl. specialize (Hn Ch Cl). destruct en as [k bts es|o l' r']; [discriminate|].
      destruct (good_change _ _ _ _ _ _ G) as (l & r & Fl & Fr & D & Gl & Gr & Il & Ir).
      destruct (fit_branch h s _ i e ids f cl sids l l' Fl h HR S Cl Hn (ext_refl h) Gl) as (r1 & h1 & E1 & X1 & Q1); [intros x ex -> ->; exists o, (inr x), r, (inr ex), r'; auto|].
      destruct (fit_branch h s _ i e ids f cl sids r r' Fr h1 HR S Cl Hn X1 (good_branch_ext _ _ _ _ _ X1 Gr)) as (r2 & h2 & E2 & X2 & Q2); [intros x ex -> ->; exists o, l, (inr x), l', (inr ex); auto|].
      eapply (ev_deep_fit h i e ids s _ f cl sids (fun n => remove_a_term offset n s) _ [r1; r2] h2); [exact S| |exact (ext_trans _ _ _ X1 X2)|].
      + unfold remove_a_term. eapply ev_bind; [apply ev_get|]. cbv beta. rewrite D.
        eapply (ev_cons (fun n b => match b with inl b => new_list offset n KSum [b] [] | inr x => hret x end)); [exact E1|].
        eapply (ev_cons (fun n b => match b with inl b => new_list offset n KSum [b] [] | inr x => hret x end)); [exact E2|].
        apply (ev_nil (fun n (b : base + ref) => match b with inl b => new_list offset n KSum [b] [] | inr x => hret x end)).
      + cbn [OpsModel.remove_a_term map]. constructor; [|constructor; [exact Q2|constructor]]. destruct Q1 as [(inn & Of & Hi)|(_ & Cl' & Br & Nn)]; [left; exists inn; split; [eapply offered_ext; eassumption|exact Hi]|right].
        split; [exact HR|]. split; [exact Cl'|]. split; [|exact Nn]. destruct Br as (o1 & l1 & rr & l2 & r3 & D1 & B1). exists o1, l1, rr, l2, r3. split; [|exact B1]. rewrite (proj2 X2); [exact D1|].
        destruct X1 as [X1 _]. assert (Hs : (s < next h)%N) by (pose proof G as (_ & Ag & _); apply Ag; eapply tree_top; eapply good_tree; exact G). lia.
    - eapply (ev_deep_apply h i e ids s en f cl sids (fun n => remove_a_term offset n s)); [exact S|apply ev_remove_a_term; exact G|].
      intros j Hj. right. destruct (is_change en) eqn:Ch; [|destruct Hj]. cbn [andb] in C. apply negb_false_iff in C. auto.
  Qed.

  Theorem ev_apply_rule h i e ids s en f cl sids r : site h i e ids s en f cl sids -> (r = RemoveSomeTerm -> Rm) -> (r = RemoveSomeTerm -> is_change en = true -> cl = false -> normal offset en) ->
    crops offset (unclean en cl) h (fun n => apply_rule offset bases noC n r s) f (rule_of offset bases noC r en).
  Proof.
    intros S HR Hr. pose proof S as (_ & _ & G).
    destruct r; cbn [apply_rule rule_of]; unfold plus_base, times_base, replace_base, change_new_base, change_same, change_window_constant, change_window_linear, change_point_linear,
      times_shifted_base, replace_with_singleton, remove_some_term, try_higher_curves.
    - apply (crops_map offset (unclean en cl) h (fun n B => deep_apply n (add offset n (inr s) (inl B)) s)). intros B h1 _ X1. pose proof (site_ext _ _ _ _ _ _ _ _ _ _ X1 S) as S1.
      apply (deep_plain h1 i e ids s en f cl sids (fun n => add offset n (inr s) (inl B))); [exact S1|]. eapply ev_add; [apply S1|apply base_branch|apply disjoint_nil].
    - apply (crops_map offset (unclean en cl) h (fun n B => deep_apply n (multiply offset n (inr s) (inl B)) s)). intros B h1 _ X1. pose proof (site_ext _ _ _ _ _ _ _ _ _ _ X1 S) as S1.
      apply (deep_plain h1 i e ids s en f cl sids (fun n => multiply offset n (inr s) (inl B))); [exact S1|]. eapply ev_multiply; [apply S1|apply base_branch|apply disjoint_nil].
    - apply (crops_map offset (unclean en cl) h (fun n B => deep_apply n (swap_base offset n s B) s)). intros B h1 _ X1. pose proof (site_ext _ _ _ _ _ _ _ _ _ _ X1 S) as S1.
      apply (deep_plain h1 i e ids s en f cl sids (fun n => swap_base offset n s B)); [exact S1|]. eapply ev_swap_base; apply S1.
    - apply (crops_map offset (unclean en cl) h (fun n B => deep_apply n (both_changes offset n (inr s) (Some (inl B))) s)). intros B h1 _ X1. pose proof (site_ext _ _ _ _ _ _ _ _ _ _ X1 S) as S1.
      apply (deep_plain h1 i e ids s en f cl sids (fun n => both_changes offset n (inr s) (Some (inl B)))); [exact S1|]. eapply ev_both_changes; [apply S1|]. cbv beta iota. apply base_branch.
    - apply (crops_one offset (unclean en cl) h (fun n => deep_apply n (both_changes offset n (inr s) None) s)). apply (deep_plain h i e ids s en f cl sids (fun n => both_changes offset n (inr s) None)); [exact S|].
      apply (ev_both_changes offset h (inr s) (inr en) sids None None [] []); [exact G|exact I].
    - apply (crops_one offset (unclean en cl) h (fun n => deep_apply n (one_change offset n (inr s) CW (Some (inl bC))) s)). apply (deep_plain h i e ids s en f cl sids (fun n => one_change offset n (inr s) CW (Some (inl bC)))); [exact S|].
      eapply ev_one_change; [exact G|]. cbv beta iota. apply base_branch.
    - apply (crops_one offset (unclean en cl) h (fun n => deep_apply n (one_change offset n (inr s) CW (Some (inl bLIN))) s)). apply (deep_plain h i e ids s en f cl sids (fun n => one_change offset n (inr s) CW (Some (inl bLIN)))); [exact S|].
      eapply ev_one_change; [exact G|]. cbv beta iota. apply base_branch.
    - apply (crops_one offset (unclean en cl) h (fun n => deep_apply n (one_change offset n (inr s) CP (Some (inl bLIN))) s)). apply (deep_plain h i e ids s en f cl sids (fun n => one_change offset n (inr s) CP (Some (inl bLIN)))); [exact S|].
      eapply ev_one_change; [exact G|]. cbv beta iota. apply base_branch.
    - apply (crops_map offset (unclean en cl) h (fun n B => let* k := new_list offset n KSum [B; bC] [] in deep_apply n (multiply offset n (inr s) (inr k)) s)). intros B h1 _ X1. pose proof (site_ext _ _ _ _ _ _ _ _ _ _ X1 S) as S1.
      eapply (crop_after offset (unclean en cl) h1 (fun n => new_list offset n KSum [B; bC] []) _ (fun n k => deep_apply n (multiply offset n (inr s) (inr k)) s)); [apply makes_leaf|]. intros k h2 B2. pose proof B2 as (X2 & F & T & Rg & L & _).
      pose proof (site_ext _ _ _ _ _ _ _ _ _ _ X2 S1) as S2. apply (deep_plain h2 i e ids s en f cl sids (fun n => multiply offset n (inr s) (inr k))); [exact S2|].
      eapply ev_multiply; [apply S2|split; [constructor; exact T|split; [intros j Hj; apply Rg, Hj|exact L]]|]. intros j Hj K. apply Rg in K. destruct S1 as (_ & _ & (_ & A & _)). specialize (A j Hj). lia.
    - apply (crops_map offset (unclean en cl) h (fun n B => let* k := new_list offset n KSum [B] [] in deep_apply n (replace_node offset n s (inr k)) s)). intros B h1 _ X1. pose proof (site_ext _ _ _ _ _ _ _ _ _ _ X1 S) as S1.
      eapply (crop_after offset (unclean en cl) h1 (fun n => new_list offset n KSum [B] []) _ (fun n k => deep_apply n (replace_node offset n s (inr k)) s)); [apply makes_leaf|]. intros k h2 B2. pose proof B2 as (X2 & F & T & Rg & L & _).
      pose proof (site_ext _ _ _ _ _ _ _ _ _ _ X2 S1) as S2. apply (ev_deep_apply h2 i e ids s en f cl sids (fun n => replace_node offset n s (inr k)) F); [exact S2| |].
      + eapply ev_replace_node; [split; [constructor; exact T|split; [intros j Hj; apply Rg, Hj|exact L]]|auto].
      + intros j Hj. left. intros K. apply Rg in Hj. destruct S1 as ((_ & _ & A) & _). specialize (A j K). lia.
    - apply (crops_one offset (unclean en cl) h (fun n => deep_apply n (remove_a_term offset n s) s)). apply (deep_remove h i e ids s en f cl sids (HR eq_refl) S). apply Hr. reflexivity.
    - apply (crops_one offset (unclean en cl) h (fun n => deep_apply n (higher_curves offset n s) s)). apply (deep_plain h i e ids s en f cl sids (fun n => higher_curves offset n s)); [exact S|]. eapply ev_higher_curves; exact G.
  Qed.

  Theorem ev_expand_node h i e ids s en f cl sids rules : site h i e ids s en f cl sids -> (In RemoveSomeTerm rules -> Rm) -> (In RemoveSomeTerm rules -> is_change en = true -> cl = false -> normal offset en) ->
    crop offset (unclean en cl) h (fun n => expand_node offset bases noC n rules s) f (OpsModel.expand_node (map (rule_of offset bases noC) rules) en).
  Proof.
    intros S HR Hr. unfold expand_node.
    assert (Q : forall h1, ext h h1 -> exists ls h2 F, evaluates (fun n => hmap (fun r => apply_rule offset bases noC n r s) rules) h1 ls h2 /\ ext h1 h2
      /\ apart (plants offset (unclean en cl) h2 (next h1) f) (concat (concat ls)) (concat (concat (map (fun pr : rule => pr en) (map (rule_of offset bases noC) rules)))) F).
    { induction rules as [|r rules IH]; intros h1 X1; [exists [], h1, []; split; [apply (ev_nil (fun n r => apply_rule offset bases noC n r s))|]; split; [apply ext_refl|constructor]|].
      destruct (ev_apply_rule h1 i e ids s en f cl sids r (site_ext _ _ _ _ _ _ _ _ _ _ X1 S)) as (rss & h2 & F & E2 & X2 & A2); [intros ->; apply HR; left; reflexivity|intros ->; apply Hr; left; reflexivity|].
      destruct (IH (fun K => HR (or_intror K)) (fun K => Hr (or_intror K)) h2 (ext_trans _ _ _ X1 X2)) as (ls & h3 & F3 & E3 & X3 & A3). exists (rss :: ls), h3, (F ++ F3).
      split; [eapply (ev_cons (fun n r => apply_rule offset bases noC n r s)); eassumption|]. split; [eapply ext_trans; eassumption|]. cbn [map concat]. rewrite !concat_app. eapply join; eassumption. }
    destruct (Q h (ext_refl h)) as (ls & h1 & F & E1 & X1 & A1). destruct (ev_unique h1 (plants offset (unclean en cl) h1 (next h) f) _ _ _ (fun r er js => plants_tree offset (unclean en cl) h1 (next h) f r er js) A1) as (rs' & F' & E2 & A2 & _).
    exists rs', h1, F'. split; [eapply ev_bind; [exact E1|exact E2]|]. split; [exact X1|exact A2].
  Qed.
End Rules.

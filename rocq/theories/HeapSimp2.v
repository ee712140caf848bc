(** Lemmas for C19: simplification in place computes the simplification of trees and keeps the links. *)
From Coq Require Import List Bool Arith ZArith NArith Lia Permutation.
From Verif Require Import Py UtilModel KexModel KexSpec KexProofs KexSimp OpsModel HeapModel HeapSpec HeapBase HeapSimp.
Import ListNotations.

Definition linked_below (h : heap) (i : ref) (ids : list ref) : Prop :=
  forall n c, In n ids -> n <> i -> In c (children (data (obj h n))) -> parent (obj h c) = Some n.
Definition calm (h h' : heap) (F : list ref) : Prop :=
  next h' = next h /\ (forall j, root (obj h' j) = root (obj h j)) /\ (forall j, ~ In j F -> obj h' j = obj h j).
Lemma calm_refl h F : calm h h F. Proof. repeat split; auto. Qed.
Lemma calm_trans a b c F G H : calm a b F -> calm b c G -> incl F H -> incl G H -> calm a c H.
Proof.
  intros (N1 & R1 & O1) (N2 & R2 & O2) I J. split; [congruence|]. split; [intros j; rewrite R2; apply R1|]. intros j Hj. rewrite O2, O1; auto.
Qed.
Lemma calm_incl h h' F G : calm h h' F -> incl F G -> calm h h' G.
Proof. intros (N1 & R1 & O1) I. repeat split; auto. Qed.
Lemma within_calm h h' i F : within h h' i F -> calm h h' (i :: F).
Proof. intros (N1 & R1 & P1 & O1). repeat split; auto. intros j Hj. apply O1; intros X; apply Hj; [left; auto|right; auto]. Qed.
Lemma reparented_calm h h' F : reparented h h' F -> calm h h' F.
Proof. intros (N1 & D1 & R1 & O1). repeat split; auto. Qed.
Lemma calm_within h h' i F : calm h h' F -> ~ In i F -> within h h' i F.
Proof. intros (N1 & R1 & O1) Hi. split; [auto|]. split; [auto|]. split; [rewrite O1 by exact Hi; reflexivity|]. intros j _ Hj. apply O1, Hj. Qed.

Section Simplify.
  Context (offset : bool).
  Definition simplifies (e : kex) : Prop := forall h i ids, tree_at h i e ids -> linked_below h i ids ->
    exists h' ids', evaluates (fun n => simplify offset n i) h tt h' /\ tree_at h' i (KexModel.simplify offset e) ids' /\ incl ids' ids /\ calm h h' ids
      /\ parent (obj h' i) = parent (obj h i) /\ linked_below h' i ids' /\ (linked h ids -> linked h' ids').

  Lemma linked_is_below h i ids : linked h ids -> linked_below h i ids.
  Proof. intros L n c Hn _. apply L, Hn. Qed.
  Lemma linked_split h i ids : linked_below h i ids -> (forall c, In c (children (data (obj h i))) -> parent (obj h c) = Some i) -> linked h ids.
  Proof. intros L C n c Hn Hc. destruct (N.eq_dec n i) as [->|X]; [apply C, Hc|apply (L n c Hn X Hc)]. Qed.

  Lemma ev_simplifies es : (forall e, In e es -> simplifies e) -> forall h cs F, apart (tree_at h) cs es F -> linked h F ->
    exists h' us F', evaluates (fun n => hmap (simplify offset n) cs) h us h' /\ apart (tree_at h') cs (map (KexModel.simplify offset) es) F' /\ incl F' F
      /\ linked h' F' /\ calm h h' F /\ (forall c, In c cs -> parent (obj h' c) = parent (obj h c)).
  Proof.
    induction es as [|y es IH]; intros S h cs F Aa L; inversion Aa as [|x y0 ids xs ys jds T1 A2 Dj]; subst.
    - exists h, [], []. split; [apply (ev_nil (simplify offset))|]. split; [constructor|]. split; [apply incl_refl|]. split; [intros n c []|]. split; [apply calm_refl|intros c []].
    - destruct (S y (or_introl eq_refl) h x ids T1) as (h1 & ids1 & E1 & T1' & I1 & C1 & P1 & _ & L1).
      { apply linked_is_below. eapply linked_incl; [exact L|apply incl_appl, incl_refl]. }
      specialize (L1 ltac:(eapply linked_incl; [exact L|apply incl_appl, incl_refl])).
      assert (O1 : forall j, In j jds -> obj h1 j = obj h j). { intros j Hj. destruct C1 as (_ & _ & O). apply O. intros K. exact (Dj j K Hj). }
      destruct (IH (fun e He => S e (or_intror He)) h1 xs jds) as (h2 & us & F2 & E2 & A2' & I2 & L2 & C2 & P2).
      + eapply apart_frame; [exact A2|]. intros j Hj. rewrite O1 by exact Hj. reflexivity.
      + eapply apart_linked_frame; [exact A2|eapply linked_incl; [exact L|apply incl_appr, incl_refl]|exact O1].
      + assert (O2 : forall j, In j ids -> obj h2 j = obj h1 j). { intros j Hj. destruct C2 as (_ & _ & O). apply O. exact (Dj j Hj). }
        exists h2, (tt :: us), (ids1 ++ F2). split; [eapply (ev_cons (simplify offset)); eassumption|]. split; [|split; [|split; [|split]]].
        * cbn [map]. constructor; [eapply tree_frame; [exact T1'|intros j Hj; rewrite O2 by (apply I1, Hj); reflexivity]|exact A2'|].
          intros j Hj K. exact (Dj j (I1 j Hj) (I2 j K)).
        * intros j Hj. apply in_app_iff in Hj as [Hj|Hj]; apply in_app_iff; auto.
        * apply linked_app; [|exact L2]. eapply linked_frame; [exact T1'|exact L1|]. intros j Hj. apply O2, I1, Hj.
        * eapply calm_trans; [exact C1|exact C2|apply incl_appl, incl_refl|apply incl_appr, incl_refl].
        * intros c [<-|Hc].
          -- rewrite O2 by (eapply tree_top; exact T1). exact P1.
          -- rewrite P2 by exact Hc. rewrite O1 by (eapply apart_tops; [exact A2|exact Hc]). reflexivity.
  Qed.
  Lemma ev_has_kinds k h cs es F : apart (tree_at h) cs es F -> evaluates (fun _ => hmap (has_kind k) cs) h (map (is_kind k) es) h.
  Proof.
    induction 1 as [|x y ids xs ys jds T A IH D]; [apply ev_const; reflexivity|]. eapply (ev_cons (fun _ => has_kind k)); [|exact IH].
    unfold has_kind. eapply ev_bind; [apply ev_get|]. cbv beta. inversion T as [i k' bts cs es G E|i c l r l' r' G G' E]; subst; rewrite E; apply ev_ret.
  Qed.
  Definition simp_branch (n : nat) (b : base + ref) : HM (base + ref) :=
    match b with inl b => hret (inl b) | inr x => let* _ := simplify offset n x in extract x end.
  Lemma ev_simp_branch b b' F g : branch_at g b b' F -> linked g F -> (forall x, b' = inr x -> simplifies x) ->
    exists x g' F', evaluates (fun n => simp_branch n b) g x g' /\ branch_at g' x (match b' with inl b => inl b | inr x => KexModel.extract (KexModel.simplify offset x) end) F'
      /\ incl F' F /\ linked g' F' /\ calm g g' F /\ (forall d, x = inr d -> exists c, b = inr c /\ parent (obj g' d) = parent (obj g c)).
  Proof.
    intros B L S. inversion B as [b0 Hb Hx|d e js' T Hd He Hjs]; subst; cbn [simp_branch].
    - exists (inl b0), g, []. split; [apply ev_ret|]. split; [constructor|]. split; [intros j []|]. split; [intros n c []|]. split; [apply calm_refl|discriminate].
    - destruct (S e eq_refl g d F T (linked_is_below _ _ _ L)) as (g1 & F1 & E1 & T1 & I1 & C1 & P1 & _ & L1). specialize (L1 L).
      destruct (ev_extract g1 d _ F1 T1 L1) as (x & g2 & F2 & E2 & B2 & I2 & R2 & P2 & L2 & _).
      exists x, g2, F2. split; [eapply ev_bind; [exact E1|exact E2]|]. split; [exact B2|]. split; [eapply incl_tran; eassumption|]. split; [exact L2|]. split.
      + eapply calm_trans; [exact C1|apply reparented_calm, R2|apply incl_refl|exact I1].
      + intros c ->. exists d. split; [reflexivity|]. rewrite P2 by reflexivity. exact P1.
  Qed.

  Theorem ev_simplify e : simplifies e.
  Proof.
    induction e as [k bts es IH|o l r IHl IHr] using kex_ind'; intros h i ids T Lb; inversion T as [i0 k0 b0 cs es0 F D Aa Hi|i0 c0 l0 r0 l' r' F G D Bl Br Dj Hi]; subst.
    - assert (L : linked h F). { intros n c Hn Hc. apply (Lb n c); [right; exact Hn|intros ->; contradiction|exact Hc]. }
      destruct (ev_simplifies es IH h cs F Aa L) as (h1 & us1 & F1 & E1 & A1 & I1 & L1 & C1 & P1).
      assert (Hi1 : ~ In i F1) by (intros K; apply Hi, I1, K).
      assert (D1 : data (obj h1 i) = BComm k bts cs) by (destruct C1 as (_ & _ & O); rewrite O by exact Hi; exact D).
      assert (Len : length cs = length (map (KexModel.simplify offset) es)) by (rewrite map_length; eapply apart_length; exact Aa).
      destruct (ev_absorbs offset i k cs h1 bts [] [] [] (map (KexModel.simplify offset) es) [] F1) as (h2 & us2 & cs2 & F2 & E2 & H2 & I2 & W2 & K2).
      { cbn [app]. rewrite !app_nil_r. split; [exact D1|]. auto. }
      { reflexivity. }
      { exact Len. }
      { intros y []. }
      cbn [app] in H2, K2. rewrite !app_nil_r in H2, K2.
      set (st := fold_left (absorb_one offset k) (filter (is_kind k) (map (KexModel.simplify offset) es)) (bts, map (KexModel.simplify offset) es)) in H2. cbv zeta in H2.
      destruct H2 as (D2 & A2 & Hi2 & L2).
      destruct (ev_extracts h2 cs2 (snd st) F2 A2 L2) as (xs & h3 & F3 & E3 & B3 & I3 & R3 & L3 & P3).
      destruct (apart_branches h3 xs _ F3 B3) as (Eb & A3 & Q3).
      assert (Hi3 : ~ In i F3) by (intros K; apply Hi2, I3, K).
      assert (Lrefs : length (refs_of xs) = length (kexs_of (map KexModel.extract (snd st)))) by (eapply apart_length; exact A3).
      set (bfin := simp_base offset k (simp_base offset k (cupdate_list (fst st) (bases_of (map KexModel.extract (snd st)))) (length (refs_of xs))) (length (refs_of xs))).
      set (h4 := upd h3 i (Obj (root (obj h3 i)) (parent (obj h3 i)) (BComm k bfin (refs_of xs)))).
      assert (O4 : forall j, j <> i -> obj h4 j = obj h3 j) by (intros j Hj; apply upd_other, Hj).
      assert (A4 : apart (tree_at h4) (refs_of xs) (kexs_of (map KexModel.extract (snd st))) F3).
      { eapply apart_frame; [exact A3|]. intros j Hj. rewrite O4; [reflexivity|]. intros ->. contradiction. }
      assert (L4 : linked h4 F3). { eapply apart_linked_frame; [exact A3|exact L3|]. intros j Hj. apply O4. intros ->. contradiction. }
      exists h4, (i :: F3). split; [|split; [|split; [|split; [|split; [|split]]]]].
      + apply ev_step. cbn [simplify]. eapply ev_bind; [apply ev_get|]. cbv beta. rewrite D.
        eapply ev_bind; [exact E1|]. cbv beta. eapply ev_bind; [apply (ev_has_kinds _ _ _ _ _ A1)|]. cbv beta.
        eapply ev_bind; [exact E2|]. cbv beta. eapply ev_bind; [apply ev_get|]. cbv beta. rewrite D2.
        eapply ev_bind; [exact E3|]. cbv beta. rewrite Eb. apply ev_set_data.
      + cbn [KexModel.simplify]. unfold simp_node, absorb_homogeneous, absorb_singletons. fold st. cbn [fst snd]. rewrite <- Lrefs.
        econstructor; [unfold h4; rewrite upd_same; reflexivity|exact A4|exact Hi3].
      + intros j [<-|Hj]; [left; reflexivity|]. right. apply I1, I2, I3, Hj.
      + eapply calm_trans; [exact C1| |intros j Hj; right; exact Hj|apply incl_refl].
        eapply calm_trans; [apply within_calm, W2| |intros j [<-|Hj]; [left; reflexivity|right; apply I1, Hj]|apply incl_refl].
        eapply calm_trans; [apply reparented_calm, R3|apply within_calm, (set_data_within h3 i _ [])| |].
        * intros j Hj. right. apply I1, I2, Hj.
        * intros j [<-|[]]. left. reflexivity.
      + unfold h4. rewrite upd_same. cbn [parent]. destruct R3 as (_ & _ & _ & O3). rewrite O3 by exact Hi2. destruct W2 as (_ & _ & P2 & _). rewrite P2.
        destruct C1 as (_ & _ & O1). rewrite O1 by exact Hi. reflexivity.
      + intros n c [<-|Hn] N Hc; [contradiction|]. apply (L4 n c Hn Hc).
      + intros Lall n c [<-|Hn] Hc; [|apply (L4 n c Hn Hc)].
        unfold h4 in Hc. rewrite upd_same in Hc. cbn in Hc.
        assert (c <> i) by (intros ->; apply Hi3; eapply apart_tops; [exact A3|exact Hc]).
        rewrite O4 by assumption. destruct (P3 c (Q3 c Hc)) as (c' & Hc' & ->). apply K2; [|exact Hc'].
        intros d Hd. rewrite P1 by exact Hd. apply (Lall i d (or_introl eq_refl)). rewrite D. exact Hd.
    - assert (L : linked h (F ++ G)). { intros n c Hn Hc. apply (Lb n c); [right; exact Hn|intros ->; contradiction|exact Hc]. }
      assert (HiF : ~ In i F) by (intros K; apply Hi, in_app_iff; auto). assert (HiG : ~ In i G) by (intros K; apply Hi, in_app_iff; auto).
      destruct (ev_simp_branch l0 l F h Bl) as (xl & h1 & F1 & E1 & B1 & I1 & L1 & C1 & P1); [eapply linked_incl; [exact L|apply incl_appl, incl_refl]|exact IHl|].
      set (h2 := upd h1 i (Obj (root (obj h1 i)) (parent (obj h1 i)) (BChange o xl r0))).
      assert (O1 : forall j, ~ In j F -> obj h1 j = obj h j) by apply C1.
      assert (O2 : forall j, j <> i -> obj h2 j = obj h1 j) by (intros j Hj; apply upd_other, Hj).
      assert (OG : forall j, In j G -> obj h2 j = obj h j).
      { intros j Hj. rewrite O2 by (intros ->; contradiction). apply O1. intros K. exact (Dj j K Hj). }
      assert (Br2 : branch_at h2 r0 r G) by (eapply branch_frame; [exact Br|intros j Hj; rewrite OG by exact Hj; reflexivity]).
      assert (LG : linked h2 G).
      { inversion Br as [b1 Hb1 Hx1|d1 e1 js1 T1 Hd1 He1 Hjs1]; subst; [intros n c []|]. eapply linked_frame; [exact T1|eapply linked_incl; [exact L|apply incl_appr, incl_refl]|exact OG]. }
      destruct (ev_simp_branch r0 r G h2 Br2 LG IHr) as (xr & h3 & G3 & E3 & B3 & I3 & L3 & C3 & P3).
      assert (O3 : forall j, ~ In j G -> obj h3 j = obj h2 j) by apply C3.
      set (h4 := upd h3 i (Obj (root (obj h3 i)) (parent (obj h3 i)) (BChange o xl xr))).
      assert (O4 : forall j, j <> i -> obj h4 j = obj h3 j) by (intros j Hj; apply upd_other, Hj).
      assert (OF : forall j, In j F1 -> obj h4 j = obj h1 j).
      { intros j Hj. assert (j <> i) by (intros ->; apply HiF, I1, Hj). rewrite O4, O3, O2; auto. }
      assert (OG4 : forall j, In j G3 -> obj h4 j = obj h3 j). { intros j Hj. apply O4. intros ->. apply HiG, I3, Hj. }
      assert (B1' : branch_at h4 xl (match l with inl b => inl b | inr x => KexModel.extract (KexModel.simplify offset x) end) F1) by (eapply branch_frame; [exact B1|intros j Hj; rewrite OF by exact Hj; reflexivity]).
      assert (B3' : branch_at h4 xr (match r with inl b => inl b | inr x => KexModel.extract (KexModel.simplify offset x) end) G3) by (eapply branch_frame; [exact B3|intros j Hj; rewrite OG4 by exact Hj; reflexivity]).
      assert (Hi4 : ~ In i (F1 ++ G3)). { intros K. apply in_app_iff in K as [K|K]; [apply HiF, I1, K|apply HiG, I3, K]. }
      assert (L4 : linked h4 (F1 ++ G3)).
      { apply linked_app.
        - inversion B1 as [b1 Hb1 Hx1|d1 e1 js1 T1 Hd1 He1 Hjs1]; subst; [intros n c []|]. eapply linked_frame; [exact T1|exact L1|exact OF].
        - inversion B3 as [b1 Hb1 Hx1|d1 e1 js1 T1 Hd1 He1 Hjs1]; subst; [intros n c []|]. eapply linked_frame; [exact T1|exact L3|exact OG4]. }
      assert (D4 : data (obj h4 i) = BChange o xl xr) by (unfold h4; rewrite upd_same; reflexivity).
      exists h4, (i :: F1 ++ G3). split; [|split; [|split; [|split; [|split; [|split]]]]].
      + apply ev_step. cbn [simplify]. eapply ev_bind; [apply ev_get|]. cbv beta. rewrite D.
        eapply ev_bind; [exact E1|]. cbv beta. eapply ev_bind; [apply ev_set_data|]. cbv beta. fold h2.
        eapply ev_bind; [exact E3|]. cbv beta. apply ev_set_data.
      + cbn [KexModel.simplify]. econstructor; [exact D4|exact B1'|exact B3'| |exact Hi4].
        intros j Hj K. exact (Dj j (I1 j Hj) (I3 j K)).
      + intros j [<-|Hj]; [left; reflexivity|]. right. apply in_app_iff in Hj as [Hj|Hj]; apply in_app_iff; auto.
      + eapply calm_trans; [exact C1| |intros j Hj; right; apply in_app_iff; auto|apply incl_refl].
        eapply calm_trans; [apply within_calm, (set_data_within h1 i (BChange o xl r0) [])| |intros j [<-|[]]; left; reflexivity|apply incl_refl].
        eapply calm_trans; [exact C3|apply within_calm, (set_data_within h3 i (BChange o xl xr) [])|intros j Hj; right; apply in_app_iff; auto|intros j [<-|[]]; left; reflexivity].
      + unfold h4. rewrite upd_same. cbn [parent]. rewrite O3 by exact HiG. unfold h2. rewrite upd_same. cbn [parent]. rewrite O1 by exact HiF. reflexivity.
      + intros n c [<-|Hn] N Hc; [contradiction|]. apply (L4 n c Hn Hc).
      + intros Lall n c [<-|Hn] Hc; [|apply (L4 n c Hn Hc)]. rewrite D4 in Hc. cbn in Hc. apply in_app_iff in Hc as [Hc|Hc].
        * destruct xl as [|d]; [destruct Hc|]. destruct Hc as [<-|[]]. rewrite OF by (eapply branch_child; [exact B1|reflexivity]). destruct (P1 d eq_refl) as (c' & -> & ->).
          apply (Lall i c' (or_introl eq_refl)). rewrite D. left. reflexivity.
        * destruct xr as [|d]; [destruct Hc|]. destruct Hc as [<-|[]]. rewrite OG4 by (eapply branch_child; [exact B3|reflexivity]). destruct (P3 d eq_refl) as (c' & -> & ->).
          rewrite OG by (eapply branch_child; [exact Br|reflexivity]). apply (Lall i c' (or_introl eq_refl)). rewrite D. cbn. apply in_app_iff. right. left. reflexivity.
  Qed.
End Simplify.

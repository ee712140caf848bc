(** Lemmas for C19: roots and expand. *)
From Coq Require Import List Bool Arith ZArith NArith Lia Permutation.
From Verif Require Import Py UtilModel KexModel KexSpec KexProofs KexSimp KexCong OpsModel OpsSpec OpsProofs
  HeapModel HeapSpec HeapBase HeapSimp HeapSimp2 HeapNew HeapOps HeapOps2 HeapRepl HeapMix HeapSpoil HeapTree HeapExpand HeapCover.
Import ListNotations.

(** A node [r] of a new expression. *)
Definition grown (h : heap) (lo : N) (r : ref) (e : kex) (ids : list ref) : Prop :=
  exists t, expression h t e ids /\ (forall j, In j ids -> (lo <= j)%N) /\ root (obj h r) = Some t /\ In r ids.
Lemma grown_frame h h' lo r e ids : grown h lo r e ids -> (next h <= next h')%N -> (forall j, In j ids -> obj h' j = obj h j) -> grown h' lo r e ids.
Proof. intros (t & E & Lo & R & I) N O. exists t. split; [eapply expression_frame; eassumption|]. split; [exact Lo|]. split; [rewrite O by exact I; exact R|exact I]. Qed.
Lemma grown_mono h lo lo' r e ids : (lo' <= lo)%N -> grown h lo r e ids -> grown h lo' r e ids.
Proof. intros L (t & E & Lo & R). exists t. split; [exact E|]. split; [intros j Hj; specialize (Lo j Hj); lia|exact R]. Qed.
Section Main.
  Context (offset : bool) (bases noC : list base).

  (** ** standardise_singleton_root *)
  Theorem ev_standardise m : forall e, wf e -> (size e <= m)%nat -> forall h t ids, expression h t e ids ->
    exists j h' ids', evaluates (fun n => standardise offset n t) h j h' /\ expression h' j (OpsModel.standardise offset e) ids'
      /\ (forall q, In q ids' -> In q ids \/ (next h <= q)%N) /\ changes_within h h' ids.
  Proof.
    induction m as [|m IH]; intros e W Hs h t ids E0; [pose proof (size_pos e); lia|]. pose proof E0 as (T & (P & L & R) & A).
    destruct (ev_simplify offset e h t ids T (linked_is_below _ _ _ L)) as (h1 & ids1 & E1 & T1 & I1 & (N1 & R1 & O1) & P1 & _ & L1). specialize (L1 L).
    assert (X1 : expression h1 t (KexModel.simplify offset e) ids1).
    { split; [exact T1|]. split; [|intros q Hq; rewrite N1; apply A, I1, Hq]. split; [rewrite P1; exact P|]. split; [exact L1|]. intros n Hn. rewrite R1. apply R, I1, Hn. }
    assert (C1 : changes_within h h1 ids) by (split; [lia|intros j _; apply O1]).
    assert (Stay : evaluates (fun _ => extract t) h1 (inr t) h1 -> OpsModel.standardise offset e = KexModel.simplify offset e ->
      exists j h' ids', evaluates (fun n => standardise offset n t) h j h' /\ expression h' j (OpsModel.standardise offset e) ids' /\ (forall q, In q ids' -> In q ids \/ (next h <= q)%N) /\ changes_within h h' ids).
    { intros Ex ->. exists t, h1, ids1. split; [|split; [exact X1|split; [intros q Hq; left; apply I1, Hq|exact C1]]].
      apply ev_step. cbn [standardise]. eapply ev_bind; [exact E1|]. cbv beta. eapply ev_bind; [exact Ex|]. cbv beta iota. rewrite N.eqb_refl. apply ev_ret. }
    pose proof (standardise_unfold offset e W) as U. pose proof (simplify_wf offset e W) as Ws. pose proof (simplify_size offset e) as Hz.
    destruct (KexModel.simplify offset e) as [k bts cts|o l r] eqn:Es.
    2:{ apply Stay; [|exact U]. inversion T1 as [|i0 c0 l0 r0 l1 r1 Fl Fr D Bl Br Dj Hi]; subst. unfold extract. eapply ev_bind; [apply ev_get|]. cbv beta. rewrite D. apply ev_ret. }
    inversion T1 as [i0 k0 b0 cs es0 F D Aa Hi|]; subst. apply wf_comm in Ws as [Wb Wc].
    destruct (extract_spec k bts cts Wb) as [(b & -> & -> & Ex)|[(c & -> & -> & Ex)|(Nt & Ex)]]; rewrite Ex in U.
    - (* a lone base kernel *)
      inversion Aa; subst. destruct (makes_leaf offset h1 KSum [b]) as (s & h2 & E2 & (X2 & F2 & T2 & R2 & L2 & P2)). destruct (ev_set_root h2 s _ F2 None T2) as (h3 & E3 & R3). pose proof R3 as (N3 & I3 & O3).
      exists s, h3, F2. rewrite U. split; [|split; [|split]].
      + apply ev_step. cbn [standardise]. eapply ev_bind; [exact E1|]. cbv beta. eapply (ev_bind (fun _ => extract t) _ h1 (inl b) h1).
        * unfold extract. eapply ev_bind; [apply ev_get|]. cbv beta. rewrite D. apply ev_ret.
        * cbv beta iota. eapply ev_bind; [exact E2|]. cbv beta. eapply ev_bind; [exact E3|]. apply ev_ret.
      + split; [eapply tree_frame; [exact T2|intros j _; eapply rerooted_data; exact R3]|]. split; [|intros j Hj; rewrite N3; apply R2, Hj]. split; [|split].
        * rewrite (rerooted_parent _ _ _ _ R3). exact P2.
        * intros n c Hn Hc. rewrite (rerooted_data _ _ _ _ R3) in Hc. rewrite (rerooted_parent _ _ _ _ R3). apply L2; assumption.
        * intros n Hn. rewrite I3 by exact Hn. reflexivity.
      + intros q Hq. right. apply R2 in Hq. lia.
      + split; [rewrite N3; destruct X2; lia|]. intros j Hj Nj. rewrite O3 by (intros K; apply R2 in K; lia). rewrite (proj2 X2) by lia. apply O1, Nj.
    - (* a lone composite *)
      assert (S : is_singleton [] [c] = true) by reflexivity. rewrite S in U. inversion Aa as [|x y0 jd xs ys jds Tc A2 Dj]; subst. inversion A2; subst. rewrite app_nil_r in *.
      set (h2 := upd h1 x (Obj (root (obj h1 x)) None (data (obj h1 x)))).
      assert (D2 : forall j, data (obj h2 j) = data (obj h1 j)). { intros j. unfold h2. destruct (N.eq_dec j x) as [->|N]; [rewrite upd_same; reflexivity|rewrite upd_other by exact N; reflexivity]. }
      set (h3 := upd h2 x (Obj (root (obj h2 x)) None (data (obj h2 x)))).
      assert (D3 : forall j, data (obj h3 j) = data (obj h1 j)). { intros j. unfold h3. destruct (N.eq_dec j x) as [->|N]; [rewrite upd_same; apply D2|rewrite upd_other by exact N; apply D2]. }
      assert (T3 : tree_at h3 x c jd) by (eapply tree_frame; [exact Tc|intros j _; apply D3]). assert (Hx : In x jd) by (eapply tree_top; exact Tc).
      destruct (ev_set_root h3 x c jd None T3) as (h4 & E4 & R4). pose proof R4 as (N4 & I4 & O4).
      assert (O3 : forall j, j <> x -> obj h3 j = obj h1 j) by (intros j N; unfold h3, h2; rewrite !upd_other by exact N; reflexivity).
      assert (X4 : expression h4 x c jd).
      { split; [eapply tree_frame; [exact T3|intros j _; eapply rerooted_data; exact R4]|]. split; [|intros j Hj; rewrite N4; cbn; rewrite N1; apply A, I1; right; exact Hj]. split; [|split].
        - rewrite (rerooted_parent _ _ _ _ R4). unfold h3. rewrite upd_same. reflexivity.
        - intros n d Hn Hd. rewrite (rerooted_data _ _ _ _ R4), D3 in Hd. rewrite (rerooted_parent _ _ _ _ R4), O3 by (intros ->; exact (tree_top_no_child _ _ _ _ _ Tc Hn Hd)). apply L1; [right; exact Hn|exact Hd].
        - intros n Hn. rewrite I4 by exact Hn. reflexivity. }
      assert (C4 : changes_within h h4 ids).
      { split; [rewrite N4; cbn; lia|]. intros j Hj Nj. assert (Q : ~ In j jd) by (intros K; apply Nj, I1; right; exact K). rewrite O4 by exact Q. rewrite O3 by (intros ->; contradiction). apply O1, Nj. }
      rewrite size_comm in Hz. unfold sizes in Hz. cbn [map list_sum fold_right] in Hz.
      destruct (IH c (Wc c (or_introl eq_refl)) ltac:(lia) h4 x jd X4) as (j & h5 & ids5 & E5 & X5 & I5 & C5).
      exists j, h5, ids5. rewrite U. split; [|split; [exact X5|split]].
      + apply ev_step. cbn [standardise]. eapply ev_bind; [exact E1|]. cbv beta. eapply (ev_bind (fun _ => extract t) _ h1 (inr x) h2).
        * unfold extract. eapply ev_bind; [apply ev_get|]. cbv beta. rewrite D. cbn [csum fold_left map length Nat.eqb andb Z.eqb]. eapply ev_bind; [apply ev_set_parent|]. cbv beta. rewrite P1, P. apply ev_ret.
        * cbv beta iota. destruct (N.eqb_spec x t) as [->|Nx]; [exfalso; apply Hi; exact Hx|]. eapply ev_bind; [apply ev_set_parent|]. cbv beta. fold h3. eapply ev_bind; [exact E4|]. exact E5.
      + intros q Hq. destruct (I5 q Hq) as [K|K]; [left; apply I1; right; exact K|right; rewrite N4 in K; cbn in K; lia].
      + eapply within_trans2; [exact C4|exact C5|]. intros q Hq. left. apply I1. right. exact Hq.
    - (* not a singleton *)
      assert (S : is_singleton bts cts = false). { destruct (is_singleton bts cts) eqn:S; [|reflexivity]. apply is_singleton_spec in S; [contradiction|exact Wb]. }
      rewrite S in U. apply Stay; [|exact U]. assert (Len : length cs = length cts) by (eapply apart_length; exact Aa).
      unfold is_singleton in S. apply Z.eqb_neq in S. unfold extract. eapply ev_bind; [apply ev_get|]. cbv beta. rewrite D, Len.
      destruct (Z.eqb_spec (csum bts) 1) as [K1|K1]; destruct (Nat.eqb_spec (length cts) 0) as [K2|K2]; cbn [andb]; try (exfalso; lia);
        destruct (Z.eqb_spec (csum bts) 0) as [K3|K3]; destruct (Nat.eqb_spec (length cts) 1) as [K4|K4]; cbn [andb]; try (exfalso; lia); apply ev_ret.
  Qed.

  (** ** The intermediate results, each with the trees before it *)
  Fixpoint trails {A} (pre es : list A) : list (A * list A) :=
    match es with [] => [] | e :: t => (e, pre) :: trails (pre ++ [e]) t end.
  Lemma trails_app {A} (a b : list A) : forall pre, trails pre (a ++ b) = trails pre a ++ trails (pre ++ a) b.
  Proof. induction a as [|x a IH]; intros pre; cbn [app trails]; [rewrite app_nil_r; reflexivity|]. rewrite IH, <- app_assoc. reflexivity. Qed.
  Definition repeats (x : kex * list kex) : Prop := exists w, In w (snd x) /\ keq w (fst x) = true.
  (** As [grown], with a part shared by two nodes *)
  Definition smeared (h : heap) (lo : N) (r : ref) (e : kex) (ids : list ref) : Prop :=
    exists t own sh, ids = own ++ sh /\ mixed offset h sh t e own /\ (forall j, In j ids -> (lo <= j)%N /\ (j < next h)%N) /\ root (obj h r) = Some t /\ In r ids.
  (** Either [grown], or a repetition of an earlier result *)
  Definition sprung (h : heap) (lo : N) (r : ref) (x : kex * list kex) (ids : list ref) : Prop := grown h lo r (fst x) ids \/ (smeared h lo r (fst x) ids /\ repeats x).
  Lemma sprung_frame h h' lo r x ids : sprung h lo r x ids -> (next h <= next h')%N -> (forall j, In j ids -> obj h' j = obj h j) -> sprung h' lo r x ids.
  Proof.
    intros [G|[(t & own & sh & -> & M & Lo & R & I) Re]] N O; [left; eapply grown_frame; eassumption|right]. split; [|exact Re]. exists t, own, sh. split; [reflexivity|]. split; [|split; [|split; [|exact I]]].
    - eapply mx_frame; [exact M|]. intros j Hj. rewrite O by (apply in_app_iff; exact Hj). reflexivity.
    - intros j Hj. specialize (Lo j Hj). lia.
    - rewrite O by exact I. exact R.
  Qed.
  Lemma sprung_mono h lo lo' r x ids : (lo' <= lo)%N -> sprung h lo r x ids -> sprung h lo' r x ids.
  Proof.
    intros L [G|[(t & own & sh & E & M & Lo & R & I) Re]]; [left; eapply grown_mono; eassumption|right]. split; [|exact Re]. exists t, own, sh. split; [exact E|]. split; [exact M|]. split; [|auto].
    intros j Hj. specialize (Lo j Hj). lia.
  Qed.
  Lemma sprung_range h lo r x ids j : sprung h lo r x ids -> In j ids -> (lo <= j)%N /\ (j < next h)%N.
  Proof. intros [(t & (_ & _ & A) & Lo & _)|[(t & own & sh & E & M & Lo & _) _]] Hj; [split; [apply Lo, Hj|apply A, Hj]|apply Lo, Hj]. Qed.
  Lemma sprung_join h h1 h2 pre rs es F rs2 es2 F2 : ext h h1 -> ext h1 h2 -> apart (sprung h1 (next h)) rs (trails pre es) F -> apart (sprung h2 (next h1)) rs2 (trails (pre ++ es) es2) F2 ->
    apart (sprung h2 (next h)) (rs ++ rs2) (trails pre (es ++ es2)) (F ++ F2).
  Proof.
    intros X1 X2 A1 A2. assert (Q1 : forall j, In j F -> (j < next h1)%N). { eapply apart_all; [exact A1|]. intros x y js G j Hj. eapply sprung_range; eassumption. }
    assert (Q2 : forall j, In j F2 -> (next h1 <= j)%N). { eapply apart_all; [exact A2|]. intros x y js G j Hj. eapply sprung_range; eassumption. }
    rewrite trails_app. apply apart_app.
    - eapply apart_impl; [exact A1|]. intros x y js _ _ I G. eapply sprung_frame; [exact G|apply X2|]. intros j Hj. apply X2, Q1, I, Hj.
    - eapply apart_impl; [exact A2|]. intros x y js _ _ _. apply sprung_mono, X1.
    - intros j Hj K. specialize (Q1 j Hj). specialize (Q2 j K). lia.
  Qed.
  Lemma plants_sprung g h lo f pre0 rs ers F : apart (plants offset g h lo f) rs ers F -> (forall er, g er -> exists w, In w pre0 /\ keq w (f er) = true) ->
    forall pre, incl pre0 pre -> apart (sprung h lo) rs (trails pre (map f ers)) F.
  Proof.
    intros A Hg. induction A as [|r er ids rs ers jds H1 H2 IH D]; intros pre I; cbn [map trails]; constructor; auto.
    - destruct H1 as [(t & E & Lo & R & rids & T & J)|[G (t & own & sh & -> & M & Lo & R & T)]]; [left|right].
      + exists t. repeat (split; [assumption|]). apply J. eapply tree_top; exact T.
      + split; [exists t, own, sh; repeat (split; [auto; fail|]); apply in_app_iff; right; eapply tree_top; exact T|]. destruct (Hg er G) as (w & Hw & K). exists w. split; [apply I, Hw|exact K].
    - apply IH. intros z Hz. apply in_app_iff. left. apply I, Hz.
  Qed.

  (** ** roots *)
  Definition finished (h : heap) (r : ref) (x : kex * list kex) (ids : list ref) : Prop :=
    expression h r (fst x) ids \/ ((exists own sh, ids = own ++ sh /\ mixed offset h sh r (fst x) own /\ allocated h ids) /\ repeats x).
  Lemma finished_frame h h' r x ids : finished h r x ids -> (next h <= next h')%N -> (forall j, In j ids -> obj h' j = obj h j) -> finished h' r x ids.
  Proof.
    intros [E|[(own & sh & -> & M & A) Re]] N O; [left; eapply expression_frame; eassumption|right]. split; [|exact Re]. exists own, sh. split; [reflexivity|]. split.
    - eapply mx_frame; [exact M|]. intros j Hj. rewrite O by (apply in_app_iff; exact Hj). reflexivity.
    - intros j Hj. specialize (A j Hj). lia.
  Qed.
  Lemma finished_range h r x ids j : finished h r x ids -> In j ids -> (j < next h)%N.
  Proof. intros [(_ & _ & A)|[(own & sh & _ & _ & A) _]] Hj; apply A, Hj. Qed.
  Lemma ev_root h lo r e pre ids : sprung h lo r (e, pre) ids -> (forall w, In w (e :: pre) -> wf w) ->
    exists j h' ids', evaluates (fun n => let* o := get r in match root o with Some t => standardise offset n t | None => hfail end) h j h'
      /\ finished h' j (OpsModel.standardise offset e, map (OpsModel.standardise offset) pre) ids' /\ (forall q, In q ids' -> In q ids \/ (next h <= q)%N) /\ changes_within h h' ids.
  Proof.
    intros S W. assert (We : wf e) by (apply W; left; reflexivity). destruct S as [(t & E & Lo & Rr & Ir)|[(t & own & sh & -> & M & Lo & Rr & Ir) (w & Hw & K)]]; cbn [fst snd] in *.
    - destruct (ev_standardise (size e) e We (le_n _) h t ids E) as (j & h1 & ids1 & E1 & X1 & I1 & C1). exists j, h1, ids1.
      split; [eapply ev_bind; [apply ev_get|]; cbv beta; rewrite Rr; exact E1|]. split; [left; exact X1|]. split; [exact I1|exact C1].
    - destruct (mx_standardise offset sh (size e) e We (le_n _) h t own M) as (j & h1 & ids1 & E1 & X1 & A1 & I1 & C1); [intros q Hq; apply Lo, Hq|]. exists j, h1, (ids1 ++ sh).
      split; [eapply ev_bind; [apply ev_get|]; cbv beta; rewrite Rr; exact E1|]. split; [|split; [|exact C1]].
      + right. split; [exists ids1, sh; auto|]. exists (OpsModel.standardise offset w). split; [apply in_map, Hw|]. cbn [fst]. apply keq_spec, standardise_reord; [apply W; right; exact Hw|exact We|apply keq_spec, K].
      + intros q Hq. apply in_app_iff in Hq as [Hq|Hq]; [destruct (I1 q Hq); [left; apply in_app_iff; auto|auto]|left; apply in_app_iff; auto].
  Qed.
  Theorem ev_roots rs es F : forall pre h lo, apart (sprung h lo) rs (trails pre es) F -> (forall e, In e (pre ++ es) -> wf e) ->
    exists js h' F', evaluates (fun n => roots offset n rs) h js h' /\ apart (finished h') js (trails (map (OpsModel.standardise offset) pre) (map (OpsModel.standardise offset) es)) F'
      /\ (forall q, In q F' -> In q F \/ (next h <= q)%N) /\ changes_within h h' F.
  Proof.
    intros pre h lo H. revert pre h lo H. unfold roots. induction es as [|e es IH] in rs, F |- *; intros pre h lo Aa W; cbn [trails] in Aa; inversion Aa as [|r e0 ids rs2 es2 jds G A2 Dj]; subst.
    - exists [], h, []. split; [apply (ev_nil (fun n i => let* o := get i in match root o with Some r => standardise offset n r | None => hfail end))|]. split; [constructor|]. split; [intros q []|]. split; [lia|reflexivity].
    - destruct (ev_root h lo r e pre ids G) as (j & h1 & ids1 & E1 & X1 & I1 & [N1 O1]); [intros w [<-|Hw]; apply W, in_app_iff; [right; left; reflexivity|left; exact Hw]|].
      assert (Al : forall q, In q jds -> (q < next h)%N) by (eapply apart_all; [exact A2|]; intros x y js S q Hq; eapply sprung_range; eassumption).
      assert (A1 : apart (sprung h1 lo) rs2 (trails (pre ++ [e]) es) jds).
      { eapply apart_impl; [exact A2|]. intros x y js _ _ I S. eapply sprung_frame; [exact S|exact N1|]. intros q Hq. apply O1; [apply Al, I, Hq|]. intros K. exact (Dj q K (I q Hq)). }
      destruct (IH rs2 jds (pre ++ [e]) h1 lo A1) as (js & h2 & F2 & E2 & X2 & I2 & [N2 O2]); [rewrite <- app_assoc; exact W|].
      assert (Out : forall q, In q ids1 -> (q < next h1)%N /\ ~ In q jds).
      { intros q Hq. split; [eapply finished_range; eassumption|]. intros K. destruct (I1 q Hq) as [J|J]; [exact (Dj q J K)|specialize (Al q K); lia]. }
      exists (j :: js), h2, (ids1 ++ F2). split; [|split; [|split]].
      + eapply (ev_cons (fun n i => let* o := get i in match root o with Some r => standardise offset n r | None => hfail end)); [exact E1|exact E2].
      + cbn [map trails]. rewrite map_app in X2. constructor; [|exact X2|].
        * eapply finished_frame; [exact X1|exact N2|]. intros q Hq. apply O2; apply Out, Hq.
        * intros q Hq K. destruct (Out q Hq) as [Ha Hb]. destruct (I2 q K) as [J|J]; [contradiction|lia].
      + intros q Hq. apply in_app_iff in Hq as [Hq|Hq]; [destruct (I1 q Hq); [left; apply in_app_iff; auto|auto]|]. destruct (I2 q Hq); [left; apply in_app_iff; auto|right; lia].
      + split; [lia|]. intros q Hq Nq. rewrite in_app_iff in Nq. rewrite O2 by (tauto || lia). apply O1; tauto.
  Qed.

  (** ** The final unique: repetitions go *)
  Lemma unique_trails h rs es F : forall pre, apart (finished h) rs (trails pre es) F -> forall seen, (forall w, In w pre -> exists v, In v (map snd seen) /\ keq v w = true) ->
    exists F', apart (expression h) (map fst (unique_aux (fun a b : ref * kex => keq (snd a) (snd b)) seen (combine rs es))) (unique_aux keq (map snd seen) es) F' /\ incl F' F.
  Proof.
    induction es as [|e es IH] in rs, F |- *; intros pre Aa seen Hs; cbn [trails] in Aa; inversion Aa as [|r e0 ids rs2 es2 jds G A2 Dj]; subst; cbn [combine unique_aux map]; [exists []; split; [constructor|apply incl_refl]|].
    assert (Ex : existsb (fun s : ref * kex => keq (snd s) e) seen = existsb (fun s => keq s e) (map snd seen)) by (clear; induction seen as [|z seen IHs]; cbn; [reflexivity|rewrite IHs; reflexivity]).
    cbn [snd]. rewrite Ex. destruct (existsb _ (map snd seen)) eqn:Q.
    - apply existsb_exists in Q as (v & Hv & Kv). destruct (IH _ _ _ A2 seen) as (F' & A & I).
      { intros w Hw. apply in_app_iff in Hw as [Hw|[<-|[]]]; [apply Hs, Hw|]. exists v. auto. }
      exists F'. split; [exact A|]. intros j Hj. apply in_app_iff. right. apply I, Hj.
    - destruct G as [G|[_ (w & Hw & Kw)]]; cbn [fst snd] in *.
      + destruct (IH _ _ _ A2 (seen ++ [(r, e)])) as (F' & A & I).
        { intros w Hw. rewrite map_app. apply in_app_iff in Hw as [Hw|[<-|[]]]; [destruct (Hs w Hw) as (v & Hv & Kv); exists v; split; [apply in_app_iff; auto|exact Kv]|].
          exists e. split; [apply in_app_iff; right; left; reflexivity|apply keq_refl]. }
        rewrite map_app in A. cbn [map snd] in A. exists (ids ++ F'). split; [cbn [map fst]; constructor; [exact G|exact A|intros j Hj K; exact (Dj j Hj (I j K))]|].
        intros j Hj. apply in_app_iff. apply in_app_iff in Hj as [Hj|Hj]; auto.
      + exfalso. destruct (Hs w Hw) as (v & Hv & Kv). assert (E : existsb (fun s => keq s e) (map snd seen) = true) by (apply existsb_exists; exists v; split; [exact Hv|eapply keq_trans; eassumption]).
        rewrite E in Q. discriminate.
  Qed.
  Lemma finished_read h r x ids : finished h r x ids -> reads h r (fst x).
  Proof. intros [(T & _)|[(own & sh & _ & M & _) _]]; [eapply ev_read; exact T|eapply mx_read; exact M]. Qed.
  Lemma ev_unique_trails h rs es F : apart (finished h) rs (trails [] es) F ->
    exists rs' F', evaluates (fun n => unique_refs n rs) h rs' h /\ apart (expression h) rs' (unique keq es) F' /\ incl F' F.
  Proof.
    intros A. destruct (unique_trails h rs es F [] A []) as (F' & A' & I); [intros w []|]. exists (map fst (unique (fun a b : ref * kex => keq (snd a) (snd b)) (combine rs es))), F'. split; [|split; [exact A'|exact I]].
    unfold unique_refs. eapply ev_bind; [|apply ev_ret]. clear -A. generalize (@nil kex) as pre, A. clear A. induction es as [|e es IH] in rs, F |- *; intros pre Aa; cbn [trails] in Aa; inversion Aa as [|r e0 ids rs2 es2 jds G A2 Dj]; subst; [apply (ev_nil read)|].
    eapply (ev_cons read); [exact (finished_read _ _ _ _ G)|eapply IH; exact A2].
  Qed.

  (** ** expand *)
  Lemma named_wf rules : wf_rules (map (rule_of offset bases noC) rules).
  Proof.
    intros n new W (r & g & Hr & Hg & Hn). assert (Q : wf_rules (rules_all offset bases noC)) by (apply (groups_wf offset (rules_all offset)); left; reflexivity).
    apply (Q n new W). exists r, g. split; [|auto]. apply in_map_iff in Hr as (x & <- & _). destruct x; cbn [rule_of]; unfold rules_all; cbn [In]; tauto.
  Qed.
  Definition places (e : kex) : list place := (e, fun n => n, true) :: marks_below offset e.
  Lemma places_occs e : map fst (places e) = occs offset e.
  Proof. unfold places, occs. cbn [map fst]. rewrite marks_occs. reflexivity. Qed.
  Lemma places_covered e : covered [] (places e).
  Proof. cbn [places covered]. split; [discriminate|]. eapply covered_mono; [|apply marks_covered]. intros z []. Qed.
  Lemma ev_expand_nodes h i e ids rules : forall ss xs, Forall2 (fun s x => exists sids, site offset h i e ids s (fst (fst x)) (snd (fst x)) (snd x) sids) ss xs ->
    (forall x, In RemoveSomeTerm rules -> In x xs -> is_change (fst (fst x)) = true -> snd x = false -> normal offset (fst (fst x))) ->
    forall seen h1, ext h h1 -> covered seen xs ->
    exists ls h2 F, evaluates (fun n => hmap (expand_node offset bases noC n rules) ss) h1 ls h2 /\ ext h1 h2
      /\ apart (sprung h2 (next h1)) (concat ls) (trails (concat (map (group offset bases noC rules) seen)) (concat (map (group offset bases noC rules) xs))) F.
  Proof.
    intros ss xs Q. induction Q as [|s x ss xs (sids & Hs) Q IH]; intros Hr seen h1 X1 C.
    - exists [], h1, []. split; [apply (ev_nil (fun n => expand_node offset bases noC n rules))|]. split; [apply ext_refl|constructor].
    - destruct C as [C1 C2].
      destruct (ev_expand_node offset bases noC (In RemoveSomeTerm rules) h1 i e ids s (fst (fst x)) (snd (fst x)) (snd x) sids rules (site_ext _ _ _ _ _ _ _ _ _ _ _ X1 Hs) (fun K => K)) as (rs & h2 & F & E2 & X2 & A2).
      { intros HR Ch Cl. apply (Hr x HR (or_introl eq_refl) Ch Cl). }
      destruct (IH (fun y HR Hy => Hr y HR (or_intror Hy)) (seen ++ [x]) h2 (ext_trans _ _ _ X1 X2) C2) as (ls & h3 & F3 & E3 & X3 & A3). exists (rs :: ls), h3, (F ++ F3).
      split; [eapply (ev_cons (fun n => expand_node offset bases noC n rules)); eassumption|]. split; [eapply ext_trans; eassumption|]. cbn [map concat].
      rewrite map_app, concat_app in A3. cbn [map concat] in A3. rewrite app_nil_r in A3. eapply sprung_join; [exact X2|exact X3| |exact A3].
      eapply plants_sprung; [exact A2| |apply incl_refl]. intros er (HR & Cl & B). apply (group_cover offset bases noC rules seen x er (C1 Cl) HR B).
  Qed.
  Theorem ev_expand h i e ids rules : expression h i e ids -> wf e -> (In RemoveSomeTerm rules -> equal_changes_normal offset e) ->
    exists rs h' F, evaluates (fun n => expand offset bases noC n rules i) h rs h' /\ untouched h h'
      /\ apart (expression h') rs (OpsModel.expand offset (map (rule_of offset bases noC) rules) e) F /\ new_in h h' F.
  Proof.
    intros E0 W Hr. pose proof E0 as (T & (P & L & R) & A).
    destruct (ev_traverse offset e h i ids i T A L R) as (ss & h1 & E1 & X1 & Q1). pose proof (expression_ext _ _ _ _ _ X1 E0) as E0'.
    assert (Q : Forall2 (fun s x => exists sids, site offset h1 i e ids s (fst (fst x)) (snd (fst x)) (snd x) sids) (i :: ss) (places e)).
    { unfold places. constructor.
      - exists ids. pose proof E0' as (T' & (_ & L' & _) & A'). split; [exact E0'|]. split; [left; auto|]. split; [constructor; exact T'|split; [exact A'|exact L']].
      - eapply F2_impl; [|exact Q1]. intros s x (p & sids & Sp & Pa & Ro & G & Wh). exists sids. split; [exact E0'|]. split; [|exact G]. right.
        split; [|exists p; auto]. destruct Wh as [[_ N]|K]; [exact N|]. intros ->. assert (Z : (i < next h)%N) by (apply A; eapply tree_top; exact T). lia. }
    assert (Hn : forall x, In RemoveSomeTerm rules -> In x (places e) -> is_change (fst (fst x)) = true -> snd x = false -> normal offset (fst (fst x))).
    { intros x HR [<-|Hx] Ch Cl; [discriminate Cl|]. assert (Z : exists s, occurs offset (next h) h1 ids i e i s x).
      { clear -Q1 Hx. induction Q1 as [|s y ss ys H Q IH]; [destruct Hx|]. destruct Hx as [->|Hx]; [exists s; exact H|apply IH, Hx]. }
      destruct Z as (s & p & sids & Sp & _). eapply spot_normal; [exact Sp|apply Hr, HR|exact Cl|exact Ch]. }
    destruct (ev_expand_nodes h1 i e ids rules _ _ Q Hn [] h1 (ext_refl h1) (places_covered e)) as (ls & h2 & F & E2 & X2 & A2).
    set (es := concat (map (group offset bases noC rules) (places e))) in *. cbn [map concat] in A2.
    assert (Ee : es = concat (map (fun nf => map (snd nf) (OpsModel.expand_node (map (rule_of offset bases noC) rules) (fst nf))) (occs offset e))) by (unfold es; rewrite <- places_occs, map_map; reflexivity).
    assert (We : forall x, In x es -> wf x).
    { intros x Hx. rewrite Ee in Hx. apply in_concat in Hx as (l & Hl & Hx). apply in_map_iff in Hl as ([n f] & <- & Hnf). cbn [fst snd] in Hx. apply in_map_iff in Hx as (new & <- & Hnew). apply in_expand_node in Hnew.
      destruct (occs_sound offset e n f Hnf) as (p & Ha & Hf). destruct (Hf new) as (t & _ & _ & HW). apply HW; [exact W|]. eapply named_wf; [|exact Hnew]. eapply at_addr_wf; eauto. }
    destruct (ev_roots _ _ _ [] h2 (next h1) A2 We) as (js & h3 & F3 & E3 & A3 & I3 & [N3 O3]). cbn [map] in A3.
    destruct (ev_unique_trails h3 _ _ _ A3) as (rs & F4 & E4 & A4 & I4).
    assert (LoF : forall j, In j F -> (next h1 <= j)%N) by (eapply apart_all; [exact A2|]; intros x y ks S j Hj; eapply sprung_range; eassumption).
    exists rs, h3, F4. split; [|split; [|split]].
    - unfold expand. eapply ev_bind; [exact E1|]. cbv beta. eapply ev_bind; [exact E2|]. cbv beta. eapply ev_bind; [exact E3|]. exact E4.
    - intros j Hj. destruct X1 as [K1 U1], X2 as [K2 U2]. rewrite O3; [rewrite U2 by lia; apply U1, Hj|lia|]. intros K. specialize (LoF j K). lia.
    - rewrite Ee in A4. exact A4.
    - intros j Hj. apply I4 in Hj. split.
      + destruct X1 as [K1 U1], X2 as [K2 U2]. destruct (I3 j Hj) as [K|K]; [specialize (LoF j K); lia|lia].
      + assert (Al : forall q, In q F3 -> (q < next h3)%N) by (eapply apart_all; [exact A3|]; intros x y ks S q Hq; eapply finished_range; eassumption). apply Al, Hj.
  Qed.
End Main.

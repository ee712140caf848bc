(** Lemmas for C19: the trees with a shared part that arise when a branch of a Change replaces it though an earlier term is equal to it. *)
From Coq Require Import List Bool Arith ZArith NArith Lia Permutation.
From Verif Require Import Py UtilModel KexModel KexSpec KexProofs KexSimp KexCong OpsModel HeapModel HeapSpec HeapBase HeapSimp HeapSimp2 HeapNew HeapOps HeapOps2 HeapRepl HeapMix.
Import ListNotations.

Definition changes_within (h h' : heap) (F : list ref) : Prop := (next h <= next h')%N /\ forall j, (j < next h)%N -> ~ In j F -> obj h' j = obj h j.
Lemma within_trans2 a b c F G : changes_within a b F -> changes_within b c G -> (forall j, In j G -> In j F \/ (next a <= j)%N) -> changes_within a c F.
Proof.
  intros [N1 O1] [N2 O2] I. split; [lia|]. intros j Hj Nj. rewrite O2; [apply O1; assumption|lia|]. intros K. destruct (I j K); [contradiction|lia].
Qed.

Section Spoil.
  Context (offset : bool).
  Notation mixed := (mixed offset).

  (** ** set_root *)
  Definition silent (h h' : heap) (F : list ref) : Prop := next h' = next h /\ (forall j, data (obj h' j) = data (obj h j)) /\ forall j, ~ In j F -> obj h' j = obj h j.
  Lemma silent_refl h F : silent h h F. Proof. repeat split. Qed.
  Lemma silent_trans a b c F G H : silent a b F -> silent b c G -> incl F H -> incl G H -> silent a c H.
  Proof. intros (N1 & D1 & O1) (N2 & D2 & O2) I J. split; [congruence|]. split; [intros j; rewrite D2; apply D1|]. intros j Hj. rewrite O2 by (intros K; apply Hj, J, K). apply O1. intros K. apply Hj, I, K. Qed.
  Lemma silent_incl a b F G : silent a b F -> incl F G -> silent a b G.
  Proof. intros S I. eapply silent_trans; [exact S|apply silent_refl|exact I|exact I]. Qed.
  Lemma rerooted_silent h h' ids r : rerooted h h' ids r -> silent h h' ids.
  Proof. intros R. pose proof R as (N & _ & O). split; [exact N|]. split; [eapply rerooted_data; exact R|exact O]. Qed.
  Lemma silent_upd h i o : data o = data (obj h i) -> silent h (upd h i o) [i].
  Proof.
    intros D. split; [reflexivity|]. split; intros j; [destruct (N.eq_dec j i) as [->|N]; [rewrite upd_same; exact D|rewrite upd_other by exact N; reflexivity]|].
    intros Hj. apply upd_other. intros ->. apply Hj. left. reflexivity.
  Qed.
  Lemma mx_set_root_some S r e : forall h i ids, mixed h S i e ids -> exists h', evaluates (fun n => set_root n i (Some r)) h tt h' /\ silent h h' (ids ++ S).
  Proof.
    induction e as [k bts es IH|o l r0 IHl IHr] using kex_ind'; intros h i ids T;
      inversion T as [i0 e0 js T0 I0 N0 S0|i0 k0 b0 cs es0 F D Aa Hi HS|i0 c0 l0 r1 l' r' F G D Bl Br Dj Hi HS]; subst;
      try (destruct (ev_set_root_some _ h i js r T0) as (h' & E & R); exists h'; split; [exact E|]; eapply silent_incl; [eapply rerooted_silent; exact R|exact I0]);
      set (h1 := upd h i (Obj (Some r) (parent (obj h i)) (data (obj h i)))); (assert (S1 : silent h h1 [i]) by (apply silent_upd; reflexivity)).
    - assert (Q : exists h2 us, evaluates (fun n => hmap (fun c => set_root n c (Some r)) cs) h1 us h2 /\ silent h1 h2 (F ++ S)).
      { assert (A1 : apart (mixed h1 S) cs es F) by (eapply mxs_frame; [exact Aa|]; intros j _; apply S1). clear -IH A1. clearbody h1. revert cs F h1 A1.
        induction es as [|y es IHe]; intros cs F h1 A1; inversion A1 as [|x y0 ids xs ys jds T1 A2 Dj]; subst.
        - exists h1, []. split; [apply (ev_nil (fun n c => set_root n c (Some r)))|apply silent_refl].
        - destruct (IH y (or_introl eq_refl) h1 x ids T1) as (h2 & E2 & S2). destruct (IHe (fun c Hc => IH c (or_intror Hc)) xs jds h2) as (h3 & us & E3 & S3); [eapply mxs_frame; [exact A2|]; intros j _; apply S2|].
          exists h3, (tt :: us). split; [eapply (ev_cons (fun n c => set_root n c (Some r))); eassumption|]. eapply silent_trans; [exact S2|exact S3| |]; intros j; rewrite !in_app_iff; tauto. }
      destruct Q as (h2 & us & E2 & S2). exists h2. split; [|eapply silent_trans; [exact S1|exact S2| |]; [intros j [<-|[]]; left; reflexivity|intros j Hj; right; exact Hj]].
      apply ev_step. cbn [set_root]. eapply ev_bind; [apply ev_get|]. cbv beta. eapply ev_bind; [apply ev_put|]. cbv beta. fold h1. rewrite D. eapply ev_bind; [exact E2|apply ev_ret].
    - assert (Ql : exists h2 u, evaluates (fun n => hbranch (fun c => set_root n c (Some r)) l0) h1 u h2 /\ silent h1 h2 (F ++ S)).
      { inversion Bl as [b|x ex js Tx]; subst; cbn [hbranch]; [exists h1; eexists; split; [apply ev_ret|apply silent_refl]|].
        destruct (IHl ex eq_refl h1 x F) as (h2 & E2 & S2); [eapply mx_frame; [exact Tx|]; intros j _; apply S1|]. exists h2. eexists. split; [eapply ev_bind; [exact E2|apply ev_ret]|exact S2]. }
      destruct Ql as (h2 & u & E2 & S2).
      assert (Qr : exists h3 u', evaluates (fun n => hbranch (fun c => set_root n c (Some r)) r1) h2 u' h3 /\ silent h2 h3 (G ++ S)).
      { inversion Br as [b|x ex js Tx]; subst; cbn [hbranch]; [exists h2; eexists; split; [apply ev_ret|apply silent_refl]|].
        destruct (IHr ex eq_refl h2 x G) as (h3 & E3 & S3); [eapply mx_frame; [exact Tx|]; intros j _; destruct S2 as (_ & D2 & _); rewrite D2; apply S1|]. exists h3. eexists. split; [eapply ev_bind; [exact E3|apply ev_ret]|exact S3]. }
      destruct Qr as (h3 & u' & E3 & S3). exists h3. split.
      + apply ev_step. cbn [set_root]. eapply ev_bind; [apply ev_get|]. cbv beta. eapply ev_bind; [apply ev_put|]. cbv beta. fold h1. rewrite D. eapply ev_bind; [exact E2|]. cbv beta. eapply ev_bind; [exact E3|]. apply ev_ret.
      + eapply silent_trans; [exact S1|eapply (silent_trans _ _ _ _ _ ((F ++ G) ++ S)); [exact S2|exact S3| |]| |]; intros j; cbn [In app]; rewrite ?in_app_iff; tauto.
  Qed.
  Lemma mx_set_root S r e h i ids : mixed h S i e ids -> exists h', evaluates (fun n => set_root n i r) h tt h' /\ silent h h' (ids ++ S).
  Proof.
    intros T. destruct r as [r|]; [apply (mx_set_root_some _ _ _ _ _ _ T)|]. destruct (mx_set_root_some _ i _ _ _ _ T) as (h' & [n0 E] & R). exists h'. split; [|exact R].
    exists n0. intros n Hn. rewrite <- (E n Hn). destruct n; reflexivity.
  Qed.

  (** ** standardise_singleton_root *)
  Theorem mx_standardise S m : forall e, wf e -> (size e <= m)%nat -> forall h t ids, mixed h S t e ids -> allocated h (ids ++ S) ->
    exists j h' ids', evaluates (fun n => standardise offset n t) h j h' /\ mixed h' S j (OpsModel.standardise offset e) ids' /\ allocated h' (ids' ++ S)
      /\ (forall q, In q ids' -> In q ids \/ (next h <= q)%N) /\ changes_within h h' (ids ++ S).
  Proof.
    induction m as [|m IH]; intros e W Hs h t ids T A; [pose proof (size_pos e); lia|].
    destruct (mx_simplify offset S e h t ids T) as (h1 & ids1 & E1 & T1 & I1 & (N1 & R1 & O1) & D1).
    assert (A1 : allocated h1 (ids1 ++ S)) by (intros q Hq; rewrite N1; apply A; apply in_app_iff in Hq as [Hq|Hq]; apply in_app_iff; auto).
    assert (C1 : changes_within h h1 (ids ++ S)) by (split; [lia|intros j _; apply O1]).
    assert (Stay : evaluates (fun _ => extract t) h1 (inr t) h1 -> OpsModel.standardise offset e = KexModel.simplify offset e ->
      exists j h' ids', evaluates (fun n => standardise offset n t) h j h' /\ mixed h' S j (OpsModel.standardise offset e) ids' /\ allocated h' (ids' ++ S)
        /\ (forall q, In q ids' -> In q ids \/ (next h <= q)%N) /\ changes_within h h' (ids ++ S)).
    { intros Ex ->. exists t, h1, ids1. split; [|split; [exact T1|split; [exact A1|split; [intros q Hq; left; apply I1, Hq|exact C1]]]].
      apply ev_step. cbn [standardise]. eapply ev_bind; [exact E1|]. cbv beta. eapply ev_bind; [exact Ex|]. cbv beta iota. rewrite N.eqb_refl. apply ev_ret. }
    pose proof (standardise_unfold offset e W) as U. pose proof (simplify_wf offset e W) as Ws. pose proof (simplify_size offset e) as Hz.
    remember (KexModel.simplify offset e) as se eqn:Es. clear Es.
    inversion T1 as [i0 e0 js T0 I0 N0 S0 Ei Ee|i0 k bts cs cts F D Aa Hi HS Ei Ee|i0 o l0 r0 l' r' F G D Bl Br Dj Hi HS Ei Ee]; subst ids1 i0; [clear Ee e0|subst se|subst se].
    - apply Stay.
      + eapply ev_extract_self; [exact T0|apply (normal_wf_top _ _ N0)|exact S0].
      + clear -U Ws S0. destruct se as [k bts cts|o l r]; [|exact U]. apply wf_comm in Ws as [Wb Wc]. rewrite singleton_comm in S0.
        assert (Z : is_singleton bts cts = false) by (destruct (is_singleton bts cts) eqn:Z; [apply is_singleton_spec in Z; [contradiction|exact Wb]|reflexivity]).
        destruct (extract_spec k bts cts Wb) as [(b & -> & -> & Ex)|[(c & -> & -> & Ex)|(Nt & Ex)]]; [discriminate Z|discriminate Z|]. rewrite Ex, Z in U. exact U.
    - apply wf_comm in Ws as [Wb Wc].
      destruct (extract_spec k bts cts Wb) as [(b & -> & -> & Ex)|[(c & -> & -> & Ex)|(Nt & Ex)]]; rewrite Ex in U.
      + (* a lone base kernel *)
        inversion Aa; subst. destruct (makes_leaf offset h1 KSum [b]) as (s & h2 & E2 & (X2 & F2 & T2 & R2 & L2 & P2)). destruct (ev_set_root h2 s _ F2 None T2) as (h3 & E3 & R3). pose proof R3 as (N3 & I3 & O3).
        assert (Ds : disjoint F2 S) by (intros j Hj K; apply R2 in Hj; specialize (A1 j); rewrite in_app_iff in A1; specialize (A1 (or_intror K)); lia).
        exists s, h3, F2. rewrite U. split; [|split; [|split; [|split]]].
        * apply ev_step. cbn [standardise]. eapply ev_bind; [exact E1|]. cbv beta. eapply (ev_bind (fun _ => extract t) _ h1 (inl b) h1).
          -- unfold extract. eapply ev_bind; [apply ev_get|]. cbv beta. rewrite D. apply ev_ret.
          -- cbv beta iota. eapply ev_bind; [exact E2|]. cbv beta. eapply ev_bind; [exact E3|]. apply ev_ret.
        * apply tree_mixed; [|exact Ds]. eapply tree_frame; [exact T2|intros j _; eapply rerooted_data; exact R3].
        * intros j Hj. rewrite N3. apply in_app_iff in Hj as [Hj|Hj]; [apply R2, Hj|]. specialize (A1 j). rewrite in_app_iff in A1. specialize (A1 (or_intror Hj)). destruct X2. lia.
        * intros q Hq. right. apply R2 in Hq. lia.
        * split; [rewrite N3; destruct X2; lia|]. intros j Hj Nj. rewrite O3 by (intros K; apply R2 in K; lia). rewrite (proj2 X2) by lia. apply O1, Nj.
      + (* a lone composite *)
        assert (Z : is_singleton [] [c] = true) by reflexivity. rewrite Z in U. inversion Aa as [|x y0 jd xs ys jds Tc A2 Dj]; subst. inversion A2; subst. rewrite app_nil_r in *.
        set (h2 := upd h1 x (Obj (root (obj h1 x)) (parent (obj h1 t)) (data (obj h1 x)))). assert (S2 : silent h1 h2 [x]) by (apply silent_upd; reflexivity).
        set (h3 := upd h2 x (Obj (root (obj h2 x)) None (data (obj h2 x)))). assert (S3 : silent h2 h3 [x]) by (apply silent_upd; reflexivity).
        assert (D3 : forall j, data (obj h3 j) = data (obj h1 j)) by (intros j; destruct S3 as (_ & Q3 & _); rewrite Q3; apply S2).
        assert (T3 : mixed h3 S x c jd) by (eapply mx_frame; [exact Tc|intros j _; apply D3]). assert (Hx : In x (jd ++ S)) by (apply in_app_iff; eapply mx_top; exact Tc).
        destruct (mx_set_root S None c h3 x jd T3) as (h4 & E4 & S4).
        assert (S14 : silent h1 h4 (jd ++ S)).
        { eapply silent_trans; [eapply silent_trans; [exact S2|exact S3|apply incl_refl|apply incl_refl]|exact S4|intros j [<-|[]]; exact Hx|apply incl_refl]. }
        pose proof S14 as (N4 & D4 & O4). assert (T4 : mixed h4 S x c jd) by (eapply mx_frame; [exact Tc|intros j _; apply D4]).
        assert (In4 : forall j, In j (jd ++ S) -> In j (ids ++ S)) by (intros j Hj; apply in_app_iff in Hj as [Hj|Hj]; apply in_app_iff; [left; apply I1; right; exact Hj|auto]).
        rewrite size_comm in Hz. unfold sizes in Hz. cbn [map list_sum fold_right] in Hz.
        destruct (IH c (Wc c (or_introl eq_refl)) ltac:(lia) h4 x jd T4) as (j & h5 & ids5 & E5 & T5 & A5 & I5 & C5); [intros q Hq; rewrite N4, N1; apply A, In4, Hq|].
        exists j, h5, ids5. rewrite U. split; [|split; [exact T5|split; [exact A5|split]]].
        * apply ev_step. cbn [standardise]. eapply ev_bind; [exact E1|]. cbv beta. eapply (ev_bind (fun _ => extract t) _ h1 (inr x) h2).
          -- unfold extract. eapply ev_bind; [apply ev_get|]. cbv beta. rewrite D. cbn [csum fold_left map length Nat.eqb andb Z.eqb]. eapply ev_bind; [apply ev_set_parent|]. apply ev_ret.
          -- cbv beta iota. destruct (N.eqb_spec x t) as [->|Nx]; [exfalso; apply in_app_iff in Hx as [Hx|Hx]; contradiction|]. eapply ev_bind; [apply ev_set_parent|]. cbv beta. fold h3. eapply ev_bind; [exact E4|]. exact E5.
        * intros q Hq. destruct (I5 q Hq) as [K|K]; [left; apply I1; right; exact K|right; rewrite N4 in K; lia].
        * eapply within_trans2; [|exact C5|intros q Hq; left; apply In4, Hq]. split; [lia|]. intros q Hq Nq. rewrite O4 by (intros K; apply Nq, In4, K). apply O1, Nq.
      + assert (Z : is_singleton bts cts = false). { destruct (is_singleton bts cts) eqn:Z; [|reflexivity]. apply is_singleton_spec in Z; [contradiction|exact Wb]. }
        rewrite Z in U. apply Stay; [|exact U]. eapply ev_extract_comm; [exact D|eapply apart_length; exact Aa|exact Wb|]. rewrite singleton_comm. intros K. apply is_singleton_spec in K; [congruence|exact Wb].
    - apply Stay; [|exact U]. unfold extract. eapply ev_bind; [apply ev_get|]. cbv beta. rewrite D. apply ev_ret.
  Qed.

  (** ** reassign_child *)
  Lemma first_true {A} (p : A -> bool) l : existsb p l = true -> exists a x b, l = a ++ x :: b /\ p x = true /\ forall y, In y a -> p y = false.
  Proof.
    induction l as [|y l IH]; cbn [existsb]; [discriminate|]. destruct (p y) eqn:E; [intros _; exists [], y, l; split; [reflexivity|split; [exact E|intros z []]]|].
    intros H. destruct (IH H) as (a & x & b & -> & Px & Na). exists (y :: a), x, b. split; [reflexivity|]. split; [exact Px|]. intros z [<-|Hz]; auto.
  Qed.
  (** [r] is a branch of the Change [s]. *)
  Definition branch_ref (h : heap) (s r : ref) (en er : kex) : Prop :=
    exists o l rr l' r', data (obj h s) = BChange o l rr /\ en = Change o l' r' /\ ((l = inr r /\ l' = inr er) \/ (rr = inr r /\ r' = inr er)).
  Lemma branch_ref_tree h s r en er sids : tree_at h s en sids -> branch_ref h s r en er -> exists rids, tree_at h r er rids /\ incl rids sids /\ ~ In s rids.
  Proof.
    intros T (o & l & rr & l' & r' & D & -> & B). inversion T as [|i0 c0 l0 r0 l1 r1 F G D0 Bl Br Dj Hi]; subst. rewrite D in D0. injection D0 as <- <-.
    destruct B as [[-> ->]|[-> ->]]; [inversion Bl as [|x ex js Tx]|inversion Br as [|x ex js Tx]]; subst;
      [exists F|exists G]; (split; [exact Tx|split; [intros j Hj; right; apply in_app_iff; auto|intros K; apply Hi, in_app_iff; auto]]).
  Qed.
  (** The Change with one branch shared *)
  Lemma mx_spoilt h s en sids r er rids : tree_at h s en sids -> branch_ref h s r en er -> tree_at h r er rids -> normal offset er -> ~ singleton er ->
    exists js, mixed h rids s en js /\ incl js sids.
  Proof.
    intros T B Tr Ne Se. destruct (branch_ref_tree _ _ _ _ _ _ T B) as (rids' & Tr' & I' & Ns). destruct (tree_det _ _ _ _ _ _ Tr Tr') as [_ ->].
    destruct B as (o & l & rr & l' & r' & D & -> & B). inversion T as [|i0 c0 l0 r0 l1 r1 F G D0 Bl Br Dj Hi]; subst. rewrite D in D0. injection D0 as <- <-.
    assert (Sh : mixed h rids r er []) by (eapply mx_shared; [exact Tr|apply incl_refl|exact Ne|exact Se]).
    destruct B as [[-> ->]|[-> ->]].
    - inversion Bl as [|x ex js Tx]; subst. destruct (tree_det _ _ _ _ _ _ Tr Tx) as [_ ->]. exists (s :: [] ++ G). split; [|intros j [<-|Hj]; [left; reflexivity|right; apply in_app_iff; auto]].
      econstructor; [exact D|constructor; exact Sh| |intros j []|intros K; apply Hi, in_app_iff; auto|exact Ns].
      inversion Br; subst; constructor. apply tree_mixed; [assumption|]. intros j Hj K. exact (Dj j K Hj).
    - inversion Br as [|x ex js Tx]; subst. destruct (tree_det _ _ _ _ _ _ Tr Tx) as [_ ->]. exists (s :: F ++ []). split; [|rewrite app_nil_r; intros j [<-|Hj]; [left; reflexivity|right; apply in_app_iff; auto]].
      econstructor; [exact D| |constructor; exact Sh|intros j _ []|rewrite app_nil_r; intros K; apply Hi, in_app_iff; auto|exact Ns].
      inversion Bl; subst; constructor. apply tree_mixed; [assumption|]. exact Dj.
  Qed.
  Theorem spoil h i e s en f p cl : spot offset h i e s en f p cl -> cl = false -> forall ids r er rids, tree_at h i e ids -> branch_ref h s r en er -> tree_at h r er rids ->
    normal offset er -> ~ singleton er ->
    exists b ids', evaluates (fun n => reassign_child n p s r) h r (written h p b) /\ mixed (written h p b) rids i (f er) ids' /\ incl ids' ids /\ incl rids ids /\ In p ids /\ ~ In p rids.
  Proof.
    induction 1 as [i k bts cs es m c ec Di Hc He|i k bts cs es m c ec s en f p cl Di Hc He Sp IH|i o x r0 ex r' Di|i o x r0 ex r' s en f p cl Di Sp IH|i o b r0 r' s Di|i o l x l' ex Di|i o l x l' ex s en f p cl Di Sp IH|i o l b l' s Di Nl];
      intros Hcl ids r er rids T B Tr Ne Se; try discriminate.
    - apply negb_false_iff in Hcl. apply nth_error_at in He as (p1 & p2 & -> & <-). rewrite firstn_app, firstn_all, Nat.sub_diag in Hcl. cbn [firstn] in Hcl. rewrite app_nil_r in Hcl.
      apply first_true in Hcl as (A & x & M & -> & Kx & NA). inversion T as [i0 k0 b0 cs0 es0 F D Aa Hi|]; subst. rewrite Di in D. injection D as <-.
      destruct (apart_at _ _ _ _ _ _ Aa) as (pre0 & c' & post & a0 & cx & b & -> & Len & H0 & Tc & Hb & -> & D1 & D2). rewrite <- Len, nth_error_mid in Hc. injection Hc as ->.
      destruct (apart_at _ _ _ _ _ _ H0) as (pre & c2 & mid & a & c2x & am & -> & Len2 & Ha & Tx & Hm & -> & D3 & D4).
      destruct (mx_spoilt h c ec cx r er rids Tc B Tr Ne Se) as (js & Mc & Ij).
      destruct (branch_ref_tree _ _ _ _ _ _ Tc B) as (rids' & Tr' & I' & Ns). destruct (tree_det _ _ _ _ _ _ Tr Tr') as [_ ->].
      assert (Iall : forall j, In j a \/ In j c2x \/ In j am \/ In j cx \/ In j b -> In j ((a ++ c2x ++ am) ++ cx ++ b)) by (intros j Hj; rewrite !in_app_iff; tauto).
      assert (Da : disjoint a rids) by (intros j Hj K; apply (D1 j); rewrite !in_app_iff; auto).
      assert (Dm : disjoint am rids) by (intros j Hj K; apply (D1 j); rewrite !in_app_iff; auto).
      assert (Db : disjoint b rids) by (intros j Hj K; exact (D2 j (I' j K) Hj)).
      assert (Nir : ~ In i rids) by (intros K; apply Hi, Iall; right; right; right; left; apply I', K).
      set (bd := BComm k bts ((pre ++ mid ++ c :: post) ++ [r])). set (G := (a ++ am ++ js ++ b) ++ []).
      assert (IG : forall j, In j G -> In j ((a ++ c2x ++ am) ++ cx ++ b)).
      { intros j. unfold G. rewrite app_nil_r, !in_app_iff. intros [Hj|[Hj|[Hj|Hj]]]; auto. }
      exists bd, (i :: G). split; [|split; [|split; [|split; [|split]]]].
      + unfold reassign_child. eapply ev_bind; [apply ev_get|]. cbv beta. rewrite Di. eapply (ev_bind (fun n => remove n c ((pre ++ c2 :: mid) ++ c :: post)) _ h (pre ++ mid ++ c :: post) h).
        * rewrite <- app_assoc. cbn [app]. eapply (ev_remove h c ec pre c2 (mid ++ c :: post) A x (M ++ ec :: p2)); [exists cx; exact Tc|eapply F2_trees; exact Ha|exists c2x; exact Tx|exact Kx|exact NA|].
          apply Forall2_app; [eapply F2_trees; exact Hm|constructor; [exists cx; exact Tc|eapply F2_trees; exact Hb]].
        * cbv beta. eapply ev_bind; [apply ev_set_data|]. apply ev_ret.
      + unfold remove_eq. rewrite <- (app_assoc A). cbn [app]. rewrite remove_skip by assumption.
        econstructor; [apply written_same| |intros K; apply Hi, IG, K|exact Nir].
        eapply mxs_frame; [|intros j Hj; apply written_other; intros ->; destruct Hj as [Hj|Hj]; [apply Hi, IG, Hj|contradiction]].
        apply apart_app; [|apply apart_one; eapply mx_shared; [exact Tr|apply incl_refl|exact Ne|exact Se]|intros j _ []].
        assert (Dx : disjoint js b) by (intros j Hj; apply D2, Ij, Hj).
        apply apart_app; [apply trees_mixed; assumption|apply apart_app; [apply trees_mixed; assumption|constructor; [exact Mc|apply trees_mixed; assumption|exact Dx]|]|].
        * intros j Hj K. apply (D1 j); rewrite !in_app_iff in *; [auto|]. destruct K as [K|K]; auto.
        * intros j Hj K. rewrite !in_app_iff in K. destruct K as [K|[K|K]]; [apply (D3 j Hj), in_app_iff; auto| |]; apply (D1 j); rewrite !in_app_iff; auto.
      + intros j [<-|Hj]; [left; reflexivity|right; apply IG, Hj].
      + intros j Hj. right. apply Iall. right. right. right. left. apply I', Hj.
      + left. reflexivity.
      + exact Nir.
    - inversion T as [i0 k0 b0 cs0 es0 F D Aa Hi|]; subst. rewrite Di in D. injection D as <-.
      apply nth_error_at in He as (pre' & post' & -> & <-). destruct (apart_at _ _ _ _ _ _ Aa) as (pre & c' & post & a & cx & b & -> & Len & Ha & Tc & Hb & -> & D1 & D2).
      rewrite <- Len, nth_error_mid in Hc. injection Hc as ->. destruct (IH eq_refl cx r er rids Tc B Tr Ne Se) as (bd & ids1 & E1 & M1 & I1 & J1 & Hp & Np).
      assert (Nip : i <> p) by (intros ->; apply Hi; rewrite !in_app_iff; auto). assert (Nir : ~ In i rids) by (intros K; apply Hi; rewrite !in_app_iff; auto).
      assert (Sub : forall j, In j (a ++ ids1 ++ b) -> In j (a ++ cx ++ b)) by (intros j; rewrite !in_app_iff; intros [Hj|[Hj|Hj]]; auto).
      exists bd, (i :: a ++ ids1 ++ b). split; [exact E1|]. split; [|split; [intros j [<-|Hj]; [left; reflexivity|right; apply Sub, Hj]|split; [intros j Hj; right; rewrite !in_app_iff; auto|split; [right; rewrite !in_app_iff; auto|exact Np]]]].
      unfold set_nth. rewrite firstn_app, Nat.sub_diag, firstn_all. cbn [firstn]. rewrite app_nil_r.
      replace (skipn (S (length pre')) (pre' ++ ec :: post')) with post' by (rewrite skipn_app, skipn_all2 by lia; replace (S (length pre') - length pre') with 1 by lia; reflexivity).
      econstructor; [rewrite written_other by exact Nip; exact Di| |intros K; apply Hi, Sub, K|exact Nir].
      apply apart_app; [|constructor|].
      + apply trees_mixed; [eapply apart_frame; [exact Ha|]; intros j Hj; apply written_other; intros ->; apply (D1 p Hj), in_app_iff; auto|]. intros j Hj K. apply (D1 j Hj), in_app_iff. auto.
      + exact M1.
      + apply trees_mixed; [eapply apart_frame; [exact Hb|]; intros j Hj; apply written_other; intros ->; exact (D2 p Hp Hj)|]. intros j Hj K. exact (D2 j (J1 j K) Hj).
      + intros j Hj. apply D2, I1, Hj.
      + intros j Hj K. apply (D1 j Hj). apply in_app_iff in K as [K|K]; apply in_app_iff; auto.
    - inversion T as [|i0 c0 l0 r1 l1 r2 F G D Bl Br Dj Hi]; subst. rewrite Di in D. injection D as <- <-. inversion Bl as [|x0 e0 F0 Tx]; subst.
      destruct (IH eq_refl F r er rids Tx B Tr Ne Se) as (bd & ids1 & E1 & M1 & I1 & J1 & Hp & Np).
      assert (Nip : i <> p) by (intros ->; apply Hi, in_app_iff; auto). assert (Nir : ~ In i rids) by (intros K; apply Hi, in_app_iff; auto).
      assert (Sub : forall j, In j (ids1 ++ G) -> In j (F ++ G)) by (intros j; rewrite !in_app_iff; intros [Hj|Hj]; auto).
      exists bd, (i :: ids1 ++ G). split; [exact E1|]. split; [|split; [intros j [<-|Hj]; [left; reflexivity|right; apply Sub, Hj]|split; [intros j Hj; right; rewrite !in_app_iff; auto|split; [right; rewrite !in_app_iff; auto|exact Np]]]].
      econstructor; [rewrite written_other by exact Nip; exact Di|constructor; exact M1| |intros j Hj; apply Dj, I1, Hj|intros K; apply Hi, Sub, K|exact Nir].
      inversion Br; subst; constructor. apply tree_mixed; [eapply tree_frame; [eassumption|]; intros j Hj; apply written_other; intros ->; exact (Dj p Hp Hj)|]. intros j Hj K. exact (Dj j (J1 j K) Hj).
    - inversion T as [|i0 c0 l0 r1 l1 r2 F G D Bl Br Dj Hi]; subst. rewrite Di in D. injection D as <- <-. inversion Br as [|x0 e0 F0 Tx]; subst.
      destruct (IH eq_refl G r er rids Tx B Tr Ne Se) as (bd & ids1 & E1 & M1 & I1 & J1 & Hp & Np).
      assert (Nip : i <> p) by (intros ->; apply Hi, in_app_iff; auto). assert (Nir : ~ In i rids) by (intros K; apply Hi, in_app_iff; auto).
      assert (Sub : forall j, In j (F ++ ids1) -> In j (F ++ G)) by (intros j; rewrite !in_app_iff; intros [Hj|Hj]; auto).
      exists bd, (i :: F ++ ids1). split; [exact E1|]. split; [|split; [intros j [<-|Hj]; [left; reflexivity|right; apply Sub, Hj]|split; [intros j Hj; right; rewrite !in_app_iff; auto|split; [right; rewrite !in_app_iff; auto|exact Np]]]].
      econstructor; [rewrite written_other by exact Nip; exact Di| |constructor; exact M1|intros j Hj K; exact (Dj j Hj (I1 j K))|intros K; apply Hi, Sub, K|exact Nir].
      inversion Bl; subst; constructor. apply tree_mixed; [eapply tree_frame; [eassumption|]; intros j Hj; apply written_other; intros ->; exact (Dj p Hj Hp)|]. intros j Hj K. exact (Dj j Hj (J1 j K)).
  Qed.
End Spoil.

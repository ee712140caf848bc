(** Lemmas for C19: deep copies and constructors. *)
From Coq Require Import List Bool Arith ZArith NArith Lia Permutation.
From Verif Require Import Py UtilModel KexModel KexSpec KexProofs KexSimp OpsModel HeapModel HeapSpec HeapBase HeapSimp HeapSimp2.
Import ListNotations.

(** ** deepcopy *)
Definition doubled (h : heap) : heap :=
  Heap (N.add (next h) (next h)) (fun j => if N.ltb j (next h) then obj h j else shift (next h) (obj h (N.sub j (next h)))).
Lemma ev_deepcopy h : evaluates (fun _ => deepcopy) h (next h) (doubled h). Proof. apply ev_const. reflexivity. Qed.
Lemma doubled_ext h : ext h (doubled h).
Proof. split; [cbn; lia|]. intros j Hj. cbn. destruct (N.ltb_spec j (next h)); [reflexivity|lia]. Qed.
Lemma doubled_copy h i : obj (doubled h) (next h + i)%N = shift (next h) (obj h i).
Proof. cbn. destruct (N.ltb_spec (next h + i)%N (next h)); [lia|]. f_equal. f_equal. lia. Qed.
Lemma add_inj n (a b : N) : N.add n a = N.add n b -> a = b. Proof. lia. Qed.
Lemma in_shift n ids j : In j (map (N.add n) ids) -> exists i, j = N.add n i /\ In i ids.
Proof. intros H. apply in_map_iff in H as (i & <- & Hi). eauto. Qed.
Lemma not_in_shift n ids i : ~ In i ids -> ~ In (N.add n i) (map (N.add n) ids).
Proof. intros H K. apply in_shift in K as (j & E & Hj). apply add_inj in E. subst. contradiction. Qed.
Lemma disjoint_shift n a b : disjoint a b -> disjoint (map (N.add n) a) (map (N.add n) b).
Proof. intros D j Hj K. apply in_shift in Hj as (x & -> & Hx). exact (not_in_shift n b x (D x Hx) K). Qed.
Definition shift_branch (n : ref) (b : base + ref) : base + ref := match b with inl b => inl b | inr i => inr (N.add n i) end.

Lemma tree_copy h e : forall i ids, tree_at h i e ids -> tree_at (doubled h) (next h + i)%N e (map (N.add (next h)) ids).
Proof.
  induction e as [k bts es IH|o l r IHl IHr] using kex_ind'; intros i ids T; inversion T as [i0 k0 b0 cs es0 F D Aa Hi|i0 c0 l0 r0 l' r' F G D Bl Br Dj Hi]; subst; cbn [map].
  - econstructor; [rewrite doubled_copy; cbn [shift data]; rewrite D; reflexivity| |apply not_in_shift, Hi].
    rewrite <- (map_id es). eapply (apart_map (tree_at h) (tree_at (doubled h)) (N.add (next h)) (fun x => x)); [exact Aa|apply add_inj|].
    intros x y js Hx Hy L Q. apply IH; assumption.
  - rewrite map_app. econstructor; [rewrite doubled_copy; cbn [shift data]; rewrite D; reflexivity| | |exact (disjoint_shift _ _ _ Dj)|rewrite <- map_app; apply not_in_shift, Hi].
    + inversion Bl; subst; constructor. eapply IHl; [reflexivity|assumption].
    + inversion Br; subst; constructor. eapply IHr; [reflexivity|assumption].
Qed.
Lemma apart_copy h cs es F : apart (tree_at h) cs es F -> apart (tree_at (doubled h)) (map (N.add (next h)) cs) es (map (N.add (next h)) F).
Proof.
  intros Aa. rewrite <- (map_id es). eapply (apart_map (tree_at h) (tree_at (doubled h)) (N.add (next h)) (fun x => x)); [exact Aa|apply add_inj|].
  intros x y js _ _ _ Q. apply tree_copy, Q.
Qed.
Lemma children_shift n b : children (shift_body n b) = map (N.add n) (children b).
Proof. destruct b as [k bts cs|c [b|i] [b'|i']]; reflexivity. Qed.
Lemma linked_copy h F : linked h F -> linked (doubled h) (map (N.add (next h)) F).
Proof.
  intros L n c Hn Hc. apply in_shift in Hn as (m & -> & Hm). rewrite doubled_copy in Hc. cbn [shift data] in Hc. rewrite children_shift in Hc.
  apply in_shift in Hc as (d & -> & Hd). rewrite doubled_copy. cbn [shift parent]. rewrite (L m d Hm Hd). reflexivity.
Qed.
Lemma alloc_copy h F : allocated h F -> forall j, In j (map (N.add (next h)) F) -> (next h <= j)%N /\ (j < next (doubled h))%N.
Proof. intros A j Hj. apply in_shift in Hj as (i & -> & Hi). specialize (A i Hi). cbn. lia. Qed.

(** ** Allocation *)
Definition added (h : heap) (o : object) : heap := Heap (N.succ (next h)) (fun j => if N.eqb j (next h) then o else obj h j).
Lemma ev_alloc o h : evaluates (fun _ => alloc o) h (next h) (added h o). Proof. apply ev_const. reflexivity. Qed.
Lemma added_ext h o : ext h (added h o).
Proof. split; [cbn; lia|]. intros j Hj. cbn. destruct (N.eqb_spec j (next h)); [lia|reflexivity]. Qed.
Lemma added_new h o : obj (added h o) (next h) = o. Proof. cbn. rewrite N.eqb_refl. reflexivity. Qed.

Lemma added_other h o j : j <> next h -> obj (added h o) j = obj h j.
Proof. intros H. cbn. destruct (N.eqb_spec j (next h)); [contradiction|reflexivity]. Qed.

(** A new tree with top node [s]; everything else is as before. *)
Definition built (h h' : heap) (s : ref) (e : kex) : Prop :=
  ext h h' /\ exists ids, tree_at h' s e ids /\ (forall j, In j ids -> (next h <= j)%N /\ (j < next h')%N) /\ linked h' ids /\ parent (obj h' s) = None.

(** The last loop of the constructors *)
Lemma ev_adopt i h cs es F : apart (tree_at h) cs es F -> linked h F ->
  exists h' us, evaluates (fun n => hmap (fun c => let* _ := set_parent c (Some i) in set_root n c None) cs) h us h'
    /\ next h' = next h /\ (forall j, data (obj h' j) = data (obj h j)) /\ (forall j, ~ In j F -> obj h' j = obj h j)
    /\ children_of h' i cs /\ linked h' F.
Proof.
  revert h cs F. induction es as [|y es IH]; intros h cs F Aa L; inversion Aa as [|x y0 ids xs ys jds T1 A2 Dj]; subst.
  - exists h, []. split; [exists 0; reflexivity|]. split; [reflexivity|]. split; [reflexivity|]. split; [reflexivity|]. split; [intros c []|intros n c []].
  - set (h1 := upd h x (Obj (root (obj h x)) (Some i) (data (obj h x)))). pose proof (set_parent_reparented h x (Some i)) as R1. fold h1 in R1.
    destruct (ev_set_root h1 x y ids None) as (h2 & E2 & R2); [eapply reparented_tree; [exact R1|exact T1]|].
    assert (D2 : forall j, data (obj h2 j) = data (obj h j)). { intros j. rewrite (rerooted_data _ _ _ _ R2). apply R1. }
    assert (Hx : In x ids) by (eapply tree_top; exact T1).
    assert (O2 : forall j, ~ In j ids -> obj h2 j = obj h j). { intros j Hj. destruct R2 as (_ & _ & O). rewrite O by exact Hj. unfold h1. apply upd_other. intros ->. contradiction. }
    assert (Pj : forall j, j <> x -> parent (obj h2 j) = parent (obj h j)). { intros j Hj. rewrite (rerooted_parent _ _ _ _ R2). unfold h1. rewrite upd_other by exact Hj. reflexivity. }
    assert (Px : parent (obj h2 x) = Some i). { rewrite (rerooted_parent _ _ _ _ R2). unfold h1. rewrite upd_same. reflexivity. }
    assert (L2 : linked h2 ids).
    { intros n c Hn Hc. rewrite D2 in Hc. rewrite Pj; [apply L; [apply in_app_iff; auto|exact Hc]|]. intros ->. exact (tree_top_no_child _ _ _ _ _ T1 Hn Hc). }
    destruct (IH h2 xs jds) as (h3 & us & E3 & N3 & D3 & O3 & C3 & L3).
    + eapply apart_frame; [exact A2|]. intros j _. apply D2.
    + eapply apart_linked_frame; [exact A2|eapply linked_incl; [exact L|apply incl_appr, incl_refl]|]. intros j Hj. apply O2. intros K. exact (Dj j K Hj).
    + exists h3, (tt :: us). split; [|split; [|split; [|split; [|split]]]].
      * eapply (ev_cons (fun n c => let* _ := set_parent c (Some i) in set_root n c None)); [|exact E3]. eapply ev_bind; [apply ev_set_parent|exact E2].
      * rewrite N3. destruct R2 as (N2 & _). rewrite N2. reflexivity.
      * intros j. rewrite D3. apply D2.
      * intros j Hj. rewrite in_app_iff in Hj. rewrite O3, O2; tauto.
      * intros c [<-|Hc]; [|apply C3, Hc]. rewrite O3; [exact Px|]. apply Dj, Hx.
      * apply linked_app; [|exact L3]. eapply linked_frame; [eapply tree_frame; [exact T1|intros j _; apply D2]|exact L2|]. intros j Hj. apply O3, Dj, Hj.
Qed.
Lemma ev_adopt_branch i h b b' F : branch_at h b b' F -> linked h F ->
  exists h' us, evaluates (fun n => hbranch (fun c => let* _ := set_parent c (Some i) in set_root n c None) b) h us h'
    /\ next h' = next h /\ (forall j, data (obj h' j) = data (obj h j)) /\ (forall j, ~ In j F -> obj h' j = obj h j)
    /\ (forall c, b = inr c -> parent (obj h' c) = Some i) /\ linked h' F.
Proof.
  intros B L. inversion B as [b0 Hb Hx|d e js' T Hd He Hjs]; subst; cbn [hbranch].
  - exists h. eexists. split; [apply ev_ret|]. split; [reflexivity|]. split; [reflexivity|]. split; [reflexivity|]. split; [discriminate|intros n c []].
  - destruct (ev_adopt i h [d] [e] F (apart_one _ _ _ _ T) L) as (h' & us & E & N & D & O & C & L'). exists h'. eexists. split.
    + cbn [hmap] in E. destruct E as [n0 E]. pose proof (E n0 (Nat.le_refl _)) as Z. 
      eapply ev_bind; [|apply ev_ret]. exists n0. intros n Hn. specialize (E n Hn). unfold hbind in E |- *. cbn in E |- *.
      destruct (set_root n d None _) as [[[] h2]|]; [|discriminate]. injection E as _ ->. reflexivity.
    + split; [exact N|]. split; [exact D|]. split; [exact O|]. split; [|exact L']. intros c [= <-]. apply C. left. reflexivity.
Qed.

Section New.
  Context (offset : bool).
  Theorem ev_new_comm h k bts cs es F : apart (tree_at h) cs es F -> allocated h F -> linked h F ->
    exists s h', evaluates (fun n => new_comm offset n k bts cs) h s h' /\ built h h' s (mk offset k bts es).
  Proof.
    intros Aa Al L.
    pose proof (apart_copy _ _ _ _ Aa) as A1. pose proof (linked_copy _ _ L) as L1. pose proof (alloc_copy _ _ Al) as Al1.
    set (h1 := doubled h) in *. set (cs1 := map (N.add (next h)) cs) in *. set (F1 := map (N.add (next h)) F) in *.
    pose proof (doubled_ext h) as X1. fold h1 in X1.
    set (i := next h1). set (h2 := added h1 (Obj None None (BComm k bts cs1))).
    assert (Hi : ~ In i F1) by (intros K; apply Al1 in K; unfold i in K; lia).
    assert (O2 : forall j, j <> i -> obj h2 j = obj h1 j) by (intros j Hj; apply added_other, Hj).
    assert (D2 : data (obj h2 i) = BComm k bts cs1) by (unfold i, h2; rewrite added_new; reflexivity).
    assert (T2 : tree_at h2 i (Comm k bts es) (i :: F1)).
    { econstructor; [exact D2| |exact Hi]. eapply apart_frame; [exact A1|]. intros j Hj. rewrite O2; [reflexivity|]. intros ->. contradiction. }
    assert (L2 : linked h2 F1). { eapply apart_linked_frame; [exact A1|exact L1|]. intros j Hj. apply O2. intros ->. contradiction. }
    destruct (ev_simplify offset (Comm k bts es) h2 i (i :: F1) T2) as (h3 & ids3 & E3 & T3 & I3 & C3 & P3 & Lb3 & _).
    { intros n c [<-|Hn] N Hc; [contradiction|]. apply (L2 n c Hn Hc). }
    assert (Em : exists b3 es3, mk offset k bts es = Comm k b3 es3) by (eexists; eexists; reflexivity). destruct Em as (b3 & es3 & Em).
    fold (mk offset k bts es) in T3. rewrite Em in *.
    assert (R3 : root (obj h3 i) = None). { destruct C3 as (_ & R & _). rewrite R. unfold h2, i. rewrite added_new. reflexivity. }
    assert (Pi : parent (obj h3 i) = None). { rewrite P3. unfold h2, i. rewrite added_new. reflexivity. }
    inversion T3 as [i0 k0 b0 cs3 es0 F3 D3 A3 Hi3|]; subst i0 k0 b0 es0 ids3.
    assert (L3 : linked h3 F3). { intros n c Hn Hc. apply (Lb3 n c); [right; exact Hn|intros ->; contradiction|exact Hc]. }
    destruct (ev_adopt i h3 cs3 es3 F3 A3 L3) as (h4 & us & E4 & N4 & D4 & O4 & C4 & L4).
    assert (N3 : next h3 = N.succ i) by (destruct C3 as (N3 & _); rewrite N3; reflexivity).
    assert (In3 : forall j, In j F3 -> In j F1). { intros j Hj. destruct (I3 j) as [K|K]; [right; exact Hj|subst; contradiction|exact K]. }
    exists i, h4. split.
    - unfold new_comm. eapply ev_bind; [apply ev_deepcopy|]. cbv beta. eapply ev_bind; [apply ev_alloc|]. cbv beta. fold h1. fold cs1. fold h2. fold i.
      eapply ev_bind; [exact E3|]. cbv beta. eapply ev_bind; [apply ev_get|]. cbv beta. rewrite D3, R3. eapply ev_bind; [exact E4|]. apply ev_ret.
    - assert (Out : forall j, (j < next h)%N -> obj h4 j = obj h j).
      { intros j Hj. assert (~ In j F1) by (intros K; apply Al1 in K; lia). assert (j <> i) by (unfold i; cbn; lia).
        rewrite O4 by (intros K; apply In3 in K; contradiction). destruct C3 as (_ & _ & O3). rewrite O3 by (intros [K|K]; [congruence|contradiction]).
        rewrite O2 by assumption. destruct X1 as [_ U]. apply U, Hj. }
      split; [split; [rewrite N4, N3; unfold i; cbn; lia|exact Out]|]. exists (i :: F3). split; [|split; [|split]].
      + eapply tree_frame; [exact T3|]. intros j _. apply D4.
      + intros j [<-|Hj]; [rewrite N4, N3; unfold i; cbn; lia|]. apply In3, Al1 in Hj. rewrite N4, N3. fold i in Hj. lia.
      + intros n c [<-|Hn] Hc; [|apply (L4 n c Hn Hc)]. rewrite D4, D3 in Hc. apply C4, Hc.
      + rewrite O4 by exact Hi3. exact Pi.
  Qed.

  Definition good_branch (h : heap) (b : base + ref) (b' : branch) (F : list ref) : Prop := branch_at h b b' F /\ allocated h F /\ linked h F.
  Lemma good_branch_ext h h' b b' F : ext h h' -> good_branch h b b' F -> good_branch h' b b' F.
  Proof.
    intros X (B & A & L). assert (O : forall j, In j F -> obj h' j = obj h j) by (intros j Hj; apply X, A, Hj). split; [|split].
    - eapply branch_frame; [exact B|]. intros j Hj. rewrite O by exact Hj. reflexivity.
    - eapply ext_alloc; eassumption.
    - inversion B as [b0 Hb Hx|d e js' T Hd He Hjs]; subst; [intros n c []|]. eapply linked_frame; eassumption.
  Qed.
  Lemma ev_copy_branch h b b' F : good_branch h b b' F ->
    exists x h' F', evaluates (fun _ => copy_branch b) h x h' /\ ext h h' /\ good_branch h' x b' F' /\ (forall j, In j F' -> (next h <= j)%N).
  Proof.
    intros (B & A & L). inversion B as [b0 Hb Hx|d e js' T Hd He Hjs]; subst; cbn [copy_branch hbranch].
    - exists (inl b0), h, []. split; [apply ev_ret|]. split; [apply ext_refl|]. split; [|intros j []]. split; [constructor|]. split; [intros j []|intros n c []].
    - exists (inr (next h + d)%N), (doubled h), (map (N.add (next h)) F). split; [|split; [apply doubled_ext|split]].
      + eapply ev_bind; [|apply ev_ret]. eapply ev_bind; [apply ev_deepcopy|]. apply ev_ret.
      + split; [constructor; apply tree_copy, T|]. split; [|apply linked_copy, L]. intros j Hj. apply (alloc_copy h F A j Hj).
      + intros j Hj. apply (alloc_copy h F A j Hj).
  Qed.
  Theorem ev_new_change h c l r l' r' F G : good_branch h l l' F -> good_branch h r r' G ->
    exists s h', evaluates (fun n => new_change offset n c l r) h s h' /\ built h h' s (mk_change offset c l' r').
  Proof.
    intros Gl Gr. destruct (ev_copy_branch h l l' F Gl) as (xl & h0 & F0 & E0 & X0 & G0 & Lo0).
    destruct (ev_copy_branch h0 r r' G (good_branch_ext _ _ _ _ _ X0 Gr)) as (xr & h1 & F1 & E1 & X1 & G1 & Lo1).
    pose proof (good_branch_ext _ _ _ _ _ X1 G0) as (Bl & Al & Ll). destruct G1 as (Br & Ar & Lr). destruct G0 as (_ & Al0 & _).
    set (i := next h1). set (h2 := added h1 (Obj None None (BChange c xl xr))).
    assert (Hi : ~ In i (F0 ++ F1)) by (intros K; apply in_app_iff in K as [K|K]; [apply Al in K|apply Ar in K]; unfold i in K; lia).
    assert (O2 : forall j, j <> i -> obj h2 j = obj h1 j) by (intros j Hj; apply added_other, Hj).
    assert (Oin : forall j, In j (F0 ++ F1) -> obj h2 j = obj h1 j) by (intros j Hj; apply O2; intros ->; contradiction).
    assert (D2 : data (obj h2 i) = BChange c xl xr) by (unfold i, h2; rewrite added_new; reflexivity).
    assert (Dj : disjoint F0 F1). { intros j Hj K. apply Al0 in Hj. apply Lo1 in K. lia. }
    assert (T2 : tree_at h2 i (Change c l' r') (i :: F0 ++ F1)).
    { econstructor; [exact D2| | |exact Dj|exact Hi]; (eapply branch_frame; [eassumption|]); intros j Hj; rewrite Oin by (apply in_app_iff; auto); reflexivity. }
    assert (L2 : linked h2 (F0 ++ F1)).
    { apply linked_app.
      - inversion Bl as [b0 Hb Hx|d e js' T Hd He Hjs]; subst; [intros n x []|]. eapply linked_frame; [exact T|exact Ll|]. intros j Hj. apply Oin, in_app_iff; auto.
      - inversion Br as [b0 Hb Hx|d e js' T Hd He Hjs]; subst; [intros n x []|]. eapply linked_frame; [exact T|exact Lr|]. intros j Hj. apply Oin, in_app_iff; auto. }
    destruct (ev_simplify offset (Change c l' r') h2 i (i :: F0 ++ F1) T2) as (h3 & ids3 & E3 & T3 & I3 & C3 & P3 & Lb3 & _).
    { intros n x [<-|Hn] N Hx; [contradiction|]. apply (L2 n x Hn Hx). }
    assert (R3 : root (obj h3 i) = None). { destruct C3 as (_ & R & _). rewrite R. unfold h2, i. rewrite added_new. reflexivity. }
    assert (Pi : parent (obj h3 i) = None). { rewrite P3. unfold h2, i. rewrite added_new. reflexivity. }
    assert (Em : exists l3 r3, mk_change offset c l' r' = Change c l3 r3) by (eexists; eexists; reflexivity). destruct Em as (l3 & r3 & Em).
    fold (mk_change offset c l' r') in T3. rewrite Em in *.
    inversion T3 as [|i0 c0 yl yr l0 r0 Fl Fr D3 Bl3 Br3 Dj3 Hi3]; subst i0 c0 l0 r0 ids3.
    assert (L3 : linked h3 (Fl ++ Fr)). { intros n x Hn Hx. apply (Lb3 n x); [right; exact Hn|intros ->; contradiction|exact Hx]. }
    destruct (ev_adopt_branch i h3 yl l3 Fl Bl3) as (h4 & u4 & E4 & N4 & D4 & O4 & C4 & L4); [eapply linked_incl; [exact L3|apply incl_appl, incl_refl]|].
    assert (Or4 : forall j, In j Fr -> obj h4 j = obj h3 j) by (intros j Hj; apply O4; intros K; exact (Dj3 j K Hj)).
    destruct (ev_adopt_branch i h4 yr r3 Fr) as (h5 & u5 & E5 & N5 & D5 & O5 & C5 & L5).
    { eapply branch_frame; [exact Br3|]. intros j _. apply D4. }
    { inversion Br3 as [b0 Hb Hx|d e js' T Hd He Hjs]; subst; [intros n x []|]. eapply linked_frame; [exact T|eapply linked_incl; [exact L3|apply incl_appr, incl_refl]|exact Or4]. }
    assert (N3 : next h3 = N.succ i) by (destruct C3 as (N3 & _); rewrite N3; reflexivity).
    assert (In3 : forall j, In j (Fl ++ Fr) -> In j (F0 ++ F1)). { intros j Hj. destruct (I3 j) as [K|K]; [right; exact Hj|subst; contradiction|exact K]. }
    assert (Lo : forall j, In j (F0 ++ F1) -> (next h <= j)%N /\ (j < i)%N).
    { intros j Hj. apply in_app_iff in Hj as [Hj|Hj]; [split; [apply Lo0, Hj|apply Al, Hj]|split; [|apply Ar, Hj]]. apply Lo1 in Hj. destruct X0 as [Q _]. lia. }
    assert (Xi : (next h <= i)%N) by (unfold i; destruct X0 as [Q0 _], X1 as [Q1 _]; lia).
    exists i, h5. split.
    - unfold new_change. eapply ev_bind; [exact E0|]. cbv beta. eapply ev_bind; [exact E1|]. cbv beta. eapply ev_bind; [apply ev_alloc|]. cbv beta. fold h2. fold i.
      eapply ev_bind; [exact E3|]. cbv beta. eapply ev_bind; [apply ev_get|]. cbv beta. rewrite D3, R3. eapply ev_bind; [exact E4|]. cbv beta. eapply ev_bind; [exact E5|]. apply ev_ret.
    - assert (HiL : ~ In i Fl) by (intros K; apply Hi3, in_app_iff; auto). assert (HiR : ~ In i Fr) by (intros K; apply Hi3, in_app_iff; auto).
      assert (Out : forall j, (j < next h)%N -> obj h5 j = obj h j).
      { intros j Hj. assert (~ In j (F0 ++ F1)) by (intros K; apply Lo in K; lia). assert (j <> i) by lia.
        assert (~ In j (Fl ++ Fr)) by (intros K; apply In3 in K; contradiction). rewrite in_app_iff in H1.
        rewrite O5, O4 by tauto. destruct C3 as (_ & _ & O3). rewrite O3 by (intros [K|K]; [congruence|contradiction]).
        rewrite O2 by assumption. destruct X0 as [Q0 U0], X1 as [Q1 U1]. rewrite U1 by lia. apply U0, Hj. }
      split; [split; [rewrite N5, N4, N3; lia|exact Out]|]. exists (i :: Fl ++ Fr). split; [|split; [|split]].
      + eapply tree_frame; [exact T3|]. intros j _. rewrite D5. apply D4.
      + intros j [<-|Hj]; [rewrite N5, N4, N3; lia|]. apply In3, Lo in Hj. rewrite N5, N4, N3. lia.
      + assert (LL : linked h5 Fl).
        { inversion Bl3 as [b0 Hb Hx|d e js' T Hd He Hjs]; subst; [intros n x []|]. eapply linked_frame; [eapply tree_frame; [exact T|intros j _; apply D4]|exact L4|].
          intros j Hj. apply O5. exact (Dj3 j Hj). }
        intros n x [<-|Hn] Hx.
        * rewrite D5, D4, D3 in Hx. cbn in Hx. apply in_app_iff in Hx as [Hx|Hx].
          -- destruct yl as [|d]; [destruct Hx|]. destruct Hx as [<-|[]]. rewrite O5; [apply C4; reflexivity|]. apply Dj3. eapply branch_child; [exact Bl3|reflexivity].
          -- destruct yr as [|d]; [destruct Hx|]. destruct Hx as [<-|[]]. apply C5. reflexivity.
        * apply in_app_iff in Hn as [Hn|Hn]; [apply (LL n x Hn Hx)|apply (L5 n x Hn Hx)].
      + rewrite O5, O4 by assumption. exact Pi.
  Qed.

  (** _initialise *)
  Theorem ev_initialise h i e ids : tree_at h i e ids -> allocated h ids -> parent (obj h i) = None ->
    exists h' ids', evaluates (fun n => initialise offset n i) h i h' /\ expression h' i (KexModel.initialise offset e) ids' /\ incl ids' ids
      /\ next h' = next h /\ (forall j, ~ In j ids -> obj h' j = obj h j).
  Proof.
    intros T A P. destruct (ev_set_root h i e ids None T) as (h1 & E1 & R1).
    assert (T1 : tree_at h1 i e ids) by (eapply tree_frame; [exact T|intros j _; eapply rerooted_data; exact R1]).
    destruct (ev_set_all_parents e h1 i ids T1) as (h2 & E2 & R2 & P2 & L2).
    assert (T2 : tree_at h2 i e ids) by (eapply reparented_tree; eassumption).
    destruct (ev_simplify offset e h2 i ids T2 (linked_is_below _ _ _ L2)) as (h3 & ids3 & E3 & T3 & I3 & C3 & P3 & _ & L3). specialize (L3 L2).
    destruct R1 as (N1 & I1 & O1) eqn:ER1. destruct R2 as (N2 & D2 & Ro2 & O2). destruct C3 as (N3 & Ro3 & O3).
    exists h3, ids3. split; [|split; [|split; [exact I3|split]]].
    - unfold initialise. eapply ev_bind; [exact E1|]. cbv beta. eapply ev_bind; [exact E2|]. cbv beta. eapply ev_bind; [exact E3|]. apply ev_ret.
    - split; [exact T3|]. split; [split; [|split; [exact L3|]]|].
      + rewrite P3, P2. rewrite (rerooted_parent _ _ _ _ R1). exact P.
      + intros n Hn. rewrite Ro3, Ro2, I1 by (apply I3, Hn). reflexivity.
      + intros j Hj. rewrite N3, N2, N1. apply A, I3, Hj.
    - rewrite N3, N2, N1. reflexivity.
    - intros j Hj. rewrite O3, O2, O1 by exact Hj. reflexivity.
  Qed.
End New.

(** Lemmas for C19: parents, extraction and simplification in place. *)
From Coq Require Import List Bool Arith ZArith NArith Lia Permutation.
From Verif Require Import Py UtilModel KexModel KexSpec KexProofs KexSimp OpsModel HeapModel HeapSpec HeapBase.
Import ListNotations.

(** Only the parents of some nodes change. *)
Definition reparented (h h' : heap) (ids : list ref) : Prop :=
  next h' = next h /\ (forall j, data (obj h' j) = data (obj h j)) /\ (forall j, root (obj h' j) = root (obj h j)) /\ (forall j, ~ In j ids -> obj h' j = obj h j).
Lemma reparented_refl h ids : reparented h h ids. Proof. repeat split; auto. Qed.
Lemma reparented_trans a b c ids jds : reparented a b ids -> reparented b c jds -> reparented a c (ids ++ jds).
Proof.
  intros (N1 & D1 & R1 & O1) (N2 & D2 & R2 & O2). split; [congruence|]. split; [intros j; rewrite D2; apply D1|]. split; [intros j; rewrite R2; apply R1|].
  intros j Hj. rewrite in_app_iff in Hj. rewrite O2, O1; tauto.
Qed.
Lemma reparented_incl h h' ids jds : reparented h h' ids -> incl ids jds -> reparented h h' jds.
Proof. intros (N1 & D1 & R1 & O1) I. repeat split; auto. Qed.
Lemma set_parent_reparented h i p : reparented h (upd h i (Obj (root (obj h i)) p (data (obj h i)))) [i].
Proof.
  split; [reflexivity|]. split; [|split]; intros j; cbn [upd obj].
  - destruct (N.eqb_spec j i) as [->|]; reflexivity.
  - destruct (N.eqb_spec j i) as [->|]; reflexivity.
  - intros Hj. destruct (N.eqb_spec j i) as [->|]; [exfalso; apply Hj; left; reflexivity|reflexivity].
Qed.
Lemma reparented_tree h h' js i e ids : reparented h h' js -> tree_at h i e ids -> tree_at h' i e ids.
Proof. intros (_ & D & _) T. eapply tree_frame; [exact T|]. intros j _. apply D. Qed.
Lemma reparented_apart h h' js cs es ids : reparented h h' js -> apart (tree_at h) cs es ids -> apart (tree_at h') cs es ids.
Proof. intros (_ & D & _) T. eapply apart_frame; [exact T|]. intros j _. apply D. Qed.

Lemma linked_app h a b : linked h a -> linked h b -> linked h (a ++ b).
Proof. intros La Lb n c Hn. apply in_app_iff in Hn as [Hn|Hn]; [apply La|apply Lb]; exact Hn. Qed.
Lemma linked_incl h a b : linked h b -> incl a b -> linked h a.
Proof. intros L I n c Hn. apply L, I, Hn. Qed.
(** Links inside a tree depend on its nodes only. *)
Lemma linked_frame h h' i e ids : tree_at h i e ids -> linked h ids -> (forall j, In j ids -> obj h' j = obj h j) -> linked h' ids.
Proof. intros T L F n c Hn Hc. rewrite (F n Hn) in Hc. rewrite (F c); [apply (L n c Hn Hc)|]. eapply tree_children; eassumption. Qed.
(** ... except for the parent of the top node. *)
Lemma linked_frame_top h h' i e ids : tree_at h i e ids -> linked h ids -> (forall j, In j ids -> j <> i -> obj h' j = obj h j) -> data (obj h' i) = data (obj h i) -> linked h' ids.
Proof.
  intros T L F D n c Hn Hc. assert (E : data (obj h' n) = data (obj h n)) by (destruct (N.eq_dec n i) as [->|X]; [exact D|rewrite (F n Hn X); reflexivity]).
  rewrite E in Hc. rewrite (F c); [apply (L n c Hn Hc)|eapply tree_children; eassumption|]. intros ->. exact (tree_top_no_child _ _ _ _ _ T Hn Hc).
Qed.
Lemma apart_children h cs es ids n c : apart (tree_at h) cs es ids -> In n ids -> In c (children (data (obj h n))) -> In c ids.
Proof.
  induction 1 as [|x y ids xs ys jds H1 H2 IH D]; [intros []|]. intros Hn Hc. apply in_app_iff in Hn as [Hn|Hn]; apply in_app_iff; [left; eapply tree_children; eassumption|right; auto].
Qed.
Lemma apart_linked_frame h h' cs es ids : apart (tree_at h) cs es ids -> linked h ids -> (forall j, In j ids -> obj h' j = obj h j) -> linked h' ids.
Proof. intros T L F n c Hn Hc. rewrite (F n Hn) in Hc. rewrite (F c); [apply (L n c Hn Hc)|]. eapply apart_children; eassumption. Qed.

(** ** set_all_parents *)
Lemma ev_set_all_parents e : forall h i ids, tree_at h i e ids ->
  exists h', evaluates (fun n => set_all_parents n i) h tt h' /\ reparented h h' ids /\ parent (obj h' i) = parent (obj h i) /\ linked h' ids.
Proof.
  induction e as [k bts es IH|o l r IHl IHr] using kex_ind'; intros h i ids T; inversion T; subst.
  - assert (Q : forall g cs' es' F, data (obj g i) = BComm k bts cs -> apart (tree_at g) cs' es' F -> incl es' es -> ~ In i F ->
       exists g' us, evaluates (fun n => hmap (fun c => let* _ := set_parent c (Some i) in set_all_parents n c) cs') g us g'
         /\ reparented g g' F /\ (forall c, In c cs' -> parent (obj g' c) = Some i) /\ linked g' F).
    { clear -IH. intros g cs' es'. revert g cs'. induction es' as [|y es' IHe]; intros g cs' F D Aa I Hi; inversion Aa; subst.
      - exists g, []. split; [exists 0; reflexivity|]. split; [apply reparented_refl|]. split; [intros c []|intros n c []].
      - rename x into a. set (g1 := upd g a (Obj (root (obj g a)) (Some i) (data (obj g a)))).
        pose proof (set_parent_reparented g a (Some i)) as R1. fold g1 in R1.
        destruct (IH y (I y (or_introl eq_refl)) g1 a ids) as (g2 & E2 & R2 & P2 & L2); [eapply reparented_tree; eassumption|].
        assert (Ha : In a ids) by (eapply tree_top; eassumption).
        assert (R12 : reparented g g2 ids).
        { eapply reparented_incl; [eapply reparented_trans; [exact R1|exact R2]|]. intros j [<-|Hj]; [exact Ha|exact Hj]. }
        destruct (IHe g2 xs jds) as (g3 & us & E3 & R3 & P3 & L3).
        + destruct R12 as (_ & D12 & _). rewrite D12. exact D.
        + eapply reparented_apart; [exact R12|assumption].
        + intros z Hz. apply I. right. exact Hz.
        + intros Z. apply Hi, in_app_iff. auto.
        + exists g3, (tt :: us). split; [|split; [|split]].
          * eapply (ev_cons (fun n c => let* _ := set_parent c (Some i) in set_all_parents n c)); [|exact E3].
            eapply ev_bind; [apply ev_set_parent|]. exact E2.
          * eapply reparented_incl; [eapply reparented_trans; [exact R12|exact R3]|]. apply incl_refl.
          * intros c [<-|Hc]; [|apply P3, Hc]. destruct R3 as (_ & _ & _ & O3). rewrite O3; [rewrite P2; unfold g1; rewrite upd_same; reflexivity|]. auto.
          * apply linked_app; [|exact L3]. eapply linked_frame; [|exact L2|]; [|].
            { eapply reparented_tree; [exact R12|eassumption]. }
            intros j Hj. destruct R3 as (_ & _ & _ & O3). apply O3. auto. }
    destruct (Q h cs es ids0) as (h' & us & E & R & P & L); auto; [apply incl_refl|].
    exists h'. split; [|split; [|split]].
    + apply ev_step. cbn [set_all_parents]. eapply ev_bind; [apply ev_get|]. cbv beta. match goal with E : data _ = _ |- _ => rewrite E end.
      eapply ev_bind; [exact E|apply ev_ret].
    + eapply reparented_incl; [exact R|]. intros j Hj; right; exact Hj.
    + destruct R as (_ & _ & _ & O). rewrite O by assumption. reflexivity.
    + intros n c [<-|Hn] Hc; [|apply L; assumption]. destruct R as (_ & D & _). rewrite D in Hc. match goal with E : data _ = _ |- _ => rewrite E in Hc end. apply P, Hc.
  - assert (Q : forall g b b' F, branch_at g b b' F -> (forall x, b' = inr x -> l = inr x \/ r = inr x) -> ~ In i F ->
       exists g' us, evaluates (fun n => hbranch (fun c => let* _ := set_parent c (Some i) in set_all_parents n c) b) g us g'
         /\ reparented g g' F /\ (forall c, b = inr c -> parent (obj g' c) = Some i) /\ linked g' F).
    { clear -IHl IHr. intros g b b' F B I Hi. inversion B as [|a e js T]; subst; cbn [hbranch].
      - exists g. eexists. split; [apply ev_ret|]. split; [apply reparented_refl|]. split; [discriminate|intros n c []].
      - set (g1 := upd g a (Obj (root (obj g a)) (Some i) (data (obj g a)))).
        pose proof (set_parent_reparented g a (Some i)) as R1. fold g1 in R1.
        assert (X : exists g2, evaluates (fun n => set_all_parents n a) g1 tt g2 /\ reparented g1 g2 F /\ parent (obj g2 a) = parent (obj g1 a) /\ linked g2 F).
        { destruct (I e eq_refl) as [->| ->]; [apply (IHl e eq_refl)|apply (IHr e eq_refl)]; eapply reparented_tree; eassumption. }
        destruct X as (g2 & E2 & R2 & P2 & L2). exists g2. eexists. split; [eapply ev_bind; [eapply ev_bind; [apply ev_set_parent|exact E2]|apply ev_ret]|].
        split; [|split; [|exact L2]].
        + eapply reparented_incl; [eapply reparented_trans; [exact R1|exact R2]|]. intros j [<-|Hj]; [eapply tree_top; eassumption|exact Hj].
        + intros c [= <-]. rewrite P2. unfold g1. rewrite upd_same. reflexivity. }
    destruct (Q h l0 l ids0) as (h1 & u1 & E1 & R1 & P1 & L1); [assumption|intros x ->; auto|intros Z; match goal with H : ~ In i _ |- _ => apply H, in_app_iff; auto end|].
    destruct (Q h1 r0 r jds) as (h2 & u2 & E2 & R2 & P2 & L2); [eapply branch_frame; [eassumption|intros j _; apply R1]|intros x ->; auto|intros Z; match goal with H : ~ In i _ |- _ => apply H, in_app_iff; auto end|].
    assert (R12 : reparented h h2 (ids0 ++ jds)) by (eapply reparented_trans; eassumption).
    exists h2. split; [|split; [|split]].
    + apply ev_step. cbn [set_all_parents]. eapply ev_bind; [apply ev_get|]. cbv beta. match goal with E : data _ = _ |- _ => rewrite E end.
      eapply ev_bind; [exact E1|]. cbv beta. eapply ev_bind; [exact E2|apply ev_ret].
    + eapply reparented_incl; [exact R12|]. intros j Hj; right; exact Hj.
    + destruct R12 as (_ & _ & _ & O). rewrite O by assumption. reflexivity.
    + assert (L1' : linked h2 ids0).
      { match goal with H : branch_at h l0 _ _ |- _ => inversion H; subst end; [intros n c []|]. eapply linked_frame; [|exact L1|].
        - eapply reparented_tree; [exact R1|eassumption].
        - intros j Hj. destruct R2 as (_ & _ & _ & O). apply O. auto. }
      intros n c [<-|Hn] Hc.
      * destruct R12 as (_ & D & _). rewrite D in Hc. match goal with E : data _ = _ |- _ => rewrite E in Hc end. cbn in Hc. apply in_app_iff in Hc as [Hc|Hc].
        -- destruct l0 as [|a]; [destruct Hc|]. destruct Hc as [<-|[]]. destruct R2 as (_ & _ & _ & O). rewrite O; [apply P1; reflexivity|].
           match goal with H : forall j, In j ids0 -> ~ In j jds |- _ => apply H end. eapply branch_child; [eassumption|reflexivity].
        -- destruct r0 as [|a]; [destruct Hc|]. destruct Hc as [<-|[]]. apply P2. reflexivity.
      * apply in_app_iff in Hn as [Hn|Hn]; [apply L1'|apply L2]; assumption.
Qed.

Section Simplify.
  Context (offset : bool).

  (** ** extract *)
  Lemma csum_one_elements (c : counter) : (0 < csum c)%Z -> celements c <> [].
  Proof.
    induction c as [|[b z] c IH]; [rewrite csum_nil; lia|]. rewrite csum_cons, celements_cons. cbn [fst snd]. intros H E. apply app_eq_nil in E as [E1 E2].
    destruct (Z.to_nat z) as [|m] eqn:Z1; [|discriminate]. apply IH; [lia|exact E2].
  Qed.
  Lemma ev_extract h c e ids : tree_at h c e ids -> linked h ids ->
    exists x h' js, evaluates (fun _ => extract c) h x h' /\ branch_at h' x (KexModel.extract e) js /\ incl js ids /\ reparented h h' ids
      /\ (forall d, x = inr d -> parent (obj h' d) = parent (obj h c)) /\ linked h' js /\ (forall d, x = inr d -> d <> c -> ~ In c js).
  Proof.
    intros T L. unfold extract. inversion T as [i k bts cs es F D Aa Hi|i k l r l' r' F G D Bl Br Hd Hi]; subst.
    - assert (Len : length cs = length es) by (eapply apart_length; exact Aa).
      cbn [KexModel.extract]. destruct (Z.eqb (csum bts) 1 && Nat.eqb (length es) 0) eqn:E1.
      + apply andb_prop in E1 as [Ea Eb]. destruct (celements bts) as [|b t] eqn:Ee; [exfalso; apply (csum_one_elements bts); [lia|exact Ee]|].
        exists (inl b), h, []. split; [|split; [constructor|split; [intros j []|split; [apply reparented_refl|split; [discriminate|split; [intros n d []|discriminate]]]]]].
        eapply ev_bind; [apply ev_get|]. cbv beta. rewrite D, Len, Ea, Eb, Ee. apply ev_ret.
      + destruct (Z.eqb (csum bts) 0 && Nat.eqb (length es) 1) eqn:E2.
        * destruct es as [|y [|y2 es]]; [rewrite andb_comm in E2; discriminate| |rewrite andb_comm in E2; discriminate].
          inversion Aa as [|x y0 ids0 xs ys jds T1 A2 Dj]; subst. inversion A2; subst. rewrite app_nil_r in *.
          set (h' := upd h x (Obj (root (obj h x)) (parent (obj h c)) (data (obj h x)))).
          pose proof (set_parent_reparented h x (parent (obj h c))) as R. fold h' in R.
          exists (inr x), h', ids0. split; [|split; [|split; [|split; [|split; [|split]]]]].
          -- eapply ev_bind; [apply ev_get|]. cbv beta. rewrite D, Len, E1, E2. eapply ev_bind; [apply ev_set_parent|]. apply ev_ret.
          -- constructor. eapply reparented_tree; [exact R|exact T1].
          -- intros j Hj. right. exact Hj.
          -- eapply reparented_incl; [exact R|]. intros j [<-|[]]. right. eapply tree_top; eassumption.
          -- intros d [= <-]. unfold h'. rewrite upd_same. reflexivity.
          -- eapply linked_frame_top; [exact T1|eapply linked_incl; [exact L|intros j Hj; right; exact Hj]| |].
             ++ intros j Hj N. unfold h'. apply upd_other, N.
             ++ unfold h'. rewrite upd_same. reflexivity.
          -- intros d [= <-] _. exact Hi.
        * exists (inr c), h, (c :: F). split; [|split; [constructor; exact T|split; [apply incl_refl|split; [apply reparented_refl|split; [intros d [= <-]; reflexivity|split; [exact L|intros d [= <-] X; congruence]]]]]].
          eapply ev_bind; [apply ev_get|]. cbv beta. rewrite D, Len, E1, E2. apply ev_ret.
    - exists (inr c), h, (c :: F ++ G). split; [|split; [constructor; exact T|split; [apply incl_refl|split; [apply reparented_refl|split; [intros d [= <-]; reflexivity|split; [exact L|intros d [= <-] X; congruence]]]]]].
      eapply ev_bind; [apply ev_get|]. cbv beta. rewrite D. apply ev_ret.
  Qed.
  Lemma ev_extracts h cs es F : apart (tree_at h) cs es F -> linked h F ->
    exists xs h' F', evaluates (fun _ => hmap extract cs) h xs h' /\ apart (branch_at h') xs (map KexModel.extract es) F' /\ incl F' F /\ reparented h h' F
      /\ linked h' F' /\ (forall d, In (inr d) xs -> exists c, In c cs /\ parent (obj h' d) = parent (obj h c)).
  Proof.
    intros Aa. revert h cs F Aa. induction es as [|y es IH]; intros h cs F Aa L; inversion Aa as [|x y0 ids xs ys jds T1 A2 Dj]; subst.
    - exists [], h, []. split; [apply ev_const; reflexivity|]. split; [constructor|]. split; [intros j []|]. split; [apply reparented_refl|]. split; [intros n c []|intros d []].
    - destruct (ev_extract h x y ids T1) as (z & h1 & js & E1 & B1 & I1 & R1 & P1 & L1 & _); [eapply linked_incl; [exact L|apply incl_appl, incl_refl]|].
      assert (O1 : forall j, In j jds -> obj h1 j = obj h j).
      { intros j Hj. destruct R1 as (_ & _ & _ & O). apply O. intros I. exact (Dj j I Hj). }
      assert (A2' : apart (tree_at h1) xs es jds) by (eapply reparented_apart; eassumption).
      destruct (IH h1 xs jds A2') as (zs & h2 & F2 & E2 & B2 & I2 & R2 & L2 & P2).
      { eapply apart_linked_frame; [exact A2|eapply linked_incl; [exact L|apply incl_appr, incl_refl]|exact O1]. }
      exists (z :: zs), h2, (js ++ F2). split; [|split; [|split; [|split; [|split]]]].
      + eapply (ev_cons (fun _ => extract)); eassumption.
      + cbn [map]. constructor; [eapply branch_frame; [exact B1|intros j _; apply R2]|exact B2|]. intros j Hj K. exact (Dj j (I1 j Hj) (I2 j K)).
      + intros j Hj. apply in_app_iff in Hj as [Hj|Hj]; apply in_app_iff; auto.
      + eapply reparented_trans; eassumption.
      + apply linked_app; [|exact L2]. inversion B1 as [b Hb Hx|d e js' T Hd He Hjs]; subst; [intros n c []|]. eapply linked_frame; [exact T|exact L1|]. intros j Hj. destruct R2 as (_ & _ & _ & O). apply O. intros K. exact (Dj j (I1 j Hj) K).
      + intros d [->|Hd].
        * exists x. split; [left; reflexivity|]. destruct R2 as (_ & _ & _ & O). rewrite O; [apply P1; reflexivity|]. intros K. inversion B1; subst.
          refine (Dj d (I1 d _) K). eapply tree_top; eassumption.
        * destruct (P2 d Hd) as (c & Hc & Ec). exists c. split; [right; exact Hc|]. rewrite Ec, (O1 c); [reflexivity|]. eapply apart_tops; eassumption.
  Qed.
  (** The composites among the extracted branches *)
  Definition refs_of (xs : list (base + ref)) : list ref := concat (map (fun x => match x with inl _ => [] | inr c => [c] end) xs).
  Lemma apart_branches h xs es F : apart (branch_at h) xs es F ->
    concat (map (fun x => match x with inl b => [b] | inr _ => [] end) xs) = bases_of es /\ apart (tree_at h) (refs_of xs) (kexs_of es) F
    /\ forall d, In d (refs_of xs) -> In (inr d) xs.
  Proof.
    induction 1 as [|x y ids xs ys jds B A [IH1 [IH2 IH3]] Dj]; [split; [reflexivity|split; [constructor|intros d []]]|]. unfold bases_of, kexs_of, refs_of in *. cbn [map concat].
    rewrite IH1. inversion B as [b Hb Hx|d e js' T Hd He Hjs]; subst; cbn [app].
    - split; [reflexivity|]. split; [exact IH2|]. intros d Hd. right. apply IH3, Hd.
    - split; [reflexivity|]. split; [constructor; assumption|]. intros d' [<-|Hd]; [left; reflexivity|right; apply IH3, Hd].
  Qed.

  (** ** absorb_homogeneous_composites *)
  Definition children_of (h : heap) (i : ref) (cs : list ref) : Prop := forall c, In c cs -> parent (obj h c) = Some i.
  Lemma ev_set_parents h i cs : exists h' us, evaluates (fun _ => hmap (fun c => set_parent c (Some i)) cs) h us h' /\ reparented h h' cs /\ children_of h' i cs.
  Proof.
    revert h. induction cs as [|c cs IH]; intros h.
    - exists h, []. split; [apply ev_const; reflexivity|]. split; [apply reparented_refl|intros c []].
    - set (h1 := upd h c (Obj (root (obj h c)) (Some i) (data (obj h c)))). pose proof (set_parent_reparented h c (Some i)) as R1. fold h1 in R1.
      destruct (IH h1) as (h2 & us & E2 & R2 & P2). exists h2, (tt :: us). split; [|split].
      + eapply (ev_cons (fun _ c => set_parent c (Some i))); [apply ev_set_parent|exact E2].
      + eapply (reparented_trans _ _ _ [c]); eassumption.
      + intros d [<-|Hd]; [|apply P2, Hd]. destruct (in_dec N.eq_dec c cs) as [I|I]; [apply P2, I|]. destruct R2 as (_ & _ & _ & O). rewrite O by exact I. unfold h1. rewrite upd_same. reflexivity.
  Qed.

  (** What a step of the simplification of the node [i] with the nodes [F] below it may change. *)
  Definition within (h h' : heap) (i : ref) (F : list ref) : Prop :=
    next h' = next h /\ (forall j, root (obj h' j) = root (obj h j)) /\ parent (obj h' i) = parent (obj h i) /\ (forall j, j <> i -> ~ In j F -> obj h' j = obj h j).
  Lemma within_trans a b c i F G : within a b i F -> within b c i G -> incl G F -> within a c i F.
  Proof.
    intros (N1 & R1 & P1 & O1) (N2 & R2 & P2 & O2) I. split; [congruence|]. split; [intros j; rewrite R2; apply R1|]. split; [congruence|].
    intros j Hj Hf. rewrite O2, O1; auto.
  Qed.
  Lemma reparented_within h h' i F : reparented h h' F -> ~ In i F -> within h h' i F.
  Proof. intros (N1 & D1 & R1 & O1) Hi. split; [exact N1|]. split; [exact R1|]. split; [rewrite O1 by exact Hi; reflexivity|]. intros j _ Hj. apply O1, Hj. Qed.
  Lemma set_data_within h i b F : within h (upd h i (Obj (root (obj h i)) (parent (obj h i)) b)) i F.
  Proof.
    split; [reflexivity|]. split; [|split].
    - intros j. cbn [upd obj]. destruct (N.eqb_spec j i) as [->|]; reflexivity.
    - rewrite upd_same. reflexivity.
    - intros j Hj _. apply upd_other, Hj.
  Qed.
  (** The node [i] and the trees below it. *)
  Definition holds (h : heap) (i : ref) (k : kind) (bts : counter) (cs : list ref) (es : list kex) (F : list ref) : Prop :=
    data (obj h i) = BComm k bts cs /\ apart (tree_at h) cs es F /\ ~ In i F /\ linked h F.

  Lemma ev_absorb h i k bts pre hc post pre' hb hes post' F :
    holds h i k bts (pre ++ hc :: post) (pre' ++ Comm k hb hes :: post') F -> length pre = length pre' -> (forall y, In y pre' -> is_kind k y = false) ->
    exists hcs hes' h' F', hes' = hes /\
      evaluates (fun n => absorb offset n i hc) h tt h'
      /\ holds h' i k (simp_base offset k (cupdate bts hb) (length (pre' ++ Comm k hb hes :: post'))) (pre ++ post ++ hcs) (pre' ++ post' ++ hes) F'
      /\ incl F' F /\ within h h' i F /\ length hcs = length hes
      /\ (children_of h i (pre ++ hc :: post) -> children_of h' i (pre ++ post ++ hcs)).
  Proof.
    intros (D & Aa & Hi & L) Len Hk.
    destruct (apart_split _ _ _ _ _ _ Len Aa) as (F1 & F2 & -> & A1 & A2 & D12).
    inversion A2 as [|x y ids0 xs ys jds T A3 Dj]; subst. inversion T as [i0 k0 b0 hcs es0 G Dh Ah Hh|]; subst.
    assert (Lens : length (pre ++ hc :: post) = length (pre' ++ Comm k hb hes :: post')) by (eapply apart_length; exact Aa).
    assert (Nhi : hc <> i) by (intros ->; apply Hi, in_app_iff; right; left; reflexivity).
    assert (NiG : ~ In i G) by (intros Z; apply Hi, in_app_iff; right; right; apply in_app_iff; auto).
    set (bts' := simp_base offset k (cupdate bts hb) (length (pre ++ hc :: post))).
    set (h1 := upd h i (Obj (root (obj h i)) (parent (obj h i)) (BComm k bts' (pre ++ hc :: post)))).
    destruct (ev_set_parents h1 i hcs) as (h2 & us & E2 & R2 & P2).
    assert (IG : incl hcs G) by (eapply apart_tops; eassumption).
    assert (D2 : forall j, j <> i -> data (obj h2 j) = data (obj h j)).
    { intros j Hj. destruct R2 as (_ & Dd & _). rewrite Dd. unfold h1. rewrite upd_other by exact Hj. reflexivity. }
    assert (Dall : forall j, In j (F1 ++ (hc :: G) ++ jds) -> data (obj h2 j) = data (obj h j)).
    { intros j Hj. apply D2. intros ->. contradiction. }
    set (h3 := upd h2 i (Obj (root (obj h2 i)) (parent (obj h2 i)) (BComm k bts' (pre ++ post ++ hcs)))).
    assert (D3 : forall j, In j (F1 ++ (hc :: G) ++ jds) -> data (obj h3 j) = data (obj h j)).
    { intros j Hj. unfold h3. rewrite upd_other by (intros ->; contradiction). apply Dall, Hj. }
    assert (O3 : forall j, j <> i -> ~ In j hcs -> obj h3 j = obj h j).
    { intros j Hj Hj2. unfold h3. rewrite upd_other by exact Hj. destruct R2 as (_ & _ & _ & O). rewrite O by exact Hj2. unfold h1. apply upd_other, Hj. }
    assert (P3 : children_of h3 i hcs).
    { intros c Hc. unfold h3. rewrite upd_other; [apply P2, Hc|]. intros ->. apply NiG, IG, Hc. }
    exists hcs, hes, h3, (F1 ++ jds ++ G). split; [reflexivity|]. split; [|split; [|split; [|split; [|split]]]].
    - unfold absorb. eapply ev_bind; [apply ev_get|]. cbv beta. eapply ev_bind; [apply ev_get|]. cbv beta. rewrite D, Dh. fold bts'.
      eapply ev_bind; [apply ev_set_data|]. cbv beta. fold h1. eapply ev_bind; [exact E2|]. cbv beta. eapply ev_bind; [|cbv beta; apply ev_set_data].
      rewrite <- !app_assoc. cbn [app]. 
      assert (S2 : forall cs es js, apart (tree_at h) cs es js -> incl js (F1 ++ (hc :: G) ++ jds) -> Forall2 (some_tree h2) cs es).
      { intros cs es js As Is. eapply F2_impl; [|eapply apart_Forall2, apart_frame; [exact As|intros j Hj; apply Dall, Is, Hj]]. intros x y (js' & _ & Q). exists js'. exact Q. }
      eapply (ev_remove h2 hc (Comm k hb hes) pre hc (post ++ hcs) pre' (Comm k hb hes) (post' ++ hes)).
      + exists (hc :: G). eapply tree_frame; [exact T|]. intros j Hj. apply Dall. apply in_app_iff; right; apply in_app_iff; left; exact Hj.
      + eapply S2; [exact A1|]. intros j Hj. apply in_app_iff; auto.
      + exists (hc :: G). eapply tree_frame; [exact T|]. intros j Hj. apply Dall. apply in_app_iff; right; apply in_app_iff; left; exact Hj.
      + apply keq_refl.
      + intros y Hy. destruct (keq y (Comm k hb hes)) eqn:E; [|reflexivity]. apply (keq_kind _ _ k) in E. rewrite (Hk y Hy) in E. cbn in E. destruct k; discriminate.
      + apply Forall2_app; eapply S2; [exact A3|intros j Hj; apply in_app_iff; right; apply in_app_iff; auto|exact Ah|].
        intros j Hj. apply in_app_iff; right; right. apply in_app_iff. auto.
    - split; [unfold h3; rewrite upd_same; cbn [data]; unfold bts'; rewrite Lens; reflexivity|]. split; [|split].
      + eapply apart_frame; [|intros j Hj; apply D3; revert Hj; rewrite !in_app_iff; cbn [In]; tauto].
        apply apart_app; [exact A1|apply apart_app; [exact A3|exact Ah|]|].
        * intros j Hj K. apply (Dj j); [right; exact K|exact Hj].
        * intros j Hj K. apply (D12 j Hj). revert K. rewrite !in_app_iff; cbn [In]; tauto.
      + intros Z. apply Hi. revert Z. rewrite !in_app_iff; cbn [In]; tauto.
      + intros n c Hn Hc. assert (Hn' : In n (F1 ++ (hc :: G) ++ jds)) by (revert Hn; rewrite !in_app_iff; cbn [In]; tauto).
        rewrite D3 in Hc by exact Hn'. pose proof (L n c Hn' Hc) as Pc. rewrite <- Pc. f_equal. apply O3.
        * intros ->. apply Hi. eapply apart_children; [exact Aa|exact Hn'|exact Hc].
        * intros K. assert (n = hc) as ->.
          { assert (Some n = Some hc) by (rewrite <- Pc; apply L; [rewrite !in_app_iff; cbn [In]; auto|rewrite Dh; exact K]). congruence. }
          revert Hn. rewrite !in_app_iff. intros [Hn|[Hn|Hn]]; [apply (D12 hc Hn); left; reflexivity|exact (Dj hc (or_introl eq_refl) Hn)|exact (Hh Hn)].
    - intros j. rewrite !in_app_iff; cbn [In]; tauto.
    - apply (within_trans _ h2 _ _ _ (F1 ++ (hc :: G) ++ jds)); [|apply set_data_within|apply incl_refl]. apply (within_trans _ h1 _ _ _ (F1 ++ (hc :: G) ++ jds)); [apply set_data_within| |apply incl_refl].
      apply reparented_within; [|exact Hi]. eapply reparented_incl; [exact R2|]. intros j Hj. apply in_app_iff; right; right. apply in_app_iff. left. apply IG, Hj.
    - eapply apart_length; exact Ah.
    - intros C c Hc. rewrite !in_app_iff in Hc. destruct (in_dec N.eq_dec c hcs) as [K|K]; [apply P3, K|]. rewrite O3; [apply C|intros ->|exact K].
      + rewrite in_app_iff; cbn [In]. tauto.
      + destruct Hc as [Hc|[Hc|Hc]]; [|  |contradiction].
        * apply Hi, in_app_iff; left. eapply apart_tops; eassumption.
        * apply Hi, in_app_iff; right. apply in_app_iff; right. eapply apart_tops; eassumption.
  Qed.

  Definition same_kind (k : kind) (cs : list ref) (es : list kex) : list ref := map fst (filter snd (combine cs (map (is_kind k) es))).
  Lemma absorb_one_comm k st hb hes : absorb_one offset k st (Comm k hb hes) =
    (simp_base offset k (cupdate (fst st) hb) (length (snd st)),
     match list_remove (fun y => keq y (Comm k hb hes)) (snd st ++ hes) with Some r => r | None => snd st ++ hes end).
  Proof. reflexivity. Qed.
  Lemma ev_absorbs i k rest : forall h bts pre app_ pre' rest' app' F,
    holds h i k bts (pre ++ rest ++ app_) (pre' ++ rest' ++ app') F -> length pre = length pre' -> length rest = length rest' -> (forall y, In y pre' -> is_kind k y = false) ->
    exists h' us cs F', evaluates (fun n => hmap (absorb offset n i) (same_kind k rest rest')) h us h'
      /\ (let st := fold_left (absorb_one offset k) (filter (is_kind k) rest') (bts, pre' ++ rest' ++ app') in holds h' i k (fst st) cs (snd st) F')
      /\ incl F' F /\ within h h' i F /\ (children_of h i (pre ++ rest ++ app_) -> children_of h' i cs).
  Proof.
    induction rest as [|c rest IH]; intros h bts pre app_ pre' rest' app' F H Len Lr Hk; destruct rest' as [|e rest']; try discriminate.
    - exists h, [], (pre ++ [] ++ app_), F. split; [apply (ev_nil (fun n => absorb offset n i))|]. split; [exact H|]. split; [apply incl_refl|]. split; [|auto].
      split; [reflexivity|]. split; [reflexivity|]. split; reflexivity.
    - unfold same_kind. cbn [combine map filter snd fst]. destruct (is_kind k e) eqn:K.
      + destruct e as [k' hb hes|]; [|discriminate]. assert (k' = k) as -> by (destruct k, k'; cbn in K; congruence).
        cbn [app] in H. destruct (ev_absorb h i k bts pre c (rest ++ app_) pre' hb hes (rest' ++ app') F H Len Hk)
          as (hcs & hes' & h1 & F1 & _ & E1 & H1 & I1 & W1 & Lh & C1).
        rewrite <- (app_assoc rest) in H1, C1. rewrite <- (app_assoc rest') in H1. destruct (IH h1 _ pre (app_ ++ hcs) pre' rest' (app' ++ hes) F1 H1 Len ltac:(cbn in Lr; lia) Hk)
          as (h2 & us & cs & F2 & E2 & H2 & I2 & W2 & C2).
        exists h2, (tt :: us), cs, F2. split; [cbn [map fst]; eapply (ev_cons (fun n => absorb offset n i)); [exact E1|exact E2]|]. split; [|split; [|split]].
        * cbn [fold_left]. rewrite absorb_one_comm. cbn [fst snd app]. rewrite <- !app_assoc. cbn [app].
          rewrite remove_skip; [rewrite <- (app_assoc rest'); exact H2|apply keq_refl|]. intros y Hy. destruct (keq y (Comm k hb hes)) eqn:E; [|reflexivity].
          apply (keq_kind _ _ k) in E. rewrite (Hk y Hy) in E. rewrite K in E. discriminate.
        * eapply incl_tran; eassumption.
        * eapply within_trans; eassumption.
        * intros C. apply C2, C1, C.
      + destruct (IH h bts (pre ++ [c]) app_ (pre' ++ [e]) rest' app' F) as (h2 & us & cs & F2 & E2 & H2 & I2 & W2 & C2).
        * rewrite <- !app_assoc. exact H.
        * rewrite !app_length. cbn. lia.
        * cbn in Lr; lia.
        * intros y Hy. apply in_app_iff in Hy as [Hy|[<-|[]]]; auto.
        * exists h2, us, cs, F2. split; [exact E2|]. rewrite <- !app_assoc in H2, C2. auto.
  Qed.
End Simplify.

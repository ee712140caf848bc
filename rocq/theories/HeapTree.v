(** Lemmas for C19: new_tree_with_self_replaced and traverse. *)
From Coq Require Import List Bool Arith ZArith NArith Lia Permutation.
From Verif Require Import Py UtilModel KexModel KexSpec KexProofs KexSimp OpsModel HeapModel HeapSpec HeapBase HeapSimp HeapSimp2 HeapNew HeapOps HeapOps2 HeapRepl HeapMix HeapSpoil.
Import ListNotations.

Section Tree.
  Context (offset : bool).
  Notation leaf b := (mkl offset KSum [b] []).
  (** The object [s] stands for a place of the tree, the top included. *)
  Definition placed (h : heap) (i : ref) (e : kex) (s : ref) (en : kex) (f : kex -> kex) (cl : bool) : Prop :=
    (s = i /\ en = e /\ (f = fun n => n) /\ cl = true)
    \/ (s <> i /\ exists p, spot offset h i e s en f p cl /\ parent (obj h s) = Some p /\ root (obj h s) = Some i).
  (** A new expression made of objects from [lo] on, with a node [r] with the tree [er]. *)
  Definition planted (h : heap) (lo : N) (e : kex) (r : ref) (er : kex) (ids : list ref) : Prop :=
    exists t, expression h t e ids /\ (forall j, In j ids -> (lo <= j)%N) /\ root (obj h r) = Some t /\ exists rids, tree_at h r er rids /\ incl rids ids.

  Theorem ev_new_tree h i e ids s sids en f cl r er rids : expression h i e ids -> placed h i e s en f cl -> tree_at h s en sids ->
    tree_at h r er rids -> allocated h rids -> linked h rids ->
    (forall j, In j rids -> ~ In j ids \/ (is_change en = true /\ cl = true /\ In j sids)) ->
    exists h' ids', evaluates (fun n => new_tree_with_self_replaced n s r) h (next h + r)%N h' /\ ext h h' /\ planted h' (next h) (f er) (next h + r)%N er ids'.
  Proof.
    intros (Te & (Pi & Le & Ro) & Ae) Pl Ts Tr Ar Lr Sep.
    set (d := next h). set (h1 := doubled h). set (r' := (d + r)%N). set (rids' := map (N.add d) rids).
    assert (X1 : ext h h1) by apply doubled_ext.
    assert (T1 : tree_at h1 r' er rids') by (apply tree_copy; exact Tr).
    assert (L1 : linked h1 rids') by (apply linked_copy; exact Lr).
    assert (A1 : forall j, In j rids' -> (d <= j)%N /\ (j < next h1)%N) by (apply alloc_copy; exact Ar).
    assert (Hr' : In r' rids') by (eapply tree_top; exact T1).
    assert (S1 : forall q, obj h1 (d + q)%N = shift d (obj h q)) by (intros q; apply doubled_copy).
    destruct Pl as [(-> & -> & -> & ->)|(Ns & p & Sp & Ps & Rs)].
    - set (h2 := upd h1 r' (Obj (root (obj h1 r')) None (data (obj h1 r')))).
      assert (D2 : forall j, data (obj h2 j) = data (obj h1 j)). { intros j. destruct (N.eq_dec j r') as [->|N]; [unfold h2; rewrite upd_same; reflexivity|unfold h2; rewrite upd_other by exact N; reflexivity]. }
      assert (T2 : tree_at h2 r' er rids') by (eapply tree_frame; [exact T1|intros j _; apply D2]).
      destruct (ev_set_root h2 r' er rids' None T2) as (h3 & E3 & R3). pose proof R3 as (N3 & I3 & O3).
      assert (D3 : forall j, data (obj h3 j) = data (obj h1 j)) by (intros j; rewrite (rerooted_data _ _ _ _ R3); apply D2).
      assert (P3 : forall j, j <> r' -> parent (obj h3 j) = parent (obj h1 j)). { intros j N. rewrite (rerooted_parent _ _ _ _ R3). unfold h2. rewrite upd_other by exact N. reflexivity. }
      assert (T3 : tree_at h3 r' er rids') by (eapply tree_frame; [exact T1|intros j _; apply D3]).
      assert (Al3 : allocated h3 rids') by (intros j Hj; rewrite N3; apply A1, Hj).
      exists h3, rids'. split; [|split].
      + unfold new_tree_with_self_replaced. eapply ev_bind; [apply ev_deepcopy|]. cbv beta zeta. fold d h1 r'. eapply (ev_bind (fun _ => is_root (d + i)%N) _ h1 true h1).
        * unfold is_root. eapply ev_bind; [apply ev_get|]. cbv beta. rewrite S1. cbn [shift root parent]. rewrite (Ro i (tree_top _ _ _ _ Te)), Pi. cbn [option_map]. rewrite N.eqb_refl. apply ev_ret.
        * cbv beta iota. eapply ev_bind; [apply ev_set_parent|]. cbv beta. fold h2. eapply ev_bind; [exact E3|]. apply ev_ret.
      + split; [rewrite N3; apply X1|]. intros j Hj. rewrite O3 by (intros K; apply A1 in K; lia). unfold h2. rewrite upd_other by (intros ->; apply A1 in Hr'; lia). apply X1, Hj.
      + exists r'. split; [|split; [intros j Hj; apply A1, Hj|split; [rewrite I3 by exact Hr'; reflexivity|exists rids'; split; [exact T3|apply incl_refl]]]]. split; [exact T3|]. split; [|exact Al3]. split; [|split].
        * rewrite (rerooted_parent _ _ _ _ R3). unfold h2. rewrite upd_same. reflexivity.
        * intros n c Hn Hc. rewrite D3 in Hc. rewrite P3; [apply L1; assumption|]. intros ->. exact (tree_top_no_child _ _ _ _ _ T1 Hn Hc).
        * intros n Hn. rewrite I3 by exact Hn. reflexivity.
    - set (p' := (d + p)%N). set (i' := (d + i)%N). set (ids' := map (N.add d) ids). set (s' := (d + s)%N).
      assert (Ti : tree_at h1 i' e ids') by (apply tree_copy; exact Te).
      assert (Li : linked h1 ids') by (apply linked_copy; exact Le).
      assert (Ai : forall j, In j ids' -> (d <= j)%N /\ (j < next h1)%N) by (apply alloc_copy; exact Ae).
      assert (Si : spot offset h1 i' e s' en f p' cl) by (apply spot_copy; exact Sp).
      assert (Tsi : tree_at h1 s' en (map (N.add d) sids)) by (apply tree_copy; exact Ts).
      assert (Ri : forall j, In j ids' -> root (obj h1 j) = Some i'). { intros j Hj. apply in_shift in Hj as (q & -> & Hq). rewrite S1. cbn [shift root]. rewrite (Ro q Hq). reflexivity. }
      set (h2 := upd h1 r' (Obj (root (obj h1 r')) (Some p') (data (obj h1 r')))).
      assert (D2 : forall j, data (obj h2 j) = data (obj h1 j)). { intros j. destruct (N.eq_dec j r') as [->|N]; [unfold h2; rewrite upd_same; reflexivity|unfold h2; rewrite upd_other by exact N; reflexivity]. }
      assert (T2 : tree_at h2 r' er rids') by (eapply tree_frame; [exact T1|intros j _; apply D2]).
      destruct (ev_set_root h2 r' er rids' (Some i') T2) as (h3 & E3 & R3). pose proof R3 as (N3 & I3 & O3).
      assert (D3 : forall j, data (obj h3 j) = data (obj h1 j)) by (intros j; rewrite (rerooted_data _ _ _ _ R3); apply D2).
      assert (P3 : forall j, j <> r' -> parent (obj h3 j) = parent (obj h1 j)). { intros j N. rewrite (rerooted_parent _ _ _ _ R3). unfold h2. rewrite upd_other by exact N. reflexivity. }
      assert (P3r : parent (obj h3 r') = Some p') by (rewrite (rerooted_parent _ _ _ _ R3); unfold h2; rewrite upd_same; reflexivity).
      assert (T3 : tree_at h3 r' er rids') by (eapply tree_frame; [exact T1|intros j _; apply D3]).
      assert (T3i : tree_at h3 i' e ids') by (eapply tree_frame; [exact Ti|intros j _; apply D3]).
      assert (T3s : tree_at h3 s' en (map (N.add d) sids)) by (eapply tree_frame; [exact Tsi|intros j _; apply D3]).
      assert (S3 : spot offset h3 i' e s' en f p' cl) by (eapply spot_frame; [exact Ti|exact Si|intros j _; apply D3]).
      destruct (plug offset _ _ _ _ _ _ _ _ S3 _ T3i) as (kept & Kc & Kp & Ki & Kl & Kd & Kr).
      assert (Dk : disjoint kept rids').
      { intros j Hj K. apply in_shift in K as (q & -> & Hq). destruct (Sep q Hq) as [Sq|(Ch & Ne & Is)].
        - apply Ki in Hj. apply in_shift in Hj as (q' & E & Hq'). apply add_inj in E. subst. contradiction.
        - destruct (Kd Ch Ne _ T3s) as [Dk _]. apply (Dk _ Hj). apply in_map, Is. }
      destruct (Kr r' er rids' T3 Dk) as (b & idsn & E4 & C4 & T4 & I4 & J4). set (h4 := written h3 p' b) in *.
      assert (Np : p' <> r') by (intros K; apply (Dk p' Kp); rewrite K; exact Hr').
      assert (Npr : ~ In p' rids') by (apply Dk, Kp).
      assert (P4 : forall j, parent (obj h4 j) = parent (obj h3 j)). { intros j. unfold h4, written. destruct (N.eq_dec j p') as [->|N]; [rewrite upd_same; reflexivity|rewrite upd_other by exact N; reflexivity]. }
      assert (R4 : forall j, root (obj h4 j) = root (obj h3 j)). { intros j. unfold h4, written. destruct (N.eq_dec j p') as [->|N]; [rewrite upd_same; reflexivity|rewrite upd_other by exact N; reflexivity]. }
      assert (D4 : forall j, j <> p' -> data (obj h4 j) = data (obj h1 j)) by (intros j N; unfold h4; rewrite written_other by exact N; apply D3).
      assert (Nk : forall j, In j kept -> j <> r') by (intros j Hj ->; exact (Dk r' Hj Hr')).
      assert (Lo : forall j, In j idsn -> (d <= j)%N /\ (j < next h1)%N) by (intros j Hj; apply I4, in_app_iff in Hj as [Hj|Hj]; [apply Ai, Ki, Hj|apply A1, Hj]).
      assert (N4 : next h4 = next h1) by (cbn; rewrite N3; reflexivity).
      exists h4, idsn. split; [|split].
      + unfold new_tree_with_self_replaced. eapply ev_bind; [apply ev_deepcopy|]. cbv beta zeta. fold d h1 r' s'. eapply (ev_bind (fun _ => is_root s') _ h1 false h1).
        * unfold is_root. eapply ev_bind; [apply ev_get|]. cbv beta. unfold s' at 1. rewrite S1. cbn [shift root parent]. rewrite Rs. cbn [option_map].
          destruct (N.eqb_spec (d + i)%N s') as [K|_]; [exfalso; apply Ns; unfold s' in K; lia|apply ev_ret].
        * cbv beta iota. eapply ev_bind; [apply ev_get|]. cbv beta. assert (Ep : parent (obj h1 s') = Some p') by (unfold s'; rewrite S1; cbn [shift parent]; rewrite Ps; reflexivity).
          assert (Er : root (obj h1 s') = Some i') by (unfold s'; rewrite S1; cbn [shift root]; rewrite Rs; reflexivity). rewrite Ep, Er.
          eapply ev_bind; [apply ev_set_parent|]. cbv beta. fold h2. eapply ev_bind; [exact E3|]. exact E4.
      + split; [rewrite N4; apply X1|]. intros j Hj. unfold h4, written. rewrite upd_other by (intros ->; unfold p', d in Hj; lia).
        rewrite O3 by (intros K; apply A1 in K; unfold d in K; lia). unfold h2. rewrite upd_other by (intros ->; apply A1 in Hr'; unfold d in Hr'; lia). apply X1, Hj.
      + exists i'. split; [|split; [intros j Hj; apply Lo, Hj|split; [rewrite R4, I3 by exact Hr'; reflexivity|]]].
        * split; [exact T4|]. split; [|intros j Hj; rewrite N4; apply Lo, Hj]. split; [|split].
          -- rewrite P4, P3 by (apply Nk, Kc). unfold i'. rewrite S1. cbn [shift parent]. rewrite Pi. reflexivity.
          -- intros n c Hn Hc. apply I4, in_app_iff in Hn as [Hn|Hn].
             ++ destruct (N.eq_dec n p') as [->|N].
                ** unfold h4 in Hc. rewrite written_same in Hc. destruct (C4 c Hc) as [->|[Hk Hc']]; [rewrite P4; exact P3r|].
                   rewrite P4, P3 by (apply Nk, Hk). rewrite D3 in Hc'. apply Li; [apply Ki, Kp|exact Hc'].
                ** rewrite D4 in Hc by exact N. assert (Hk : In c kept) by (apply (Kl n c Hn N); rewrite D3; exact Hc). rewrite P4, P3 by (apply Nk, Hk). apply Li; [apply Ki, Hn|exact Hc].
             ++ rewrite D4 in Hc by (intros ->; contradiction). rewrite P4, P3; [apply L1; assumption|]. intros ->. exact (tree_top_no_child _ _ _ _ _ T1 Hn Hc).
          -- intros n Hn. rewrite R4. destruct (in_dec N.eq_dec n rids') as [Hj|Hj]; [rewrite I3 by exact Hj; reflexivity|]. apply I4, in_app_iff in Hn as [Hn|Hn]; [|contradiction].
             rewrite O3 by exact Hj. unfold h2. rewrite upd_other by (apply Nk, Hn). apply Ri, Ki, Hn.
        * exists rids'. split; [|exact J4]. eapply tree_frame; [exact T1|]. intros j Hj. apply D4. intros ->. contradiction.
  Qed.

  (** As [planted], with a part shared by two nodes; in this case [er] is a branch of a Change. *)
  Definition muddied (h : heap) (lo : N) (e : kex) (r : ref) (er : kex) (ids : list ref) : Prop :=
    exists t own sh, ids = own ++ sh /\ mixed offset h sh t e own /\ (forall j, In j ids -> (lo <= j)%N /\ (j < next h)%N) /\ root (obj h r) = Some t /\ tree_at h r er sh.
  Lemma branch_ref_copy h s r en er : branch_ref h s r en er -> branch_ref (doubled h) (next h + s)%N (next h + r)%N en er.
  Proof.
    intros (o & l & rr & l' & r' & D & -> & B). do 5 eexists. split; [rewrite doubled_copy; cbn [shift data]; rewrite D; reflexivity|]. split; [reflexivity|].
    destruct B as [[-> ->]|[-> ->]]; [left|right]; auto.
  Qed.
  Theorem ev_spoilt_tree h i e ids s sids en f r er : expression h i e ids -> placed h i e s en f false -> tree_at h s en sids -> branch_ref h s r en er -> normal offset er -> ~ singleton er ->
    exists h' ids', evaluates (fun n => new_tree_with_self_replaced n s r) h (next h + r)%N h' /\ ext h h' /\ muddied h' (next h) (f er) (next h + r)%N er ids'.
  Proof.
    intros (Te & (Pi & Le & Ro) & Ae) Pl Ts Br Ne Se. destruct (branch_ref_tree _ _ _ _ _ _ Ts Br) as (rids & Tr & Irs & _).
    set (d := next h). set (h1 := doubled h). set (r' := (d + r)%N). set (rids' := map (N.add d) rids).
    assert (X1 : ext h h1) by apply doubled_ext.
    assert (T1 : tree_at h1 r' er rids') by (apply tree_copy; exact Tr).
    assert (Hr' : In r' rids') by (eapply tree_top; exact T1).
    assert (S1 : forall q, obj h1 (d + q)%N = shift d (obj h q)) by (intros q; apply doubled_copy).
    destruct Pl as [(_ & _ & _ & K)|(Ns & p & Sp & Ps & Rs)]; [discriminate|].
    set (p' := (d + p)%N). set (i' := (d + i)%N). set (ids' := map (N.add d) ids). set (s' := (d + s)%N).
    assert (Ti : tree_at h1 i' e ids') by (apply tree_copy; exact Te).
    assert (Ai : forall j, In j ids' -> (d <= j)%N /\ (j < next h1)%N) by (apply alloc_copy; exact Ae).
    assert (Si : spot offset h1 i' e s' en f p' false) by (apply spot_copy; exact Sp).
    set (h2 := upd h1 r' (Obj (root (obj h1 r')) (Some p') (data (obj h1 r')))).
    assert (D2 : forall j, data (obj h2 j) = data (obj h1 j)). { intros j. destruct (N.eq_dec j r') as [->|N]; [unfold h2; rewrite upd_same; reflexivity|unfold h2; rewrite upd_other by exact N; reflexivity]. }
    assert (T2 : tree_at h2 r' er rids') by (eapply tree_frame; [exact T1|intros j _; apply D2]).
    destruct (ev_set_root h2 r' er rids' (Some i') T2) as (h3 & E3 & R3). pose proof R3 as (N3 & I3 & O3).
    assert (D3 : forall j, data (obj h3 j) = data (obj h1 j)) by (intros j; rewrite (rerooted_data _ _ _ _ R3); apply D2).
    assert (T3 : tree_at h3 r' er rids') by (eapply tree_frame; [exact T1|intros j _; apply D3]).
    assert (T3i : tree_at h3 i' e ids') by (eapply tree_frame; [exact Ti|intros j _; apply D3]).
    assert (B3 : branch_ref h3 s' r' en er). { destruct (branch_ref_copy _ _ _ _ _ Br) as (o & l & rr & l1 & r1 & D & Q). exists o, l, rr, l1, r1. split; [rewrite D3; exact D|exact Q]. }
    assert (S3 : spot offset h3 i' e s' en f p' false) by (eapply spot_frame; [exact Ti|exact Si|intros j _; apply D3]).
    destruct (spoil offset _ _ _ _ _ _ _ _ S3 eq_refl ids' r' er rids' T3i B3 T3 Ne Se) as (b & idsn & E4 & M4 & I4 & J4 & Hp & Np). set (h4 := written h3 p' b) in *.
    assert (N4 : next h4 = next h1) by (cbn; rewrite N3; reflexivity).
    exists h4, (idsn ++ rids'). split; [|split].
    - unfold new_tree_with_self_replaced. eapply ev_bind; [apply ev_deepcopy|]. cbv beta zeta. fold d h1 r' s'. eapply (ev_bind (fun _ => is_root s') _ h1 false h1).
      + unfold is_root. eapply ev_bind; [apply ev_get|]. cbv beta. unfold s' at 1. rewrite S1. cbn [shift root parent]. rewrite Rs. cbn [option_map].
        destruct (N.eqb_spec (d + i)%N s') as [K|_]; [exfalso; apply Ns; unfold s' in K; lia|apply ev_ret].
      + cbv beta iota. eapply ev_bind; [apply ev_get|]. cbv beta. assert (Ep : parent (obj h1 s') = Some p') by (unfold s'; rewrite S1; cbn [shift parent]; rewrite Ps; reflexivity).
        assert (Er : root (obj h1 s') = Some i') by (unfold s'; rewrite S1; cbn [shift root]; rewrite Rs; reflexivity). rewrite Ep, Er.
        eapply ev_bind; [apply ev_set_parent|]. cbv beta. fold h2. eapply ev_bind; [exact E3|]. exact E4.
    - split; [rewrite N4; apply X1|]. intros j Hj. unfold h4, written. rewrite upd_other by (intros ->; unfold p', d in Hj; lia).
      rewrite O3 by (intros K; apply J4, Ai in K; unfold d in K; lia). unfold h2. rewrite upd_other by (intros ->; apply J4, Ai in Hr'; unfold d in Hr'; lia). apply X1, Hj.
    - exists i', idsn, rids'. split; [reflexivity|]. split; [exact M4|]. split; [|split].
      + intros j Hj. rewrite N4. apply Ai. apply in_app_iff in Hj as [Hj|Hj]; auto.
      + unfold h4, written. rewrite upd_other by (intros ->; contradiction). rewrite I3 by exact Hr'. reflexivity.
      + eapply tree_frame; [exact T3|]. intros j Hj. apply written_other. intros ->. contradiction.
  Qed.

  (** ** traverse *)
  (** The places of a tree (OpsModel.v), with the last argument of [spot] *)
  Notation place := (kex * (kex -> kex) * bool)%type.
  Definition marks_children (k : kind) (bts : counter) (cts : list kex) (l : list (nat * (kex * list place))) : list place :=
    concat (map (fun ico : nat * (kex * list place) =>
                       let i := fst ico in let c := fst (snd ico) in
                       (c, fun n => Comm k bts (remove_eq c cts ++ [n]), negb (existsb (fun z => keq z c) (firstn i cts)))
                       :: map (fun x => (fst (fst x), fun n => Comm k bts (set_nth i cts (snd (fst x) n)), snd x)) (snd (snd ico))) l).
  Definition marks_branch (mkb mkl : kex -> kex) (below : kex -> list place) (b : branch) : list place :=
    match b with
    | inl b => [(leaf b, mkl, true)]
    | inr x => (x, mkb, true) :: map (fun x => (fst (fst x), fun n => mkb (snd (fst x) n), snd x)) (below x)
    end.
  Fixpoint marks_below (e : kex) : list place :=
    match e with
    | Comm k bts cts => marks_children k bts cts (combine (seq 0 (length cts)) (map (fun c => (c, marks_below c)) cts))
    | Change o l r => marks_branch (fun n => Change o (inr n) r) (fun n => Change o l (inr n)) marks_below l
                      ++ marks_branch (fun n => Change o l (inr n)) (fun n => Change o l (inr n)) marks_below r
    end.
  Lemma marks_occs e : map fst (marks_below e) = occs_below offset e.
  Proof.
    induction e as [k bts es IH|o l r IHl IHr] using kex_ind'.
    - cbn [marks_below occs_below]. unfold marks_children. rewrite concat_map. f_equal.
      match goal with |- map _ (map ?f _) = map ?g _ => assert (Q : forall L m, (forall c, In c L -> map fst (marks_below c) = occs_below offset c) ->
        map (map fst) (map f (combine (seq m (length L)) (map (fun c => (c, marks_below c)) L))) = map g (combine (seq m (length L)) (map (fun c => (c, occs_below offset c)) L))) end.
      { intros L. induction L as [|c L IHL]; intros m H; [reflexivity|]. cbn [length seq map combine fst snd]. f_equal; [|apply IHL; intros d Hd; apply H; right; exact Hd].
        f_equal. rewrite <- (H c (or_introl eq_refl)), !map_map. reflexivity. }
      apply Q, IH.
    - cbn [marks_below occs_below]. rewrite map_app. f_equal; [destruct l as [b|x]|destruct r as [b|x]]; cbn [marks_branch map fst]; try reflexivity; f_equal;
        [rewrite <- (IHl x eq_refl)|rewrite <- (IHr x eq_refl)]; rewrite !map_map; reflexivity.
  Qed.
  Definition occurs (lo : N) (h : heap) (ids : list ref) (i : ref) (e : kex) (t : ref) (s : ref) (x : place) : Prop :=
    exists p sids, spot offset h i e s (fst (fst x)) (snd (fst x)) p (snd x) /\ parent (obj h s) = Some p /\ root (obj h s) = Some t /\ good_branch h (inr s) (inr (fst (fst x))) sids
      /\ ((In s ids /\ s <> i) \/ (lo <= s)%N).
  Lemma good_top h s e sids : good_branch h (inr s) (inr e) sids -> In s sids.
  Proof. intros (B & _). eapply branch_child; [exact B|reflexivity]. Qed.
  Lemma occurs_ext lo h h' ids i e t s x : tree_at h i e ids -> allocated h ids -> ext h h' -> occurs lo h ids i e t s x -> occurs lo h' ids i e t s x.
  Proof.
    intros T A X (p & sids & Sp & Pa & Ro & G & W). assert (Os : obj h' s = obj h s). { apply X. destruct G as (B & Al & L). apply Al. eapply branch_child; [exact B|reflexivity]. }
    exists p, sids. split; [|split; [|split; [|split]]].
    - eapply spot_frame; [exact T|exact Sp|]. intros j Hj. f_equal. apply X, A, Hj.
    - rewrite Os; exact Pa.
    - rewrite Os; exact Ro.
    - eapply good_branch_ext; eassumption.
    - exact W.
  Qed.
  Lemma ev_leaf h b i t : exists s h' sids,
    evaluates (fun n => let* s := new_list offset n KSum [b] [] in let* _ := set_root n s (Some t) in let* _ := set_parent s (Some i) in hret [s]) h [s] h'
    /\ ext h h' /\ parent (obj h' s) = Some i /\ root (obj h' s) = Some t /\ good_branch h' (inr s) (inr (leaf b)) sids /\ (next h <= s)%N.
  Proof.
    destruct (makes_leaf offset h KSum [b]) as (s & h1 & E1 & (X1 & sids & T1 & R1 & L1 & _)). assert (Hs : In s sids) by (eapply tree_top; exact T1).
    destruct (ev_set_root h1 s (leaf b) sids (Some t) T1) as (h2 & E2 & R2). pose proof R2 as (N2 & I2 & O2).
    set (h3 := upd h2 s (Obj (root (obj h2 s)) (Some i) (data (obj h2 s)))).
    assert (D3 : forall j, data (obj h3 j) = data (obj h1 j)).
    { intros j. unfold h3. destruct (N.eq_dec j s) as [->|N]; [rewrite upd_same; cbn [data]|rewrite upd_other by exact N]; apply (rerooted_data _ _ _ _ R2). }
    exists s, h3, sids. split; [|split; [|split; [|split; [|split]]]].
    - eapply ev_bind; [exact E1|]. cbv beta. eapply ev_bind; [exact E2|]. cbv beta. eapply ev_bind; [apply ev_set_parent|]. apply ev_ret.
    - split; [cbn; rewrite N2; apply X1|]. intros j Hj. unfold h3. rewrite upd_other by (intros ->; apply R1 in Hs; lia). rewrite O2 by (intros K; apply R1 in K; lia). apply X1, Hj.
    - unfold h3. rewrite upd_same. reflexivity.
    - unfold h3. rewrite upd_same. cbn [root]. rewrite I2 by exact Hs. reflexivity.
    - split; [constructor; eapply tree_frame; [exact T1|intros j _; apply D3]|]. split; [intros j Hj; cbn; rewrite N2; apply R1, Hj|].
      intros n c Hn Hc. rewrite D3 in Hc. unfold h3. rewrite upd_other by (intros ->; exact (tree_top_no_child _ _ _ _ _ T1 Hn Hc)). rewrite (rerooted_parent _ _ _ _ R2). apply L1; assumption.
    - apply R1, Hs.
  Qed.

  Definition traverses (e : kex) : Prop := forall h i ids t, tree_at h i e ids -> allocated h ids -> linked h ids -> (forall j, In j ids -> root (obj h j) = Some t) ->
    exists rs h', evaluates (fun n => traverse offset n i) h (i :: rs) h' /\ ext h h' /\ Forall2 (occurs (next h) h' ids i e t) rs (marks_below e).

  Lemma ev_traverse_list i k bts cs es t F : (forall e, In e es -> traverses e) ->
    forall es2 cs2 pre pre' F2 g, cs = pre ++ cs2 -> es = pre' ++ es2 -> length pre = length pre' -> tree_at g i (Comm k bts es) (i :: F) -> allocated g (i :: F) ->
      data (obj g i) = BComm k bts cs -> apart (tree_at g) cs2 es2 F2 -> incl F2 F -> linked g (i :: F) -> (forall j, In j (i :: F) -> root (obj g j) = Some t) ->
      exists ls g', evaluates (fun n => hmap (traverse offset n) cs2) g ls g' /\ ext g g'
        /\ Forall2 (occurs (next g) g' (i :: F) i (Comm k bts es) t) (concat ls)
             (marks_children k bts es (combine (seq (length pre') (length es2)) (map (fun c => (c, marks_below c)) es2))).
  Proof.
    intros IH. induction es2 as [|e es2 IHe]; intros cs2 pre pre' F2 g Ecs Ees Len T A D Aa I L R; inversion Aa as [|c e0 cx cs3 es3 F3 Tc A3 Dj]; subst F2 cs2; try subst es3 e0.
    - exists [], g. split; [apply (ev_nil (traverse offset))|]. split; [apply ext_refl|]. constructor.
    - assert (Icx : incl cx F) by (intros j Hj; apply I, in_app_iff; auto).
      assert (Nic : ~ In i F) by (inversion T; assumption).
      destruct (IH e) with (h := g) (i := c) (ids := cx) (t := t) as (rs & g1 & E1 & X1 & Q1); [rewrite Ees; apply in_app_iff; right; left; reflexivity|exact Tc|intros j Hj; apply A; right; apply Icx, Hj|
        eapply linked_incl; [exact L|intros j Hj; right; apply Icx, Hj]|intros j Hj; apply R; right; apply Icx, Hj|].
      assert (O1 : forall j, In j (i :: F) -> obj g1 j = obj g j) by (intros j Hj; apply X1, A, Hj).
      assert (T1 : tree_at g1 i (Comm k bts es) (i :: F)) by (eapply tree_frame; [exact T|intros j Hj; rewrite O1 by exact Hj; reflexivity]).
      assert (A1 : allocated g1 (i :: F)) by (eapply ext_alloc; eassumption).
      assert (D1 : data (obj g1 i) = BComm k bts cs) by (rewrite O1 by (left; reflexivity); exact D).
      destruct (IHe cs3 (pre ++ [c]) (pre' ++ [e]) F3 g1) as (ls & g2 & E2 & X2 & Q2).
      + rewrite <- app_assoc. exact Ecs.
      + rewrite <- app_assoc. exact Ees.
      + rewrite !app_length. cbn. lia.
      + exact T1.
      + exact A1.
      + exact D1.
      + eapply apart_frame; [exact A3|]. intros j Hj. rewrite O1 by (right; apply I, in_app_iff; auto). reflexivity.
      + intros j Hj. apply I, in_app_iff; auto.
      + eapply linked_frame; [exact T|exact L|exact O1].
      + intros j Hj. rewrite O1 by exact Hj. apply R, Hj.
      + exists ((c :: rs) :: ls), g2. split; [eapply (ev_cons (traverse offset)); [exact E1|exact E2]|]. split; [eapply ext_trans; eassumption|].
        assert (Nc : nth_error cs (length pre') = Some c) by (rewrite Ecs, <- Len; apply nth_error_mid).
        assert (Ne : nth_error es (length pre') = Some e) by (rewrite Ees; apply nth_error_mid).
        assert (Hc : In c cx) by (eapply tree_top; exact Tc).
        assert (Nci : c <> i) by (intros ->; apply Nic, Icx, Hc).
        unfold marks_children. cbn [seq length combine map concat fst snd].
        change ((c :: rs) ++ concat ls) with (c :: (rs ++ concat ls)). cbn [app]. constructor; [|apply Forall2_app].
        * eapply (occurs_ext _ g); [exact T|exact A|eapply ext_trans; eassumption|]. exists i, cx. cbn [fst snd]. split; [eapply spot_child; [exact D|exact Nc|exact Ne]|]. split; [|split; [|split]].
          -- apply L; [left; reflexivity|]. rewrite D. cbn [children]. rewrite Ecs. apply in_app_iff. right; left; reflexivity.
          -- apply R. right. apply Icx, Hc.
          -- split; [constructor; exact Tc|]. split; [intros j Hj; apply A; right; apply Icx, Hj|eapply linked_incl; [exact L|intros j Hj; right; apply Icx, Hj]].
          -- left. split; [right; apply Icx, Hc|exact Nci].
        * assert (Q : Forall2 (fun s x => occurs (next g) g1 (i :: F) i (Comm k bts es) t s (fst (fst x), fun n => Comm k bts (set_nth (length pre') es (snd (fst x) n)), snd x)) rs (marks_below e)).
          { eapply F2_impl; [|exact Q1]. intros s x (p & sids & Sp & Pa & Ro & G & W). exists p, sids. cbn [fst snd]. split; [eapply spot_below; [exact D1|exact Nc|exact Ne|exact Sp]|]. split; [exact Pa|]. split; [exact Ro|].
            split; [exact G|]. destruct W as [[W1 W2]|W]; [left|right; exact W]. split; [right; apply Icx, W1|]. intros ->. apply Nic, Icx, W1. }
          clear -Q T1 A1 X2. induction Q as [|s x rs xs Hq Q IH]; cbn [map]; constructor; [|exact IH]. eapply (occurs_ext _ g1); [exact T1|exact A1|exact X2|exact Hq].
        * rewrite app_length in Q2. cbn [length] in Q2. rewrite Nat.add_1_r in Q2. eapply F2_impl; [|exact Q2]. intros s x (p & sids & Sp & Pa & Ro & G & W). exists p, sids. repeat split; auto; try apply G.
          destruct W as [W|W]; [left; exact W|right; destruct X1 as [X1 _]; lia].
  Qed.
  (** A branch of a Change *)
  Definition marks_left (o : cpcw) (l r : branch) : list place := marks_branch (fun n => Change o (inr n) r) (fun n => Change o l (inr n)) marks_below l.
  Definition marks_right (o : cpcw) (l r : branch) : list place := marks_branch (fun n => Change o l (inr n)) (fun n => Change o l (inr n)) marks_below r.
  Definition traverse_branch (n : nat) (t i : ref) (b : base + ref) : HM (list ref) :=
    match b with
    | inr x => traverse offset n x
    | inl b => let* s := new_list offset n KSum [b] [] in let* _ := set_root n s (Some t) in let* _ := set_parent s (Some i) in hret [s]
    end.
  Lemma ev_traverse_left h i o l r l' r' F t : (forall x, l' = inr x -> traverses x) -> tree_at h i (Change o l' r') (i :: F) -> data (obj h i) = BChange o l r ->
    allocated h (i :: F) -> linked h (i :: F) -> (forall j, In j (i :: F) -> root (obj h j) = Some t) ->
    exists rs h', evaluates (fun n => traverse_branch n t i l) h rs h' /\ ext h h' /\ Forall2 (occurs (next h) h' (i :: F) i (Change o l' r') t) rs (marks_left o l' r').
  Proof.
    intros IH T D A L R. inversion T as [|i0 c0 l0 r0 l1 r1 Fl Fr D0 Bl Br Dj Hi]; subst. rewrite D in D0. injection D0 as <- <-. inversion Bl as [b|x ex cx Tx]; subst; unfold marks_left; cbn [traverse_branch marks_branch].
    - destruct (ev_leaf h b i t) as (s & h' & sids & E & X & Pa & Ro & G & Lo). exists [s], h'. split; [exact E|]. split; [exact X|]. constructor; [|constructor]. exists i, sids. cbn [fst snd].
      split; [|auto 6]. eapply spot_left_leaf. rewrite (proj2 X i) by (apply A; left; reflexivity). exact D.
    - assert (Icx : incl Fl (Fl ++ Fr)) by (apply incl_appl, incl_refl).
      destruct (IH ex eq_refl h x Fl t Tx) as (rs & h' & E & X & Q); [intros j Hj; apply A; right; apply Icx, Hj|eapply linked_incl; [exact L|intros j Hj; right; apply Icx, Hj]|intros j Hj; apply R; right; apply Icx, Hj|].
      assert (Di : data (obj h' i) = BChange o (inr x) r) by (rewrite (proj2 X i) by (apply A; left; reflexivity); exact D). assert (Hx : In x Fl) by (eapply tree_top; exact Tx).
      exists (x :: rs), h'. split; [exact E|]. split; [exact X|]. constructor.
      + eapply (occurs_ext _ h); [exact T|exact A|exact X|]. exists i, Fl. cbn [fst snd]. split; [eapply spot_left; exact D|]. split; [apply L; [left; reflexivity|rewrite D; left; reflexivity]|].
        split; [apply R; right; apply Icx, Hx|]. split; [|left; split; [right; apply Icx, Hx|intros ->; apply Hi, Icx, Hx]].
        split; [constructor; exact Tx|]. split; [intros j Hj; apply A; right; apply Icx, Hj|eapply linked_incl; [exact L|intros j Hj; right; apply Icx, Hj]].
      + clear E. induction Q as [|s xf rs xs Hq Q IHq]; cbn [map]; constructor; [|exact IHq]. destruct Hq as (p & sids & Sp & Pa & Ro & G & W). exists p, sids. cbn [fst snd].
        split; [eapply spot_left_below; [exact Di|exact Sp]|]. split; [exact Pa|]. split; [exact Ro|]. split; [exact G|].
        destruct W as [[W1 W2]|W]; [left|right; exact W]. split; [right; apply Icx, W1|]. intros ->. apply Hi, Icx, W1.
  Qed.
  Lemma ev_traverse_right h i o l r l' r' F t : (forall x, r' = inr x -> traverses x) -> tree_at h i (Change o l' r') (i :: F) -> data (obj h i) = BChange o l r ->
    allocated h (i :: F) -> linked h (i :: F) -> (forall j, In j (i :: F) -> root (obj h j) = Some t) ->
    exists rs h', evaluates (fun n => traverse_branch n t i r) h rs h' /\ ext h h' /\ Forall2 (occurs (next h) h' (i :: F) i (Change o l' r') t) rs (marks_right o l' r').
  Proof.
    intros IH T D A L R. inversion T as [|i0 c0 l0 r0 l1 r1 Fl Fr D0 Bl Br Dj Hi]; subst. rewrite D in D0. injection D0 as <- <-. inversion Br as [b|x ex cx Tx]; subst; unfold marks_right; cbn [traverse_branch marks_branch].
    - destruct (ev_leaf h b i t) as (s & h' & sids & E & X & Pa & Ro & G & Lo). exists [s], h'. split; [exact E|]. split; [exact X|]. constructor; [|constructor]. exists i, sids. cbn [fst snd].
      split; [|auto 6]. eapply spot_right_leaf; [rewrite (proj2 X i) by (apply A; left; reflexivity); exact D|]. intros ->. assert (K : In s Fl) by (eapply branch_child; [exact Bl|reflexivity]).
      assert (Z : (s < next h)%N) by (apply A; right; apply in_app_iff; auto). lia.
    - assert (Icx : incl Fr (Fl ++ Fr)) by (apply incl_appr, incl_refl).
      destruct (IH ex eq_refl h x Fr t Tx) as (rs & h' & E & X & Q); [intros j Hj; apply A; right; apply Icx, Hj|eapply linked_incl; [exact L|intros j Hj; right; apply Icx, Hj]|intros j Hj; apply R; right; apply Icx, Hj|].
      assert (Di : data (obj h' i) = BChange o l (inr x)) by (rewrite (proj2 X i) by (apply A; left; reflexivity); exact D). assert (Hx : In x Fr) by (eapply tree_top; exact Tx).
      exists (x :: rs), h'. split; [exact E|]. split; [exact X|]. constructor.
      + eapply (occurs_ext _ h); [exact T|exact A|exact X|]. exists i, Fr. cbn [fst snd]. split; [eapply spot_right; exact D|]. split; [apply L; [left; reflexivity|rewrite D; cbn [children]; apply in_app_iff; right; left; reflexivity]|].
        split; [apply R; right; apply Icx, Hx|]. split; [|left; split; [right; apply Icx, Hx|intros ->; apply Hi, Icx, Hx]].
        split; [constructor; exact Tx|]. split; [intros j Hj; apply A; right; apply Icx, Hj|eapply linked_incl; [exact L|intros j Hj; right; apply Icx, Hj]].
      + clear E. induction Q as [|s xf rs xs Hq Q IHq]; cbn [map]; constructor; [|exact IHq]. destruct Hq as (p & sids & Sp & Pa & Ro & G & W). exists p, sids. cbn [fst snd].
        split; [eapply spot_right_below; [exact Di|exact Sp]|]. split; [exact Pa|]. split; [exact Ro|]. split; [exact G|].
        destruct W as [[W1 W2]|W]; [left|right; exact W]. split; [right; apply Icx, W1|]. intros ->. apply Hi, Icx, W1.
  Qed.
  Theorem ev_traverse e : traverses e.
  Proof.
    induction e as [k bts es IH|o l' r' IHl IHr] using kex_ind'; intros h i ids t T A L R.
    - pose proof T as T0. inversion T0 as [i0 k0 b0 cs es0 F D Aa Hi|]; subst.
      destruct (ev_traverse_list i k bts cs es t F IH es cs [] [] F h) as (ls & h' & E & X & Q); try assumption; try reflexivity; [apply incl_refl|].
      exists (concat ls), h'. split; [|split; [exact X|exact Q]]. apply ev_step. cbn [traverse]. eapply ev_bind; [apply ev_get|]. cbv beta. rewrite D. eapply ev_bind; [exact E|]. apply ev_ret.
    - pose proof T as T0. inversion T0 as [|i0 c0 l r l1 r1 Fl Fr D Bl Br Dj Hi]; subst.
      destruct (ev_traverse_left h i o l r l' r' (Fl ++ Fr) t IHl T D A L R) as (rs & h1 & E1 & X1 & Q1).
      assert (O1 : forall j, In j (i :: Fl ++ Fr) -> obj h1 j = obj h j) by (intros j Hj; apply X1, A, Hj).
      assert (T1 : tree_at h1 i (Change o l' r') (i :: Fl ++ Fr)) by (eapply tree_frame; [exact T|intros j Hj; rewrite O1 by exact Hj; reflexivity]).
      assert (A1 : allocated h1 (i :: Fl ++ Fr)) by (eapply ext_alloc; eassumption).
      destruct (ev_traverse_right h1 i o l r l' r' (Fl ++ Fr) t IHr T1) as (rs2 & h2 & E2 & X2 & Q2); [rewrite O1 by (left; reflexivity); exact D|exact A1|eapply linked_frame; [exact T|exact L|exact O1]|
        intros j Hj; rewrite O1 by exact Hj; apply R, Hj|].
      exists (rs ++ rs2), h2. split; [|split; [eapply ext_trans; eassumption|]].
      + apply ev_step. cbn [traverse]. eapply ev_bind; [apply ev_get|]. cbv beta. rewrite D, (R i) by (left; reflexivity). eapply ev_bind; [exact E1|]. cbv beta. eapply ev_bind; [exact E2|]. apply ev_ret.
      + change (marks_below (Change o l' r')) with (marks_left o l' r' ++ marks_right o l' r'). apply Forall2_app.
        * eapply F2_impl; [|exact Q1]. intros s x. apply occurs_ext; assumption.
        * eapply F2_impl; [|exact Q2]. intros s x (p & sids & Sp & Pa & Ro & G & W). exists p, sids. repeat split; auto; try apply G. destruct W as [W|W]; [left; exact W|right; destruct X1 as [X1 _]; lia].
  Qed.
End Tree.

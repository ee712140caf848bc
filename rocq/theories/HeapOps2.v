(** Lemmas for C19: the remaining operators. *)
From Coq Require Import List Bool Arith ZArith NArith Lia Permutation.
From Verif Require Import Py UtilModel KexModel KexSpec KexProofs KexSimp OpsModel HeapModel HeapSpec HeapBase HeapSimp HeapSimp2 HeapNew HeapOps.
Import ListNotations.

Lemma makes_map {X} h (f : nat -> X -> HM ref) (g : X -> kex) l : (forall x h1, In x l -> ext h h1 -> makes h1 (fun n => f n x) (g x)) ->
  exists rs h' F, evaluates (fun n => hmap (f n) l) h rs h' /\ ext h h' /\ kids h' rs (map g l) F /\ forall j, In j F -> (next h <= j)%N.
Proof.
  assert (Q : forall h1, ext h h1 -> (forall x h1, In x l -> ext h h1 -> makes h1 (fun n => f n x) (g x)) ->
     exists rs h' F, evaluates (fun n => hmap (f n) l) h1 rs h' /\ ext h1 h' /\ kids h' rs (map g l) F /\ forall j, In j F -> (next h1 <= j)%N).
  2:{ apply Q, ext_refl. }
  induction l as [|x l IH]; intros h1 X1 H; [exists [], h1, []; split; [apply ev_nil|]; split; [apply ext_refl|]; split; [apply kids_nil|intros j []]|].
  destruct (H x h1 (or_introl eq_refl) X1) as (s & h2 & E2 & B2). pose proof B2 as (X2 & _). destruct (built_kids _ _ _ _ B2) as (F2 & K2 & Lo2).
  destruct (IH h2 (ext_trans _ _ _ X1 X2) (fun y h3 Hy => H y h3 (or_intror Hy))) as (ss & h3 & F3 & E3 & X3 & K3 & Lo3).
  exists (s :: ss), h3, (F2 ++ F3). split; [eapply ev_cons; eassumption|]. split; [eapply ext_trans; eassumption|]. split.
  - cbn [map]. apply (kids_app h3 [s] [g x] F2 ss (map g l) F3); [eapply kids_ext; [exact X3|exact K2]|exact K3|].
    intros j Hj K. apply Lo3 in K. destruct K2 as (_ & Al & _). apply Al in Hj. lia.
  - intros j Hj. apply in_app_iff in Hj as [Hj|Hj]; [apply Lo2, Hj|]. apply Lo3 in Hj. destruct X2 as [Q2 _]. lia.
Qed.
Lemma kids_offered h h' rs es F inn : kids h' rs es F -> (forall j, In j F -> (next h <= j)%N \/ In j inn) -> Forall2 (offered h h' inn) rs es.
Proof.
  intros (A & Al & L) Lo. induction A as [|x y ids xs ys jds T A IH D]; constructor.
  - exists ids. split; [exact T|]. split; [intros j Hj; apply Al, in_app_iff; auto|]. split; [eapply linked_incl; [exact L|apply incl_appl, incl_refl]|]. intros j Hj. apply Lo, in_app_iff; auto.
  - apply IH; [intros j Hj; apply Al, in_app_iff; auto|eapply linked_incl; [exact L|apply incl_appr, incl_refl]|]. intros j Hj. apply Lo, in_app_iff; auto.
Qed.

Lemma yields_two h m1 m2 inn e1 e2 : makes h m1 e1 -> (forall h1, ext h h1 -> makes h1 m2 e2) -> yields h (fun n => let* a := m1 n in let* b := m2 n in hret [a; b]) inn [e1; e2].
Proof.
  intros (a & h1 & E1 & B1) H. pose proof B1 as (X1 & _). destruct (H h1 X1) as (b & h2 & E2 & B2). pose proof B2 as (X2 & _). exists [a; b], h2. split; [|split].
  - eapply ev_bind; [exact E1|]. cbv beta. eapply ev_bind; [exact E2|]. apply ev_ret.
  - eapply ext_trans; eassumption.
  - constructor; [|constructor; [|constructor]].
    + eapply offered_ext; [exact X2|]. eapply (offered_mono h h _ []); [lia|intros j []|apply built_offered, B1].
    + eapply (offered_mono h h1 _ []); [apply X1|intros j []|apply built_offered, B2].
Qed.
Lemma yields_concat {X} h (f : nat -> X -> HM (list ref)) (g : X -> list kex) l inn : (forall x h1, In x l -> ext h h1 -> yields h1 (fun n => f n x) inn (g x)) ->
  yields h (fun n => let* ls := hmap (f n) l in hret (concat ls)) inn (concat (map g l)).
Proof.
  intros H. assert (Q : forall h1, ext h h1 -> exists ls h2, evaluates (fun n => hmap (f n) l) h1 ls h2 /\ ext h1 h2 /\ Forall2 (offered h1 h2 inn) (concat ls) (concat (map g l))).
  2:{ destruct (Q h (ext_refl h)) as (ls & h2 & E & X2 & R). exists (concat ls), h2. split; [eapply ev_bind; [exact E|apply ev_ret]|auto]. }
  induction l as [|x l IH]; intros h1 X1; [exists [], h1; split; [apply ev_nil|]; split; [apply ext_refl|constructor]|].
  destruct (H x h1 (or_introl eq_refl) X1) as (rs & h2 & E2 & X2 & R2).
  destruct (IH (fun y h3 Hy => H y h3 (or_intror Hy)) h2 (ext_trans _ _ _ X1 X2)) as (ls & h3 & E3 & X3 & R3).
  exists (rs :: ls), h3. split; [eapply ev_cons; eassumption|]. split; [eapply ext_trans; eassumption|]. cbn [map concat]. apply Forall2_app.
  - eapply F2_impl; [|exact R2]. intros a b. apply offered_ext, X3.
  - eapply F2_impl; [|exact R3]. intros a b. apply offered_mono; [apply X2|apply incl_refl].
Qed.

Section Ops.
  Context (offset : bool).
  Lemma good_comm h s k bts es sids : good_branch h (inr s) (inr (Comm k bts es)) sids -> exists cs F, data (obj h s) = BComm k bts cs /\ kids h cs es F /\ incl F sids.
  Proof.
    intros (B & A & L). inversion B as [|d x js T Hd He Hjs]; subst. inversion T as [i0 k0 b0 cs es0 F D3 A3 Hi3|]; subst. exists cs, F. split; [exact D3|]. split; [|intros j Hj; right; exact Hj].
    split; [exact A3|]. split; [intros j Hj; apply A; right; exact Hj|]. eapply linked_incl; [exact L|]. intros j Hj; right; exact Hj.
  Qed.
  Lemma good_change h s c l' r' sids : good_branch h (inr s) (inr (Change c l' r')) sids ->
    exists l r F G, data (obj h s) = BChange c l r /\ good_branch h l l' F /\ good_branch h r r' G /\ incl F sids /\ incl G sids.
  Proof.
    intros (B & A & L). inversion B as [|d x js T Hd He Hjs]; subst. inversion T as [|i0 c0 yl yr l0 r0 Fl Fr D3 Bl3 Br3 Dj3 Hi3]; subst. exists yl, yr, Fl, Fr. split; [exact D3|].
    split; [|split; [|split]].
    - split; [exact Bl3|]. split; [intros j Hj; apply A; right; apply in_app_iff; auto|]. eapply linked_incl; [exact L|]. intros j Hj; right; apply in_app_iff; auto.
    - split; [exact Br3|]. split; [intros j Hj; apply A; right; apply in_app_iff; auto|]. eapply linked_incl; [exact L|]. intros j Hj; right; apply in_app_iff; auto.
    - intros j Hj; right; apply in_app_iff; auto.
    - intros j Hj; right; apply in_app_iff; auto.
  Qed.
  Lemma good_tree h s e sids : good_branch h (inr s) (inr e) sids -> tree_at h s e sids. Proof. intros (B & _). inversion B. assumption. Qed.

  Theorem ev_swap_base h s e sids B inn : good_branch h (inr s) (inr e) sids -> yields h (fun n => swap_base offset n s B) inn (OpsModel.swap_base offset e B).
  Proof.
    intros G. unfold swap_base. eapply yields_pre; [apply ev_get|]. cbv beta. destruct e as [k bts es|c l' r'].
    - destruct (good_comm _ _ _ _ _ _ G) as (cs & F & D & K & _). rewrite D. cbn [OpsModel.swap_base].
      apply (yields_map h (fun n c => new_comm offset n k c cs) (fun c => mk offset k c es)). intros x h1 _ X1. eapply makes_comm; eapply kids_ext; [exact X1|exact K].
    - destruct (good_change _ _ _ _ _ _ G) as (l & r & Fl & Fr & D & Gl & Gr & _). rewrite D. cbn [OpsModel.swap_base].
      apply (yields_app h (fun n => match l with inl b => if base_eqb b B then hret [] else the_list (new_change offset n c (inl B) r) | inr _ => hret [] end)
                          (fun n => match r with inl b => if base_eqb b B then hret [] else the_list (new_change offset n c l (inl B)) | inr _ => hret [] end)).
      + pose proof Gl as (Bl & _). inversion Bl; subst; [|apply yields_nil]. destruct (base_eqb b B); [apply yields_nil|]. apply yields_one. eapply makes_change; [apply base_branch|exact Gr].
      + intros h1 X1. pose proof Gr as (Br & _). inversion Br; subst; [|apply yields_nil]. destruct (base_eqb b B); [apply yields_nil|]. apply yields_one.
        eapply makes_change; [eapply good_branch_ext; [exact X1|exact Gl]|apply base_branch].
  Qed.
  Lemma ev_operand_equal h a b a' b' F G : good_branch h a a' F -> good_branch h b b' G -> evaluates (fun n => operand_equal n a b) h (branch_eqb a' b') h.
  Proof.
    intros (Ba & _) (Bb & _). inversion Ba; subst; inversion Bb; subst; cbn [operand_equal branch_eqb]; try apply ev_ret. eapply ev_equal; eassumption.
  Qed.
  Theorem ev_one_change h s s' F c s2 s2' G inn : good_branch h s s' F -> match s2, s2' with Some k, Some e => good_branch h k e G | None, None => True | _, _ => False end ->
    yields h (fun n => one_change offset n s c s2) inn (OpsModel.one_change offset s' c s2').
  Proof.
    intros Gs G2. unfold one_change, OpsModel.one_change. destruct s2 as [k|], s2' as [e|]; try contradiction.
    - eapply yields_pre_n; [eapply ev_operand_equal; eassumption|]. cbv beta. destruct (branch_eqb e s'); [apply yields_one; eapply makes_change; eassumption|].
      apply (yields_two h (fun n => new_change offset n c s k) (fun n => new_change offset n c k s)); [eapply makes_change; eassumption|].
      intros h1 X1. eapply makes_change; eapply good_branch_ext; eassumption.
    - apply yields_one; eapply makes_change; eassumption.
  Qed.
  Theorem ev_both_changes h s s' F s2 s2' G inn : good_branch h s s' F -> match s2, s2' with Some k, Some e => good_branch h k e G | None, None => True | _, _ => False end ->
    yields h (fun n => both_changes offset n s s2) inn (OpsModel.both_changes offset s' s2').
  Proof.
    intros Gs G2. apply (yields_concat h (fun n c => one_change offset n s c s2) (fun c => OpsModel.one_change offset s' c s2') [CP; CW]).
    intros c h1 _ X1. eapply ev_one_change; [eapply good_branch_ext; eassumption|]. destruct s2, s2'; auto. eapply good_branch_ext; eassumption.
  Qed.
  Theorem ev_replace_node h s e s2 s2' G inn : good_branch h s2 s2' G -> (forall j, In j G -> In j inn) -> yields h (fun n => replace_node offset n s s2) inn (OpsModel.replace_node offset e s2').
  Proof.
    intros (B & A & L) I. unfold replace_node, OpsModel.replace_node. inversion B as [b0|d x js T]; subst; [apply yields_one, makes_leaf|].
    exists [d], h. split; [apply ev_ret|]. split; [apply ext_refl|]. constructor; [|constructor]. exists G. repeat split; auto.
  Qed.
  Lemma yields_branch h b b' F sids : good_branch h b b' F -> incl F sids ->
    exists r h', evaluates (fun n => match b with inl b => new_list offset n KSum [b] [] | inr x => hret x end) h r h' /\ ext h h'
      /\ offered h h' sids r (match b' with inl b => mkl offset KSum [b] [] | inr e => e end).
  Proof.
    intros (B & A & L) I. inversion B as [b0|d x js T]; subst.
    - destruct (makes_leaf offset h KSum [b0]) as (s & h' & E & Bu). exists s, h'. split; [exact E|]. split; [apply Bu|]. eapply (offered_mono h h _ []); [lia|intros j []|apply built_offered, Bu].
    - exists d, h. split; [apply ev_ret|]. split; [apply ext_refl|]. exists F. repeat split; auto.
  Qed.
  Theorem ev_remove_a_term h s e sids : good_branch h (inr s) (inr e) sids ->
    yields h (fun n => remove_a_term offset n s) (if is_change e then sids else []) (OpsModel.remove_a_term offset e).
  Proof.
    intros G. unfold remove_a_term. eapply yields_pre; [apply ev_get|]. cbv beta. destruct e as [k bts es|c l' r'].
    - destruct (good_comm _ _ _ _ _ _ G) as (cs & F & D & K & _). rewrite D. cbn [OpsModel.remove_a_term is_change]. unfold remove_args.
      assert (Len : length cs = length es) by (eapply apart_length; apply K). rewrite Len. destruct (1 <? csum bts + Z.of_nat (length es))%Z; [|apply yields_nil].
      rewrite map_app, !map_map.
      apply (yields_app h (fun n => hmap (fun bt => new_comm offset n k (cadd (cpos bts) [(bt, (-1)%Z)]) cs) (map fst (cpos bts)))
                          (fun n => hmap (fun i => new_comm offset n k (cpos bts) (drop_nth i cs)) (seq 0 (length es)))).
      + cbn [fst snd]. rewrite <- (map_map fst (fun bt => mk offset k (cadd (cpos bts) [(bt, (-1)%Z)]) es)). apply (yields_map h (fun n bt => new_comm offset n k (cadd (cpos bts) [(bt, (-1)%Z)]) cs) (fun bt => mk offset k (cadd (cpos bts) [(bt, (-1)%Z)]) es)).
        intros x h1 _ X1. eapply makes_comm; eapply kids_ext; [exact X1|exact K].
      + intros h1 X1. cbn [fst snd]. apply (yields_map h1 (fun n i => new_comm offset n k (cpos bts) (drop_nth i cs)) (fun i => mk offset k (cpos bts) (drop_nth i es))).
        intros x h2 _ X2. destruct (kids_drop h cs es F x K) as (F' & K' & _). eapply makes_comm; eapply kids_ext; [exact (ext_trans _ _ _ X1 X2)|exact K'].
    - destruct (good_change _ _ _ _ _ _ G) as (l & r & Fl & Fr & D & Gl & Gr & Il & Ir). rewrite D. cbn [OpsModel.remove_a_term is_change].
      destruct (yields_branch h l l' Fl sids Gl Il) as (r1 & h1 & E1 & X1 & Q1).
      destruct (yields_branch h1 r r' Fr sids (good_branch_ext _ _ _ _ _ X1 Gr) Ir) as (r2 & h2 & E2 & X2 & Q2).
      exists [r1; r2], h2. split; [|split; [eapply ext_trans; eassumption|]].
      + eapply (ev_cons (fun n b => match b with inl b => new_list offset n KSum [b] [] | inr x => hret x end)); [exact E1|].
        eapply (ev_cons (fun n b => match b with inl b => new_list offset n KSum [b] [] | inr x => hret x end)); [exact E2|].
        apply (ev_nil (fun n (b : base + ref) => match b with inl b => new_list offset n KSum [b] [] | inr x => hret x end)).
      + cbn [map]. constructor; [eapply offered_ext; eassumption|]. constructor; [|constructor]. eapply offered_mono; [apply X1|apply incl_refl|exact Q2].
  Qed.
  (** higher_curves *)
  Lemma ev_dels h rs es F : kids h rs es F -> (forall e, In e es -> is_change e = false) ->
    exists h' us, evaluates (fun _ => hmap del_se rs) h us h' /\ next h' = next h /\ (forall j, ~ In j F -> obj h' j = obj h j) /\ kids h' rs (map OpsModel.del_se es) F.
  Proof.
    intros K. revert h rs F K. induction es as [|y es IH]; intros h rs F (A & Al & L) C; inversion A as [|x y0 ids xs ys jds T A2 Dj]; subst.
    - exists h, []. split; [apply ev_const; reflexivity|]. split; [reflexivity|]. split; [reflexivity|]. apply kids_nil.
    - assert (Cy := C y (or_introl eq_refl)). inversion T as [i0 k0 b0 cs es0 G D3 A3 Hi3|]; subst; [|discriminate].
      set (h1 := upd h x (Obj (root (obj h x)) (parent (obj h x)) (BComm k0 (dict_del base_eqb b0 bSE) cs))).
      assert (O1 : forall j, j <> x -> obj h1 j = obj h j) by (intros j Hj; apply upd_other, Hj).
      assert (P1 : forall j, parent (obj h1 j) = parent (obj h j)). { intros j. destruct (N.eq_dec j x) as [->|N]; [unfold h1; rewrite upd_same; reflexivity|rewrite O1 by exact N; reflexivity]. }
      assert (Cx : forall j, children (data (obj h1 j)) = children (data (obj h j))).
      { intros j. destruct (N.eq_dec j x) as [->|N]; [unfold h1; rewrite upd_same, D3; reflexivity|rewrite O1 by exact N; reflexivity]. }
      assert (K1 : kids h1 xs es jds).
      { assert (Oj : forall j, In j jds -> obj h1 j = obj h j) by (intros j Hj; apply O1; intros ->; exact (Dj x (or_introl eq_refl) Hj)). split; [|split].
        - eapply apart_frame; [exact A2|]. intros j Hj. rewrite Oj by exact Hj. reflexivity.
        - intros j Hj. apply Al, in_app_iff; auto.
        - eapply apart_linked_frame; [exact A2|eapply linked_incl; [exact L|apply incl_appr, incl_refl]|exact Oj]. }
      destruct (IH h1 xs jds K1 (fun e He => C e (or_intror He))) as (h2 & us & E2 & N2 & O2 & K2).
      assert (Oi : forall j, In j (x :: G) -> obj h2 j = obj h1 j) by (intros j Hj; apply O2, Dj, Hj).
      exists h2, (tt :: us). split; [|split; [exact N2|split]].
      + eapply (ev_cons (fun _ => del_se)); [|exact E2]. unfold del_se. eapply ev_bind; [apply ev_get|]. cbv beta. rewrite D3. apply ev_set_data.
      + intros j Hj. rewrite in_app_iff in Hj. rewrite O2 by tauto. apply O1. intros ->. apply Hj. left; left; reflexivity.
      + cbn [map]. apply (kids_app h2 [x] [OpsModel.del_se (Comm k0 b0 es0)] (x :: G) xs); [|exact K2|exact Dj].
        apply kids_one.
        * cbn [OpsModel.del_se]. econstructor; [rewrite Oi by (left; reflexivity); unfold h1; rewrite upd_same; reflexivity| |exact Hi3].
          eapply apart_frame; [exact A3|]. intros j Hj. rewrite Oi by (right; exact Hj). rewrite O1; [reflexivity|]. intros ->. contradiction.
        * intros j Hj. rewrite N2. apply Al, in_app_iff; auto.
        * intros n c Hn Hc. rewrite (Oi n Hn), Cx in Hc. assert (In c (x :: G)) by (eapply tree_children; eassumption). rewrite Oi by assumption. rewrite P1. apply (L n c); [apply in_app_iff; auto|exact Hc].
  Qed.
  Lemma del_later {X} h (f : nat -> X -> HM ref) (g : X -> kex) l (t : bool) inn :
    (forall x h1, In x l -> ext h h1 -> makes h1 (fun n => f n x) (g x)) -> (forall x, is_change (g x) = false) ->
    yields h (fun n => let* res := hmap (f n) l in if t then let* _ := hmap del_se res in hret res else hret res) inn
      (if t then map OpsModel.del_se (map g l) else map g l).
  Proof.
    intros H C. destruct (makes_map h f g l H) as (rs & h1 & F & E1 & X1 & K1 & Lo1). destruct t.
    - destruct (ev_dels h1 rs (map g l) F K1) as (h2 & us & E2 & N2 & O2 & K2); [intros e He; apply in_map_iff in He as (x & <- & _); apply C|].
      exists rs, h2. split; [eapply ev_bind; [exact E1|]; cbv beta; eapply ev_bind; [exact E2|]; apply ev_ret|]. split.
      + destruct X1 as [Q U]. split; [lia|]. intros j Hj. rewrite O2; [apply U, Hj|]. intros K. apply Lo1 in K. lia.
      + eapply kids_offered; [exact K2|]. intros j Hj. left. apply Lo1, Hj.
    - exists rs, h1. split; [eapply ev_bind; [exact E1|apply ev_ret]|]. split; [exact X1|]. eapply kids_offered; [exact K1|]. intros j Hj. left. apply Lo1, Hj.
  Qed.
  Theorem ev_higher_curves h s e sids inn : good_branch h (inr s) (inr e) sids -> yields h (fun n => higher_curves offset n s) inn (OpsModel.higher_curves offset e).
  Proof.
    intros G0. unfold higher_curves. eapply yields_after; [apply makes_leaf|]. intros k2 h2 B2. cbv beta. eapply yields_after; [apply makes_leaf|]. intros k3 h3 B3. cbv beta.
    pose proof B2 as (X2 & _). pose proof B3 as (X3 & _).
    destruct (built_kids _ _ _ _ B2) as (F2 & K2 & Lo2). destruct (built_kids _ _ _ _ B3) as (F3 & K3 & Lo3).
    assert (G : good_branch h3 (inr s) (inr e) sids) by (eapply good_branch_ext; [exact (ext_trans _ _ _ X2 X3)|exact G0]).
    apply (kids_ext _ _ _ _ _ X3) in K2.
    assert (Hk : forall ct ct', In (ct, ct') [(k2, mkl offset KProd [bLIN; bLIN] []); (k3, mkl offset KProd [bLIN; bLIN; bLIN] [])] ->
              exists F, kids h3 [ct] [ct'] F /\ forall j, In j F -> (next h <= j)%N).
    { intros ct ct' [[= <- <-]|[[= <- <-]|[]]]; [exists F2; auto|exists F3; split; [exact K3|]]. intros j Hj. apply Lo3 in Hj. destruct X2 as [Q _]. lia. }
    eapply yields_pre; [apply ev_get|]. cbv beta. destruct e as [k bts es|c l' r'].
    - destruct (good_comm _ _ _ _ _ _ G) as (cs & F & D & K & I). rewrite D. destruct k; cbn [OpsModel.higher_curves].
      + set (ps := [(k2, mkl offset KProd [bLIN; bLIN] []); (k3, mkl offset KProd [bLIN; bLIN; bLIN] [])]) in *.
        change [k2; k3] with (map fst ps). change (higher_kers offset) with (map snd ps). rewrite map_map.
        assert (Z : forall n, hmap (fun ct => new_comm offset n KSum (cpos bts) (cs ++ [ct])) (map fst ps) = hmap (fun p => new_comm offset n KSum (cpos bts) (cs ++ [fst p])) ps) by reflexivity.
        apply (del_later h3 (fun n p => new_comm offset n KSum (cpos bts) (cs ++ [fst p])) (fun p => mk offset KSum (cpos bts) (es ++ [snd p])) ps); [|reflexivity].
        intros [ct ct'] h4 Hp X4. destruct (Hk ct ct' Hp) as (Fc & Kc & Loc). cbn [fst snd]. eapply makes_comm; eapply kids_app; [eapply kids_ext; [exact X4|exact K]|eapply kids_ext; [exact X4|exact Kc]|].
        intros j Hj J. apply Loc in J. pose proof G0 as (_ & Al & _). specialize (Al j (I j Hj)). lia.
      + apply (del_later h3 (fun n c => new_comm offset n KProd (cadd (cpos bts) c) cs) (fun c => mk offset KProd (cadd (cpos bts) c) es)); [|reflexivity].
        intros x h4 _ X4. eapply makes_comm; eapply kids_ext; [exact X4|exact K].
    - destruct (good_change _ _ _ _ _ _ G) as (l & r & Fl & Fr & D & Gl & Gr & Il & Ir). rewrite D. cbn [OpsModel.higher_curves].
      set (ps := [(k2, mkl offset KProd [bLIN; bLIN] []); (k3, mkl offset KProd [bLIN; bLIN; bLIN] [])]) in *.
      assert (Hg : forall p, In p ps -> exists F, good_branch h3 (inr (fst p)) (inr (snd p)) F).
      { intros [ct ct'] Hp. destruct (Hk ct ct' Hp) as (Fc & (A & Al & L) & _). exists Fc. inversion A as [|x y0 ids xs ys jds T A2 Dj]; subst. inversion A2; subst. rewrite app_nil_r in *. split; [constructor; exact T|auto]. }
      apply (yields_app h3 (fun n => match l with inl _ => hmap (fun ct => new_change offset n c (inr ct) r) [k2; k3] | inr _ => hret [] end)
                           (fun n => match r with inl _ => hmap (fun ct => new_change offset n c l (inr ct)) [k2; k3] | inr _ => hret [] end)).
      + pose proof Gl as (Bl & _). inversion Bl; subst; [|apply yields_nil].
        change (higher_kers offset) with (map snd ps). rewrite map_map.
        apply (yields_map h3 (fun n p => new_change offset n c (inr (fst p)) r) (fun p => mk_change offset c (inr (snd p)) r') ps).
        intros p h4 Hp X4. destruct (Hg p Hp) as (Fp & Gp). eapply makes_change; eapply good_branch_ext; eassumption.
      + intros h4 X4. pose proof Gr as (Br & _). inversion Br; subst; [|apply yields_nil].
        change (higher_kers offset) with (map snd ps). rewrite map_map.
        apply (yields_map h4 (fun n p => new_change offset n c l (inr (fst p))) (fun p => mk_change offset c l' (inr (snd p))) ps).
        intros p h5 Hp X5. destruct (Hg p Hp) as (Fp & Gp). assert (ext h3 h5) by (eapply ext_trans; eassumption). eapply makes_change; eapply good_branch_ext; eassumption.
  Qed.
End Ops.

(** Lemmas for C19: the operators of kernelExpressionOperations.py build the trees of OpsModel.v from new objects. *)
From Coq Require Import List Bool Arith ZArith NArith Lia Permutation.
From Verif Require Import Py UtilModel KexModel KexSpec KexProofs KexSimp OpsModel HeapModel HeapSpec HeapBase HeapSimp HeapSimp2 HeapNew.
Import ListNotations.

(** A list of trees. *)
Definition kids (h : heap) (cs : list ref) (es : list kex) (F : list ref) : Prop := apart (tree_at h) cs es F /\ allocated h F /\ linked h F.
Lemma kids_ext h h' cs es F : ext h h' -> kids h cs es F -> kids h' cs es F.
Proof.
  intros X (A & Al & L). assert (O : forall j, In j F -> obj h' j = obj h j) by (intros j Hj; apply X, Al, Hj). split; [|split].
  - eapply apart_frame; [exact A|]. intros j Hj. rewrite O by exact Hj. reflexivity.
  - eapply ext_alloc; eassumption.
  - eapply apart_linked_frame; eassumption.
Qed.
Lemma kids_nil h : kids h [] [] []. Proof. split; [constructor|]. split; [intros j []|intros n c []]. Qed.
Lemma kids_app h cs es F cs' es' F' : kids h cs es F -> kids h cs' es' F' -> disjoint F F' -> kids h (cs ++ cs') (es ++ es') (F ++ F').
Proof.
  intros (A & Al & L) (A' & Al' & L') D. split; [apply apart_app; assumption|]. split; [|apply linked_app; assumption].
  intros j Hj. apply in_app_iff in Hj as [Hj|Hj]; auto.
Qed.
Lemma kids_one h c e F : tree_at h c e F -> allocated h F -> linked h F -> kids h [c] [e] F.
Proof. intros T A L. split; [apply apart_one, T|auto]. Qed.
Lemma built_kids h h' s e : built h h' s e -> exists F, kids h' [s] [e] F /\ forall j, In j F -> (next h <= j)%N.
Proof. intros (_ & F & T & R & L & _). exists F. split; [apply kids_one; [exact T|intros j Hj; apply R, Hj|exact L]|intros j Hj; apply R, Hj]. Qed.
Lemma skipn_tl {A} m : forall l : list A, skipn (S m) l = tl (skipn m l).
Proof. induction m as [|m IH]; intros [|x l]; try reflexivity. exact (IH l). Qed.
Lemma kids_drop h cs es F m : kids h cs es F -> exists F', kids h (drop_nth m cs) (drop_nth m es) F' /\ incl F' F.
Proof.
  intros K. unfold drop_nth. destruct (Nat.le_gt_cases (length cs) m) as [H|H].
  - destruct K as (A & Al & L). pose proof (apart_length _ _ _ _ A) as E. exists F. rewrite (firstn_all2 cs), (firstn_all2 es), (skipn_all2 cs), (skipn_all2 es) by lia.
    rewrite !app_nil_r. split; [repeat split; assumption|apply incl_refl].
  - destruct K as (A & Al & L). pose proof (apart_length _ _ _ _ A) as E. rewrite <- (firstn_skipn m cs), <- (firstn_skipn m es) in A.
    apply apart_split in A as (F1 & F2 & -> & A1 & A2 & D); [|rewrite !firstn_length; lia].
    destruct (skipn m cs) as [|c t] eqn:Ec; [exfalso; apply (f_equal (@length _)) in Ec; rewrite skipn_length in Ec; cbn in Ec; lia|].
    destruct (skipn m es) as [|e te] eqn:Ee; [inversion A2|]. inversion A2 as [|x y ids xs ys jds T A3 Dj]; subst x y xs ys F2.
    assert (Sc : skipn (S m) cs = t). { rewrite skipn_tl, Ec. reflexivity. }
    assert (Se : skipn (S m) es = te). { rewrite skipn_tl, Ee. reflexivity. }
    rewrite Sc, Se. exists (F1 ++ jds). split; [split; [apply apart_app; [exact A1|exact A3|intros j Hj K; apply (D j Hj), in_app_iff; auto]|split]|].
    + intros j Hj. apply Al. apply in_app_iff in Hj as [Hj|Hj]; rewrite !in_app_iff; auto.
    + eapply linked_incl; [exact L|]. intros j Hj. apply in_app_iff in Hj as [Hj|Hj]; rewrite !in_app_iff; auto.
    + intros j Hj. apply in_app_iff in Hj as [Hj|Hj]; rewrite !in_app_iff; auto.
Qed.

(** The results of an operator: trees made of new objects, or of objects among [inn]. *)
Definition offered (h h' : heap) (inn : list ref) (r : ref) (e : kex) : Prop :=
  exists ids, tree_at h' r e ids /\ allocated h' ids /\ linked h' ids /\ forall j, In j ids -> (next h <= j)%N \/ In j inn.
Lemma offered_ext h h1 h2 inn r e : ext h1 h2 -> offered h h1 inn r e -> offered h h2 inn r e.
Proof.
  intros X (ids & T & A & L & R). assert (O : forall j, In j ids -> obj h2 j = obj h1 j) by (intros j Hj; apply X, A, Hj). exists ids. split; [|split; [|split]].
  - eapply tree_ext; eassumption.
  - eapply ext_alloc; eassumption.
  - eapply linked_frame; eassumption.
  - exact R.
Qed.
Lemma offered_mono h0 h h1 inn inn' r e : (next h0 <= next h)%N -> incl inn inn' -> offered h h1 inn r e -> offered h0 h1 inn' r e.
Proof. intros X I (ids & T & A & L & R). exists ids. repeat split; auto. intros j Hj. destruct (R j Hj); [left; lia|right; auto]. Qed.
Lemma built_offered h h' s e : built h h' s e -> offered h h' [] s e.
Proof. intros (_ & F & T & R & L & _). exists F. split; [exact T|]. split; [intros j Hj; apply R, Hj|]. split; [exact L|]. intros j Hj. left. apply R, Hj. Qed.

Definition makes (h : heap) (m : nat -> HM ref) (e : kex) : Prop := exists s h', evaluates m h s h' /\ built h h' s e.
Definition yields (h : heap) (m : nat -> HM (list ref)) (inn : list ref) (es : list kex) : Prop :=
  exists rs h', evaluates m h rs h' /\ ext h h' /\ Forall2 (offered h h' inn) rs es.
Lemma yields_pre {A} h (q : HM A) (f : nat -> A -> HM (list ref)) a inn es : evaluates (fun _ => q) h a h -> yields h (fun n => f n a) inn es -> yields h (fun n => hbind q (f n)) inn es.
Proof. intros E (rs & h' & E' & X & R). exists rs, h'. split; [eapply ev_bind; [exact E|exact E']|auto]. Qed.
Lemma yields_pre_n {A} h (q : nat -> HM A) (f : nat -> A -> HM (list ref)) a inn es : evaluates q h a h -> yields h (fun n => f n a) inn es -> yields h (fun n => hbind (q n) (f n)) inn es.
Proof. intros E (rs & h' & E' & X & R). exists rs, h'. split; [eapply ev_bind; [exact E|exact E']|auto]. Qed.
Lemma yields_nil h inn : yields h (fun _ => hret []) inn [].
Proof. exists [], h. split; [apply ev_ret|]. split; [apply ext_refl|constructor]. Qed.
Lemma yields_one h m inn e : makes h m e -> yields h (fun n => the_list (m n)) inn [e].
Proof.
  intros (s & h' & E & B). exists [s], h'. split; [eapply ev_bind; [exact E|apply ev_ret]|]. split; [apply B|]. constructor; [|constructor].
  eapply (offered_mono h h _ []); [lia|intros j []|apply built_offered, B].
Qed.
Lemma yields_map {X} h (f : nat -> X -> HM ref) (g : X -> kex) l inn : (forall x h1, In x l -> ext h h1 -> makes h1 (fun n => f n x) (g x)) -> yields h (fun n => hmap (f n) l) inn (map g l).
Proof.
  assert (Q : forall h1, ext h h1 -> (forall x h1, In x l -> ext h h1 -> makes h1 (fun n => f n x) (g x)) -> yields h1 (fun n => hmap (f n) l) inn (map g l)).
  2:{ apply Q, ext_refl. }
  induction l as [|x l IH]; intros h1 X1 H; [exists [], h1; split; [apply ev_nil|]; split; [apply ext_refl|constructor]|].
  destruct (H x h1 (or_introl eq_refl) X1) as (s & h2 & E2 & B2). pose proof B2 as (X2 & _).
  destruct (IH h2 (ext_trans _ _ _ X1 X2) (fun y h3 Hy => H y h3 (or_intror Hy))) as (ss & h3 & E3 & X3 & R3).
  exists (s :: ss), h3. split; [eapply ev_cons; eassumption|]. split; [eapply ext_trans; eassumption|]. cbn [map]. constructor.
  - eapply offered_ext; [exact X3|]. eapply (offered_mono h1 h1 _ []); [lia|intros j []|apply built_offered, B2].
  - eapply F2_impl; [|exact R3]. intros a b. apply offered_mono; [apply X2|apply incl_refl].
Qed.
Lemma yields_app h m1 m2 inn es1 es2 : yields h m1 inn es1 -> (forall h1, ext h h1 -> yields h1 m2 inn es2) ->
  yields h (fun n => let* a := m1 n in let* b := m2 n in hret (a ++ b)) inn (es1 ++ es2).
Proof.
  intros (rs & h1 & E1 & X1 & R1) H. destruct (H h1 X1) as (rs2 & h2 & E2 & X2 & R2). exists (rs ++ rs2), h2. split.
  - eapply ev_bind; [exact E1|]. cbv beta. eapply ev_bind; [exact E2|]. apply ev_ret.
  - split; [eapply ext_trans; eassumption|]. apply Forall2_app.
    + eapply F2_impl; [|exact R1]. intros a b. apply offered_ext, X2.
    + eapply F2_impl; [|exact R2]. intros a b. apply offered_mono; [apply X1|apply incl_refl].
Qed.
(** An object made first and used afterwards. *)
Lemma yields_after h m e f inn es : makes h m e -> (forall s h1, built h h1 s e -> yields h1 (fun n => f n s) inn es) -> yields h (fun n => hbind (m n) (f n)) inn es.
Proof.
  intros (s & h1 & E1 & B1) H. destruct (H s h1 B1) as (rs & h2 & E2 & X2 & R2). pose proof B1 as (X1 & _). exists rs, h2. split; [eapply ev_bind; [exact E1|exact E2]|].
  split; [eapply ext_trans; eassumption|]. eapply F2_impl; [|exact R2]. intros a b. apply offered_mono; [apply X1|apply incl_refl].
Qed.
Lemma makes_after h m e f e' : makes h m e -> (forall s h1, built h h1 s e -> makes h1 (fun n => f n s) e') -> makes h (fun n => hbind (m n) (f n)) e'.
Proof.
  intros (s & h1 & E1 & B1) H. destruct (H s h1 B1) as (r & h2 & E2 & X2 & F & T & R & L & P). pose proof B1 as ([Q1 U1] & _). exists r, h2. split; [eapply ev_bind; [exact E1|exact E2]|].
  split; [eapply ext_trans; [split; [exact Q1|exact U1]|exact X2]|]. exists F. repeat split; auto; apply R in H0; lia.
Qed.

Section Ops.
  Context (offset : bool).
  Lemma makes_comm h k bts cs es F : kids h cs es F -> makes h (fun n => new_comm offset n k bts cs) (mk offset k bts es).
  Proof. intros (A & Al & L). exact (ev_new_comm offset h k bts cs es F A Al L). Qed.
  Lemma makes_list h k bs cs es F : kids h cs es F -> makes h (fun n => new_list offset n k bs cs) (mkl offset k bs es).
  Proof. intros K. exact (makes_comm _ _ _ _ _ _ K). Qed.
  Lemma makes_leaf h k bs : makes h (fun n => new_list offset n k bs []) (mkl offset k bs []).
  Proof. apply (makes_list h k bs [] [] []), kids_nil. Qed.
  Lemma makes_change h c l r l' r' F G : good_branch h l l' F -> good_branch h r r' G -> makes h (fun n => new_change offset n c l r) (mk_change offset c l' r').
  Proof. intros Gl Gr. exact (ev_new_change offset h c l r l' r' F G Gl Gr). Qed.
  Lemma base_branch h b : good_branch h (inl b) (inl b) []. Proof. split; [constructor|]. split; [intros j []|intros n c []]. Qed.

  (** Views of operands *)
  Inductive viewed (h : heap) : base + (ref * body) -> branch -> list ref -> Prop :=
  | viewed_base b : viewed h (inl b) (inl b) []
  | viewed_comm i k bts cs es F : kids h [i] [Comm k bts es] (i :: F) -> kids h cs es F -> viewed h (inr (i, BComm k bts cs)) (inr (Comm k bts es)) (i :: F)
  | viewed_change i c l r l' r' F G : kids h [i] [Change c l' r'] (i :: F ++ G) -> good_branch h l l' F -> good_branch h r r' G -> disjoint F G ->
      viewed h (inr (i, BChange c l r)) (inr (Change c l' r')) (i :: F ++ G).
  Lemma ev_view h k e F : good_branch h k e F -> exists v, evaluates (fun _ => view k) h v h /\ viewed h v e F.
  Proof.
    intros (B & A & L). inversion B as [b0 Hb Hx|d x js' T Hd He Hjs]; subst; cbn [view].
    - exists (inl b0). split; [apply ev_ret|constructor].
    - inversion T as [i0 k0 b0 cs3 es0 F3 D3 A3 Hi3|i0 c0 yl yr l0 r0 Fl Fr D3 Bl3 Br3 Dj3 Hi3]; subst.
      + exists (inr (d, BComm k0 b0 cs3)). split; [eapply ev_bind; [apply ev_get|]; cbv beta; rewrite D3; apply ev_ret|]. constructor; [apply kids_one; assumption|].
        split; [exact A3|]. split; [intros j Hj; apply A; right; exact Hj|]. eapply linked_incl; [exact L|]. intros j Hj; right; exact Hj.
      + exists (inr (d, BChange c0 yl yr)). split; [eapply ev_bind; [apply ev_get|]; cbv beta; rewrite D3; apply ev_ret|]. constructor; [apply kids_one; assumption| | |exact Dj3].
        * split; [exact Bl3|]. split; [intros j Hj; apply A; right; apply in_app_iff; auto|]. eapply linked_incl; [exact L|]. intros j Hj; right; apply in_app_iff; auto.
        * split; [exact Br3|]. split; [intros j Hj; apply A; right; apply in_app_iff; auto|]. eapply linked_incl; [exact L|]. intros j Hj; right; apply in_app_iff; auto.
  Qed.
  Lemma yields_view h k e F (f : nat -> base + (ref * body) -> HM (list ref)) inn es : good_branch h k e F -> (forall v, viewed h v e F -> yields h (fun n => f n v) inn es) ->
    yields h (fun n => hbind (view k) (f n)) inn es.
  Proof. intros G H. destruct (ev_view h k e F G) as (v & E & V). exact (yields_pre h (view k) f v inn es E (H v V)). Qed.

  Lemma disjoint_tail (i : ref) a b : disjoint (i :: a) b -> disjoint a b. Proof. intros D j Hj. apply D. right. exact Hj. Qed.
  Lemma disjoint_sym a b : disjoint a b -> disjoint b a. Proof. intros D j Hj K. exact (D j K Hj). Qed.
  Ltac disj := let j := fresh "j" in let U := fresh "U" in let V := fresh "V" in intros j U V;
    match goal with D : disjoint _ _ |- _ =>
      first [ solve [apply (D j); [first [exact U|right; exact U]|first [exact V|right; exact V]]]
            | solve [apply (D j); [first [exact V|right; exact V]|first [exact U|right; exact U]]] ] end.
  Ltac pair_kids := match goal with |- kids _ [?a; ?b] [?x; ?y] _ => eapply (kids_app _ [a] [x] _ [b] [y]); [eassumption|eassumption|eassumption] end.

  (** The nested case *)
  Lemma nested_case h k k' i b x cs es F inn : kids h [i] [Comm k b es] (i :: F) -> kids h cs es F -> 
    yields h (fun n => let* res := new_list offset n k' [x] [i] in
                       let* more := hmap (fun bt => let* s := new_list offset n k' [x; bt] [] in new_comm offset n k (csub (cpos b) (counter_of [bt])) (cs ++ [s])) (celements b) in
                       hret (res :: more)) inn
      (mkl offset k' [x] [Comm k b es] :: map (fun bt => mk offset k (csub (cpos b) (counter_of [bt])) (es ++ [mkl offset k' [x; bt] []])) (celements b)).
  Proof.
    intros K1 K2. destruct (makes_list h k' [x] [i] _ _ K1) as (s & h1 & E1 & B1). pose proof B1 as (X1 & _).
    destruct (yields_map h1 (fun n bt => let* s := new_list offset n k' [x; bt] [] in new_comm offset n k (csub (cpos b) (counter_of [bt])) (cs ++ [s]))
                (fun bt => mk offset k (csub (cpos b) (counter_of [bt])) (es ++ [mkl offset k' [x; bt] []])) (celements b) inn) as (rs & h2 & E2 & X2 & R2).
    { intros bt h2 _ X2. eapply makes_after; [apply makes_leaf|]. intros s2 h3 B3. destruct (built_kids _ _ _ _ B3) as (F3 & K3 & Lo3). pose proof B3 as (X3 & _).
      eapply makes_comm; eapply kids_app; [eapply kids_ext; [|exact K2]; eapply ext_trans; [eapply ext_trans; [exact X1|exact X2]|exact X3]|exact K3|].
      intros j Hj K. apply Lo3 in K. destruct K2 as (_ & Al & _). specialize (Al j Hj). destruct X1 as [Q1 _], X2 as [Q2 _]. lia. }
    exists (s :: rs), h2. split; [eapply ev_bind; [exact E1|]; cbv beta; eapply ev_bind; [exact E2|]; apply ev_ret|]. split; [eapply ext_trans; eassumption|]. constructor.
    - eapply offered_ext; [exact X2|]. eapply (offered_mono h h _ []); [lia|intros j []|apply built_offered, B1].
    - eapply F2_impl; [|exact R2]. intros a c. apply offered_mono; [apply X1|apply incl_refl].
  Qed.
  Theorem ev_add h k1 k2 e1 e2 F1 F2 inn : good_branch h k1 e1 F1 -> good_branch h k2 e2 F2 -> disjoint F1 F2 ->
    yields h (fun n => add offset n k1 k2) inn (add_nested offset e1 e2).
  Proof.
    intros G1 G2 D. unfold add. eapply yields_view; [exact G1|]. intros v1 V1. cbv beta. eapply yields_view; [exact G2|]. intros v2 V2. cbv beta.
    destruct V1 as [b1|i1 k0 b1 cs1 es1 F1 K1 K1'|i1 c1 l1 r1 l1' r1' F1 F1' K1 Gl1 Gr1 Dj1]; destruct V2 as [b2|i2 k3 b2 cs2 es2 F2 K2 K2'|i2 c2 l2 r2 l2' r2' F2 F2' K2 Gl2 Gr2 Dj2].
    - apply yields_one, makes_leaf.
    - destruct k3; [apply yields_one; eapply makes_comm; exact K2'|eapply (nested_case h KProd KSum); eassumption].
    - apply yields_one; eapply makes_list; exact K2.
    - destruct k0; [apply yields_one; eapply makes_comm; exact K1'|eapply (nested_case h KProd KSum); eassumption].
    - destruct k0, k3; apply yields_one.
      + eapply makes_comm; eapply kids_app; [exact K1'|exact K2'|disj].
      + eapply makes_comm; eapply kids_app; [exact K1'|exact K2|disj].
      + eapply makes_comm; eapply kids_app; [exact K2'|exact K1|disj].
      + eapply makes_list. pair_kids.
    - destruct k0; apply yields_one.
      + eapply makes_comm; eapply kids_app; [exact K1'|exact K2|disj].
      + eapply makes_list. pair_kids.
    - apply yields_one; eapply makes_list; exact K1.
    - destruct k3; apply yields_one.
      + eapply makes_comm; eapply kids_app; [exact K2'|exact K1|disj].
      + eapply makes_list. pair_kids.
    - apply yields_one. eapply makes_list. pair_kids.
  Qed.
  Theorem ev_multiply h k1 k2 e1 e2 F1 F2 inn : good_branch h k1 e1 F1 -> good_branch h k2 e2 F2 -> disjoint F1 F2 ->
    yields h (fun n => multiply offset n k1 k2) inn (multiply_nested offset e1 e2).
  Proof.
    intros G1 G2 D. unfold multiply. eapply yields_view; [exact G1|]. intros v1 V1. cbv beta. eapply yields_view; [exact G2|]. intros v2 V2. cbv beta.
    destruct V1 as [b1|i1 k0 b1 cs1 es1 F1 K1 K1'|i1 c1 l1 r1 l1' r1' F1 F1' K1 Gl1 Gr1 Dj1]; destruct V2 as [b2|i2 k3 b2 cs2 es2 F2 K2 K2'|i2 c2 l2 r2 l2' r2' F2 F2' K2 Gl2 Gr2 Dj2].
    - apply yields_one, makes_leaf.
    - destruct k3; [eapply (nested_case h KSum KProd); eassumption|apply yields_one; eapply makes_comm; exact K2'].
    - apply yields_one; eapply makes_list; exact K2.
    - destruct k0; [eapply (nested_case h KSum KProd); eassumption|apply yields_one; eapply makes_comm; exact K1'].
    - destruct k0, k3; apply yields_one.
      + eapply makes_list. pair_kids.
      + eapply makes_comm; eapply kids_app; [exact K2'|exact K1|disj].
      + eapply makes_comm; eapply kids_app; [exact K1'|exact K2|disj].
      + eapply makes_comm; eapply kids_app; [exact K1'|exact K2'|disj].
    - destruct k0; apply yields_one.
      + eapply makes_list. pair_kids.
      + eapply makes_comm; eapply kids_app; [exact K1'|exact K2|disj].
    - apply yields_one; eapply makes_list; exact K1.
    - destruct k3; apply yields_one.
      + eapply makes_list. pair_kids.
      + eapply makes_comm; eapply kids_app; [exact K2'|exact K1|disj].
    - apply yields_one. eapply makes_list. pair_kids.
  Qed.
End Ops.

(** Lemmas for C19: the places of a tree, and writing a replacement there. *)
From Coq Require Import List Bool Arith ZArith NArith Lia Permutation.
From Verif Require Import Py UtilModel KexModel KexSpec KexProofs KexSimp OpsModel HeapModel HeapSpec HeapBase HeapSimp HeapSimp2 HeapNew HeapOps HeapOps2.
Import ListNotations.

Lemma tree_det h e : forall i ids e2 jds, tree_at h i e ids -> tree_at h i e2 jds -> e2 = e /\ jds = ids.
Proof.
  induction e as [k bts es IH|o l r IHl IHr] using kex_ind'; intros i ids e2 jds T T2;
    inversion T as [i0 k0 b0 cs es0 F D Aa Hi|i0 c0 l0 r0 l' r' F G D Bl Br Dj Hi]; subst;
    inversion T2 as [i1 k1 b1 cs1 es1 F1 D1 A1 Hi1|i1 c1 l1 r1 l1' r1' F1 G1 D1 Bl1 Br1 Dj1 Hi1]; subst; rewrite D in D1; try discriminate; injection D1 as <- <- <-.
  - assert (Q : es1 = es /\ F1 = F). 2:{ destruct Q as [-> ->]. auto. }
    clear -IH Aa A1. revert es1 F1 A1. induction Aa as [|x y ids xs ys jds H1 H2 IHa D]; intros es1 F1 A1; inversion A1 as [|x2 y2 ids2 xs2 ys2 jds2 T2 A2 D2]; subst; [auto|].
    destruct (IH y (or_introl eq_refl) _ _ _ _ H1 T2) as [-> ->]. destruct (IHa (fun c Hc => IH c (or_intror Hc)) _ _ A2) as [-> ->]. auto.
  - assert (Ql : l1' = l /\ F1 = F).
    { inversion Bl as [b0|d x js Tx]; subst; inversion Bl1 as [b1|d1 x1 js1 Tx1]; subst; [auto|]. destruct (IHl _ eq_refl _ _ _ _ Tx Tx1) as [-> ->]. auto. }
    assert (Qr : r1' = r /\ G1 = G).
    { inversion Br as [b0|d x js Tx]; subst; inversion Br1 as [b1|d1 x1 js1 Tx1]; subst; [auto|]. destruct (IHr _ eq_refl _ _ _ _ Tx Tx1) as [-> ->]. auto. }
    destruct Ql as [-> ->], Qr as [-> ->]. auto.
Qed.

Lemma apart_at {A B} (P : A -> B -> list ref -> Prop) cs pre' x post' F : apart P cs (pre' ++ x :: post') F ->
  exists pre c post a cx b, cs = pre ++ c :: post /\ length pre = length pre' /\ apart P pre pre' a /\ P c x cx /\ apart P post post' b /\ F = a ++ cx ++ b
    /\ disjoint a (cx ++ b) /\ disjoint cx b.
Proof.
  intros H. assert (Len := apart_length _ _ _ _ H). rewrite app_length in Len. cbn in Len.
  rewrite <- (firstn_skipn (length pre') cs) in H. assert (Lf : length (firstn (length pre') cs) = length pre') by (rewrite firstn_length; lia).
  destruct (apart_split P _ _ _ _ _ Lf H) as (a & b & -> & Ha & Hb & D). inversion Hb as [|c y ids xs ys jds H1 H2 Dj Ec]; subst.
  exists (firstn (length pre') cs), c, xs, a, ids, jds. rewrite Ec, firstn_skipn. repeat split; auto.
Qed.

Section Repl.
  Context (offset : bool).
  Notation leaf b := (mkl offset KSum [b] []).
  (** [spot h i e s en f p cl]: the object [s], with the tree [en], stands for a place strictly below the top node [i] of the tree [e]; writing [n]
      there gives [f n]; [p] is the node that contains the place.  [cl] tells whether the object is the one that [reassign_child] removes: a term of
      a Sum or Product is not if an earlier term is equal to it. *)
  Inductive spot (h : heap) : ref -> kex -> ref -> kex -> (kex -> kex) -> ref -> bool -> Prop :=
  | spot_child i k bts cs es m c ec : data (obj h i) = BComm k bts cs -> nth_error cs m = Some c -> nth_error es m = Some ec ->
      spot h i (Comm k bts es) c ec (fun n => Comm k bts (remove_eq ec es ++ [n])) i (negb (existsb (fun z => keq z ec) (firstn m es)))
  | spot_below i k bts cs es m c ec s en f p cl : data (obj h i) = BComm k bts cs -> nth_error cs m = Some c -> nth_error es m = Some ec -> spot h c ec s en f p cl ->
      spot h i (Comm k bts es) s en (fun n => Comm k bts (set_nth m es (f n))) p cl
  | spot_left i o x r ex r' : data (obj h i) = BChange o (inr x) r -> spot h i (Change o (inr ex) r') x ex (fun n => Change o (inr n) r') i true
  | spot_left_below i o x r ex r' s en f p cl : data (obj h i) = BChange o (inr x) r -> spot h x ex s en f p cl -> spot h i (Change o (inr ex) r') s en (fun n => Change o (inr (f n)) r') p cl
  | spot_left_leaf i o b r r' s : data (obj h i) = BChange o (inl b) r -> spot h i (Change o (inl b) r') s (leaf b) (fun n => Change o (inl b) (inr n)) i true
  | spot_right i o l x l' ex : data (obj h i) = BChange o l (inr x) -> spot h i (Change o l' (inr ex)) x ex (fun n => Change o l' (inr n)) i true
  | spot_right_below i o l x l' ex s en f p cl : data (obj h i) = BChange o l (inr x) -> spot h x ex s en f p cl -> spot h i (Change o l' (inr ex)) s en (fun n => Change o l' (inr (f n))) p cl
  | spot_right_leaf i o l b l' s : data (obj h i) = BChange o l (inl b) -> l <> inr s -> spot h i (Change o l' (inl b)) s (leaf b) (fun n => Change o l' (inr n)) i true.

  Lemma nth_error_at {A} (l : list A) m x : nth_error l m = Some x -> exists pre post, l = pre ++ x :: post /\ length pre = m.
  Proof. intros H. apply nth_error_split in H as (a & b & -> & E). eauto. Qed.
  Lemma nth_error_mid {A} (a : list A) x b : nth_error (a ++ x :: b) (length a) = Some x.
  Proof. rewrite nth_error_app2 by lia. rewrite Nat.sub_diag. reflexivity. Qed.

  Lemma spot_frame h h' i e s en f p cl ids : tree_at h i e ids -> spot h i e s en f p cl -> (forall j, In j ids -> data (obj h' j) = data (obj h j)) -> spot h' i e s en f p cl.
  Proof.
    intros T S. revert ids T. induction S; intros ids T Hd;
      (assert (Di : data (obj h' i) = data (obj h i)) by (apply Hd; eapply tree_top; exact T)).
    - eapply spot_child; [rewrite Di; eassumption|eassumption|assumption].
    - eapply spot_below; [rewrite Di; eassumption|eassumption|eassumption|]. inversion T as [i0 k0 b0 cs0 es0 F D Aa Hi|]; subst.
      apply nth_error_at in H1 as (pre' & post' & -> & <-). destruct (apart_at _ _ _ _ _ _ Aa) as (pre & c' & post & a & cx & b & -> & Len & Ha & Hc & Hb & -> & _).
      rewrite H in D. injection D as ->. rewrite <- Len, nth_error_mid in H0. injection H0 as ->. eapply IHS; [exact Hc|]. intros j Hj. apply Hd. right. rewrite !in_app_iff. auto.
    - eapply spot_left; rewrite Di; eassumption.
    - eapply spot_left_below; [rewrite Di; eassumption|]. inversion T as [|i0 c0 l0 r0 l' r1 F G D Bl Br Dj Hi]; subst. rewrite H in D. injection D as <- <-. inversion Bl; subst.
      eapply IHS; [eassumption|]. intros j Hj. apply Hd. right. apply in_app_iff; auto.
    - eapply spot_left_leaf; rewrite Di; eassumption.
    - eapply spot_right; rewrite Di; eassumption.
    - eapply spot_right_below; [rewrite Di; eassumption|]. inversion T as [|i0 c0 l0 r0 l1 r1 F G D Bl Br Dj Hi]; subst. rewrite H in D. injection D as <- <-. inversion Br; subst.
      eapply IHS; [eassumption|]. intros j Hj. apply Hd. right. apply in_app_iff; auto.
    - eapply spot_right_leaf; [rewrite Di; eassumption|assumption].
  Qed.
  Lemma spot_copy h i e s en f p cl : spot h i e s en f p cl -> spot (doubled h) (next h + i)%N e (next h + s)%N en f (next h + p)%N cl.
  Proof.
    assert (Q : forall i b, data (obj h i) = b -> data (obj (doubled h) (next h + i)%N) = shift_body (next h) b) by (intros j b <-; rewrite doubled_copy; reflexivity).
    induction 1.
    - eapply spot_child; [exact (Q _ _ H)| |eassumption]. apply map_nth_error; exact H0.
    - eapply spot_below; [exact (Q _ _ H)| |eassumption|exact IHspot]. apply map_nth_error; exact H0.
    - eapply spot_left; exact (Q _ _ H).
    - eapply spot_left_below; [exact (Q _ _ H)|exact IHspot].
    - eapply spot_left_leaf; exact (Q _ _ H).
    - eapply spot_right; exact (Q _ _ H).
    - eapply spot_right_below; [exact (Q _ _ H)|exact IHspot].
    - eapply spot_right_leaf; [exact (Q _ _ H)|]. intros E. destruct l as [b0|x]; [discriminate|]. injection E as E. apply add_inj in E. subst. contradiction.
  Qed.

  Definition written (h : heap) (p : ref) (b : body) : heap := upd h p (Obj (root (obj h p)) (parent (obj h p)) b).
  Definition pluggable (h : heap) (i : ref) (e : kex) (ids : list ref) (s : ref) (en : kex) (f : kex -> kex) (p : ref) (cl : bool) : Prop :=
    exists kept, In i kept /\ In p kept /\ incl kept ids
      /\ (forall n c, In n kept -> n <> p -> In c (children (data (obj h n))) -> In c kept)
      /\ (is_change en = true -> cl = true -> forall sids, tree_at h s en sids -> disjoint kept sids /\ incl sids ids)
      /\ forall r er rids, tree_at h r er rids -> disjoint kept rids ->
         exists b ids', evaluates (fun n => reassign_child n p s r) h r (written h p b)
           /\ (forall c, In c (children b) -> c = r \/ (In c kept /\ In c (children (data (obj h p)))))
           /\ tree_at (written h p b) i (f er) ids' /\ incl ids' (kept ++ rids) /\ incl rids ids'.

  Lemma written_other h p b j : j <> p -> data (obj (written h p b) j) = data (obj h j).
  Proof. intros N. unfold written. rewrite upd_other by exact N. reflexivity. Qed.
  Lemma written_same h p b : data (obj (written h p b) p) = b.
  Proof. unfold written. rewrite upd_same. reflexivity. Qed.
  Lemma remove_keq e es : In e es -> exists r, list_remove (fun y => keq y e) es = Some r.
  Proof. induction es as [|y es IH]; intros []; cbn [list_remove]; [subst; rewrite keq_refl; eauto|]. destruct (keq y e); [eauto|]. destruct (IH H) as (r & ->). cbn. eauto. Qed.
  Lemma F2_trees h cs es F : apart (tree_at h) cs es F -> Forall2 (some_tree h) cs es.
  Proof. intros A. apply apart_Forall2 in A. eapply F2_impl; [|exact A]. intros x y (js & _ & T). exists js. exact T. Qed.

  Lemma plug_child h i k bts cs es m c ec ids : tree_at h i (Comm k bts es) ids -> data (obj h i) = BComm k bts cs -> nth_error cs m = Some c -> nth_error es m = Some ec ->
    pluggable h i (Comm k bts es) ids c ec (fun n => Comm k bts (remove_eq ec es ++ [n])) i (negb (existsb (fun z => keq z ec) (firstn m es))).
  Proof.
    intros T Di Hc He. inversion T as [i0 k0 b0 cs0 es0 F D Aa Hi|]; subst. rewrite Di in D. injection D as <-.
    pose proof (nth_error_In _ _ He) as Ie. destruct (remove_keq ec es Ie) as (es' & Er). unfold remove_eq. rewrite Er.
    assert (Tc : exists cx0, tree_at h c ec cx0).
    { apply nth_error_at in He as (pre' & post' & -> & <-). destruct (apart_at _ _ _ _ _ _ Aa) as (pre & c' & post & a & cx & b & -> & Len & Ha & Tc & Hb & -> & _).
      rewrite <- Len, nth_error_mid in Hc. injection Hc as ->. eauto. }
    destruct (remove_split _ _ _ Er) as (pre' & x & post' & Ees & -> & Kx & Np). pose proof Aa as A0. rewrite Ees in A0.
    destruct (apart_at _ _ _ _ _ _ A0) as (pre & c2 & post & a & cx & b & Ecs & Len & Ha & Tx & Hb & -> & D1 & D2).
    assert (Sub : forall j, In j (a ++ b) -> In j (a ++ cx ++ b)) by (intros j Hj; rewrite !in_app_iff in *; tauto).
    assert (Aab : apart (tree_at h) (pre ++ post) (pre' ++ post') (a ++ b)) by (apply apart_app; [exact Ha|exact Hb|]; intros j Hj K; apply (D1 j Hj), in_app_iff; auto).
    exists (i :: a ++ b). split; [left; reflexivity|]. split; [left; reflexivity|]. split; [intros j [<-|Hj]; [left; reflexivity|right; apply Sub, Hj]|].
    split; [|split].
    - intros n d [<-|Hn] N Hd; [contradiction|]. right. eapply apart_children; eassumption.
    - intros Ch Ne sids Ts. assert (Em : length pre' = m).
      { apply nth_error_at in He as (p1 & p2 & E1 & <-). rewrite E1 in Ees. symmetry in Ees. destruct (app_eq_app _ _ _ _ Ees) as (l & [[E2 E3]|[E2 E3]]).
        - destruct l as [|z l]; [rewrite E2, app_nil_r; reflexivity|]. exfalso. cbn [app] in E3. injection E3 as Ez _. subst z.
          assert (Q : keq ec ec = false) by (apply Np; rewrite E2; apply in_app_iff; right; left; reflexivity). rewrite keq_refl in Q. discriminate.
        - destruct l as [|z l]; [rewrite E2, app_nil_r; reflexivity|]. exfalso. cbn [app] in E3. injection E3 as Ez _. subst z.
          apply negb_true_iff in Ne. rewrite <- not_true_iff_false in Ne. apply Ne, existsb_exists. exists x. split; [|exact Kx].
          rewrite E1, firstn_app, firstn_all, E2. apply in_app_iff. left. apply in_app_iff. right. left. reflexivity. }
      assert (c2 = c). { rewrite Ecs, <- Em, <- Len, nth_error_mid in Hc. congruence. } subst c2.
      assert (x = ec). { rewrite Ees, <- Em, nth_error_mid in He. congruence. } subst x.
      destruct (tree_det _ _ _ _ _ _ Tx Ts) as [_ ->]. split; [|intros j Hj; right; rewrite !in_app_iff; auto]. intros j [<-|Hj] K; [apply Hi; rewrite !in_app_iff; auto|].
      apply in_app_iff in Hj as [Hj|Hj]; [apply (D1 j Hj), in_app_iff; auto|exact (D2 j K Hj)].
    - intros r er rids Tr Dr. exists (BComm k bts ((pre ++ post) ++ [r])), (i :: (a ++ b) ++ rids). split; [|split; [|split]].
      + unfold reassign_child. eapply ev_bind; [apply ev_get|]. cbv beta. rewrite Di. eapply ev_bind.
        * rewrite Ecs. eapply ev_remove; [exact Tc|eapply F2_trees; exact Ha|exists cx; exact Tx|exact Kx|exact Np|eapply F2_trees; exact Hb].
        * cbv beta. eapply ev_bind; [apply ev_set_data|]. apply ev_ret.
      + intros d Hd. cbn [children] in Hd. apply in_app_iff in Hd as [Hd|[<-|[]]]; [right|left; reflexivity]. split.
        * right. eapply apart_tops; [exact Aab|exact Hd].
        * rewrite Di. cbn [children]. rewrite Ecs. rewrite in_app_iff in *. cbn [In]. tauto.
      + econstructor; [apply written_same| |].
        * apply apart_app.
          -- eapply apart_frame; [exact Aab|]. intros j Hj. apply written_other. intros ->. apply Hi, Sub, Hj.
          -- apply apart_one. eapply tree_frame; [exact Tr|]. intros j Hj. apply written_other. intros ->. apply (Dr i); [left; reflexivity|exact Hj].
          -- intros j Hj. apply Dr. right. exact Hj.
        * intros K. apply in_app_iff in K as [K|K]; [apply Hi, Sub, K|apply (Dr i); [left; reflexivity|exact K]].
      + split; [|intros j Hj; right; apply in_app_iff; auto]. intros j [<-|Hj]; [left; reflexivity|right; exact Hj].
  Qed.

  Lemma plug_below h i k bts cs es m c ec ids s en f p cl : tree_at h i (Comm k bts es) ids -> data (obj h i) = BComm k bts cs -> nth_error cs m = Some c -> nth_error es m = Some ec ->
    (forall jds, tree_at h c ec jds -> pluggable h c ec jds s en f p cl) -> pluggable h i (Comm k bts es) ids s en (fun n => Comm k bts (set_nth m es (f n))) p cl.
  Proof.
    intros T Di Hc He IH. inversion T as [i0 k0 b0 cs0 es0 F D Aa Hi|]; subst. rewrite Di in D. injection D as <-.
    apply nth_error_at in He as (pre' & post' & -> & <-). destruct (apart_at _ _ _ _ _ _ Aa) as (pre & c' & post & a & cx & b & -> & Len & Ha & Tc & Hb & -> & D1 & D2).
    rewrite <- Len, nth_error_mid in Hc. injection Hc as ->. destruct (IH cx Tc) as (kept & Kc & Kp & Ki & Kl & Kd & Kr).
    assert (Sub : forall j, In j (a ++ kept ++ b) -> In j (a ++ cx ++ b)) by (intros j Hj; rewrite !in_app_iff in *; destruct Hj as [Hj|[Hj|Hj]]; auto).
    exists (i :: a ++ kept ++ b). split; [left; reflexivity|]. split; [right; rewrite !in_app_iff; auto|]. split; [intros j [<-|Hj]; [left; reflexivity|right; apply Sub, Hj]|].
    split; [|split].
    - intros n d [<-|Hn] N Hd.
      + right. rewrite Di in Hd. cbn [children] in Hd. rewrite !in_app_iff. apply in_app_iff in Hd as [Hd|[<-|Hd]]; [left; eapply apart_tops; [exact Ha|exact Hd]|auto|right; right; eapply apart_tops; [exact Hb|exact Hd]].
      + right. rewrite !in_app_iff in Hn |- *. destruct Hn as [Hn|[Hn|Hn]]; [left; eapply apart_children; eassumption|right; left; eapply Kl; eassumption|right; right; eapply apart_children; eassumption].
    - intros Ch Ne sids Ts. destruct (Kd Ch) with (sids := sids) as [Dk Is]; [exact Ne|exact Ts|].
      split; [|intros j Hj; right; rewrite !in_app_iff; auto]. intros j [<-|Hj] K; [apply Hi; rewrite !in_app_iff; auto|]. rewrite !in_app_iff in Hj. destruct Hj as [Hj|[Hj|Hj]].
      + apply (D1 j Hj), in_app_iff. auto.
      + exact (Dk j Hj K).
      + exact (D2 j (Is j K) Hj).
    - intros r er rids Tr Dr. destruct (Kr r er rids Tr) as (b1 & ids1 & E1 & C1 & T1 & I1 & J1); [intros j Hj; apply Dr; right; rewrite !in_app_iff; auto|].
      assert (Hp : In p cx) by (apply Ki, Kp). exists b1, (i :: a ++ ids1 ++ b). split; [exact E1|]. split; [|split].
      + intros d Hd. destruct (C1 d Hd) as [->|[C3 C4]]; [left; reflexivity|right; split; [right; rewrite !in_app_iff; auto|exact C4]].
      + assert (Np : i <> p) by (intros ->; apply Hi; rewrite !in_app_iff; auto).
        econstructor; [rewrite written_other by exact Np; exact Di| |].
        * unfold set_nth. rewrite firstn_app, Nat.sub_diag, firstn_all. cbn [firstn]. rewrite app_nil_r.
          replace (skipn (S (length pre')) (pre' ++ ec :: post')) with post' by (rewrite skipn_app, skipn_all2 by lia; replace (S (length pre') - length pre') with 1 by lia; reflexivity).
          apply apart_app; [|constructor|].
          -- eapply apart_frame; [exact Ha|]. intros j Hj. apply written_other. intros ->. apply (D1 p Hj), in_app_iff; auto.
          -- exact T1.
          -- eapply apart_frame; [exact Hb|]. intros j Hj. apply written_other. intros ->. exact (D2 p Hp Hj).
          -- intros j Hj K. apply I1, in_app_iff in Hj as [Hj|Hj]; [exact (D2 j (Ki j Hj) K)|]. apply (Dr j); [right; rewrite !in_app_iff; auto|exact Hj].
          -- intros j Hj K. apply in_app_iff in K as [K|K]; [|apply (D1 j Hj), in_app_iff; auto]. apply I1, in_app_iff in K as [K|K]; [apply (D1 j Hj), in_app_iff; left; apply Ki, K|].
             apply (Dr j); [right; rewrite !in_app_iff; auto|exact K].
        * intros K. rewrite !in_app_iff in K. destruct K as [K|[K|K]]; [apply Hi; rewrite !in_app_iff; auto| |apply Hi; rewrite !in_app_iff; auto].
          apply I1, in_app_iff in K as [K|K]; [apply Hi; rewrite !in_app_iff; auto|]. apply (Dr i); [left; reflexivity|exact K].
      + split; [|intros j Hj; right; rewrite !in_app_iff; auto]. intros j [<-|Hj]; [left; reflexivity|]. right. rewrite !in_app_iff in *. destruct Hj as [Hj|[Hj|Hj]]; auto. apply I1, in_app_iff in Hj as [Hj|Hj]; auto.
  Qed.

  (** A branch of a Change that is an expression *)
  Lemma plug_left h i o x r ex r' ids : tree_at h i (Change o (inr ex) r') ids -> data (obj h i) = BChange o (inr x) r ->
    pluggable h i (Change o (inr ex) r') ids x ex (fun n => Change o (inr n) r') i true.
  Proof.
    intros T Di. inversion T as [|i0 c0 l0 r0 l1 r1 F G D Bl Br Dj Hi]; subst. rewrite Di in D. injection D as <- <-. inversion Bl as [|x0 e0 F0 Tx]; subst.
    exists (i :: G). split; [left; reflexivity|]. split; [left; reflexivity|]. split; [intros j [<-|Hj]; [left; reflexivity|right; apply in_app_iff; auto]|]. split; [|split].
    - intros n d [<-|Hn] N Hd; [contradiction|]. right. inversion Br; subst; [destruct Hn|]. eapply tree_children; eassumption.
    - intros Ch Ne sids Ts. destruct (tree_det _ _ _ _ _ _ Tx Ts) as [_ ->]. split; [|intros j Hj; right; apply in_app_iff; auto].
      intros j [<-|Hj] K; [apply Hi, in_app_iff; auto|exact (Dj j K Hj)].
    - intros d er rids Tr Dr. exists (BChange o (inr d) r), (i :: rids ++ G). split; [|split; [|split]].
      + unfold reassign_child. eapply ev_bind; [apply ev_get|]. cbv beta. rewrite Di, N.eqb_refl. eapply ev_bind; [apply ev_set_data|]. apply ev_ret.
      + intros y Hy. cbn [children] in Hy. apply in_app_iff in Hy as [[<-|[]]|Hy]; [left; reflexivity|]. right. split; [|rewrite Di; cbn [children]; apply in_app_iff; auto].
        destruct r as [b|y0]; [destruct Hy|]. destruct Hy as [<-|[]]. right. eapply branch_child; [exact Br|reflexivity].
      + econstructor; [apply written_same| | | |].
        * constructor. eapply tree_frame; [exact Tr|]. intros j Hj. apply written_other. intros ->. apply (Dr i); [left; reflexivity|exact Hj].
        * eapply branch_frame; [exact Br|]. intros j Hj. apply written_other. intros ->. apply Hi, in_app_iff; auto.
        * intros j Hj K. apply (Dr j); [right; exact K|exact Hj].
        * intros K. apply in_app_iff in K as [K|K]; [apply (Dr i); [left; reflexivity|exact K]|apply Hi, in_app_iff; auto].
      + split; [|intros j Hj; right; apply in_app_iff; auto]. intros j [<-|Hj]; [left; reflexivity|]. apply in_app_iff in Hj as [Hj|Hj]; [apply in_app_iff; auto|right; apply in_app_iff; auto].
  Qed.
  (** Writing the right branch *)
  Lemma plug_right h i o l r l' r' ids s en : tree_at h i (Change o l' r') ids -> data (obj h i) = BChange o l r -> l <> inr s ->
    (is_change en = true -> exists d, r = inr d /\ s = d) ->
    pluggable h i (Change o l' r') ids s en (fun n => Change o l' (inr n)) i true.
  Proof.
    intros T Di Nl Hs. inversion T as [|i0 c0 l0 r0 l1 r1 F G D Bl Br Dj Hi]; subst. rewrite Di in D. injection D as <- <-.
    exists (i :: F). split; [left; reflexivity|]. split; [left; reflexivity|]. split; [intros j [<-|Hj]; [left; reflexivity|right; apply in_app_iff; auto]|]. split; [|split].
    - intros n d [<-|Hn] N Hd; [contradiction|]. right. inversion Bl; subst; [destruct Hn|]. eapply tree_children; eassumption.
    - intros Ch Ne sids Ts. destruct (Hs Ch) as (d & -> & ->). inversion Br as [|x0 e0 F0 Tx]; subst. destruct (tree_det _ _ _ _ _ _ Tx Ts) as [_ ->].
      split; [|intros j Hj; right; apply in_app_iff; auto]. intros j [<-|Hj] K; [apply Hi, in_app_iff; auto|exact (Dj j Hj K)].
    - intros d er rids Tr Dr. exists (BChange o l (inr d)), (i :: F ++ rids). split; [|split; [|split]].
      + unfold reassign_child. eapply ev_bind; [apply ev_get|]. cbv beta. rewrite Di. eapply ev_bind; [|apply ev_ret]. destruct l as [b|y]; [apply ev_set_data|].
        destruct (N.eqb_spec y s) as [->|Ny]; [contradiction|apply ev_set_data].
      + intros y Hy. cbn [children] in Hy. apply in_app_iff in Hy as [Hy|[<-|[]]]; [|left; reflexivity]. right. split; [|rewrite Di; cbn [children]; apply in_app_iff; auto].
        destruct l as [b|y0]; [destruct Hy|]. destruct Hy as [<-|[]]. right. eapply branch_child; [exact Bl|reflexivity].
      + econstructor; [apply written_same| | | |].
        * eapply branch_frame; [exact Bl|]. intros j Hj. apply written_other. intros ->. apply Hi, in_app_iff; auto.
        * constructor. eapply tree_frame; [exact Tr|]. intros j Hj. apply written_other. intros ->. apply (Dr i); [left; reflexivity|exact Hj].
        * intros j Hj. apply Dr. right; exact Hj.
        * intros K. apply in_app_iff in K as [K|K]; [apply Hi, in_app_iff; auto|apply (Dr i); [left; reflexivity|exact K]].
      + split; [|intros j Hj; right; apply in_app_iff; auto]. intros j [<-|Hj]; [left; reflexivity|]. apply in_app_iff in Hj as [Hj|Hj]; [right; apply in_app_iff; auto|apply in_app_iff; auto].
  Qed.
  (** Below a branch of a Change *)
  Lemma plug_left_below h i o x r ex r' ids s en f p cl : tree_at h i (Change o (inr ex) r') ids -> data (obj h i) = BChange o (inr x) r ->
    (forall jds, tree_at h x ex jds -> pluggable h x ex jds s en f p cl) -> pluggable h i (Change o (inr ex) r') ids s en (fun n => Change o (inr (f n)) r') p cl.
  Proof.
    intros T Di IH. inversion T as [|i0 c0 l0 r0 l1 r1 F G D Bl Br Dj Hi]; subst. rewrite Di in D. injection D as <- <-. inversion Bl as [|x0 e0 F0 Tx]; subst.
    destruct (IH F Tx) as (kept & Kc & Kp & Ki & Kl & Kd & Kr).
    exists (i :: kept ++ G). split; [left; reflexivity|]. split; [right; apply in_app_iff; auto|]. split; [intros j [<-|Hj]; [left; reflexivity|right; rewrite in_app_iff in *; destruct Hj as [Hj|Hj]; auto]|]. split; [|split].
    - intros n d [<-|Hn] N Hd; right; apply in_app_iff.
      + rewrite Di in Hd. cbn [children] in Hd. apply in_app_iff in Hd as [[<-|[]]|Hd]; [auto|]. right. destruct r as [b|y0]; [destruct Hd|]. destruct Hd as [<-|[]]. eapply branch_child; [exact Br|reflexivity].
      + apply in_app_iff in Hn as [Hn|Hn]; [left; eapply Kl; eassumption|right]. inversion Br; subst; [destruct Hn|]. eapply tree_children; eassumption.
    - intros Ch Ne sids Ts. destruct (Kd Ch) with (sids := sids) as [Dk Is]; [exact Ne|exact Ts|].
      split; [|intros j Hj; right; apply in_app_iff; auto]. intros j [<-|Hj] K; [apply Hi, in_app_iff; auto|]. apply in_app_iff in Hj as [Hj|Hj]; [exact (Dk j Hj K)|exact (Dj j (Is j K) Hj)].
    - intros d er rids Tr Dr. destruct (Kr d er rids Tr) as (b1 & ids1 & E1 & C1 & T1 & I1 & J1); [intros j Hj; apply Dr; right; apply in_app_iff; auto|].
      assert (Hp : In p F) by (apply Ki, Kp). exists b1, (i :: ids1 ++ G). split; [exact E1|]. split; [|split].
      + intros y Hy. destruct (C1 y Hy) as [->|[C3 C4]]; [left; reflexivity|right; split; [right; apply in_app_iff; auto|exact C4]].
      + assert (Np : i <> p) by (intros ->; apply Hi, in_app_iff; auto). econstructor; [rewrite written_other by exact Np; exact Di|constructor; exact T1| | |].
        * eapply branch_frame; [exact Br|]. intros j Hj. apply written_other. intros ->. exact (Dj p Hp Hj).
        * intros j Hj K. apply I1, in_app_iff in Hj as [Hj|Hj]; [exact (Dj j (Ki j Hj) K)|]. apply (Dr j); [right; apply in_app_iff; auto|exact Hj].
        * intros K. apply in_app_iff in K as [K|K]; [|apply Hi, in_app_iff; auto]. apply I1, in_app_iff in K as [K|K]; [apply Hi, in_app_iff; auto|]. apply (Dr i); [left; reflexivity|exact K].
      + split; [|intros j Hj; right; rewrite !in_app_iff; auto]. intros j [<-|Hj]; [left; reflexivity|]. right. rewrite !in_app_iff in *. destruct Hj as [Hj|Hj]; auto. apply I1, in_app_iff in Hj as [Hj|Hj]; auto.
  Qed.
  Lemma plug_right_below h i o l x l' ex ids s en f p cl : tree_at h i (Change o l' (inr ex)) ids -> data (obj h i) = BChange o l (inr x) ->
    (forall jds, tree_at h x ex jds -> pluggable h x ex jds s en f p cl) -> pluggable h i (Change o l' (inr ex)) ids s en (fun n => Change o l' (inr (f n))) p cl.
  Proof.
    intros T Di IH. inversion T as [|i0 c0 l0 r0 l1 r1 F G D Bl Br Dj Hi]; subst. rewrite Di in D. injection D as <- <-. inversion Br as [|x0 e0 F0 Tx]; subst.
    destruct (IH G Tx) as (kept & Kc & Kp & Ki & Kl & Kd & Kr).
    exists (i :: F ++ kept). split; [left; reflexivity|]. split; [right; apply in_app_iff; auto|]. split; [intros j [<-|Hj]; [left; reflexivity|right; rewrite in_app_iff in *; destruct Hj as [Hj|Hj]; auto]|]. split; [|split].
    - intros n d [<-|Hn] N Hd; right; apply in_app_iff.
      + rewrite Di in Hd. cbn [children] in Hd. apply in_app_iff in Hd as [Hd|[<-|[]]]; [|auto]. left. destruct l as [b|y0]; [destruct Hd|]. destruct Hd as [<-|[]]. eapply branch_child; [exact Bl|reflexivity].
      + apply in_app_iff in Hn as [Hn|Hn]; [left|right; eapply Kl; eassumption]. inversion Bl; subst; [destruct Hn|]. eapply tree_children; eassumption.
    - intros Ch Ne sids Ts. destruct (Kd Ch) with (sids := sids) as [Dk Is]; [exact Ne|exact Ts|].
      split; [|intros j Hj; right; apply in_app_iff; auto]. intros j [<-|Hj] K; [apply Hi, in_app_iff; auto|]. apply in_app_iff in Hj as [Hj|Hj]; [exact (Dj j Hj (Is j K))|exact (Dk j Hj K)].
    - intros d er rids Tr Dr. destruct (Kr d er rids Tr) as (b1 & ids1 & E1 & C1 & T1 & I1 & J1); [intros j Hj; apply Dr; right; apply in_app_iff; auto|].
      assert (Hp : In p G) by (apply Ki, Kp). exists b1, (i :: F ++ ids1). split; [exact E1|]. split; [|split].
      + intros y Hy. destruct (C1 y Hy) as [->|[C3 C4]]; [left; reflexivity|right; split; [right; apply in_app_iff; auto|exact C4]].
      + assert (Np : i <> p) by (intros ->; apply Hi, in_app_iff; auto). econstructor; [rewrite written_other by exact Np; exact Di| |constructor; exact T1| |].
        * eapply branch_frame; [exact Bl|]. intros j Hj. apply written_other. intros ->. exact (Dj p Hj Hp).
        * intros j Hj K. apply I1, in_app_iff in K as [K|K]; [exact (Dj j Hj (Ki j K))|]. apply (Dr j); [right; apply in_app_iff; auto|exact K].
        * intros K. apply in_app_iff in K as [K|K]; [apply Hi, in_app_iff; auto|]. apply I1, in_app_iff in K as [K|K]; [apply Hi, in_app_iff; auto|]. apply (Dr i); [left; reflexivity|exact K].
      + split; [|intros j Hj; right; rewrite !in_app_iff; auto]. intros j [<-|Hj]; [left; reflexivity|]. right. rewrite !in_app_iff in *. destruct Hj as [Hj|Hj]; auto. apply I1, in_app_iff in Hj as [Hj|Hj]; auto.
  Qed.
  Theorem plug h i e s en f p cl : spot h i e s en f p cl -> forall ids, tree_at h i e ids -> pluggable h i e ids s en f p cl.
  Proof.
    induction 1; intros ids T.
    - eapply plug_child; eassumption.
    - eapply plug_below; eassumption.
    - eapply plug_left; eassumption.
    - eapply plug_left_below; eassumption.
    - eapply plug_right; [exact T|exact H|discriminate|discriminate].
    - eapply plug_right; [exact T|exact H| |eauto]. intros ->. inversion T as [|i0 c0 l0 r0 l1 r1 F G D Bl Br Dj Hi]; subst. rewrite H in D. injection D as <- <-.
      apply (Dj x); eapply branch_child; try eassumption; reflexivity.
    - eapply plug_right_below; eassumption.
    - eapply plug_right; [exact T|exact H|assumption|discriminate].
  Qed.
End Repl.

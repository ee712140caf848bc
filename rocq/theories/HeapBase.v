(** Lemmas for C19: evaluation, trees in the heap, reading, copying, roots and parents. *)
From Coq Require Import List Bool Arith ZArith NArith Lia Permutation.
From Verif Require Import Py UtilModel KexModel KexSpec KexProofs OpsModel HeapModel HeapSpec.
Import ListNotations.

Definition disjoint (a b : list ref) : Prop := forall j, In j a -> ~ In j b.
Definition ext (h h' : heap) : Prop := (next h <= next h')%N /\ untouched h h'.
Definition allocated (h : heap) (ids : list ref) : Prop := forall j, In j ids -> (j < next h)%N.

Lemma ext_refl h : ext h h. Proof. split; [lia|]. intros j _; reflexivity. Qed.
Lemma ext_trans a b c : ext a b -> ext b c -> ext a c.
Proof. intros [L1 U1] [L2 U2]. split; [lia|]. intros j Hj. rewrite U2 by lia. apply U1, Hj. Qed.
Lemma ext_alloc a b ids : ext a b -> allocated a ids -> allocated b ids.
Proof. intros [L _] A j Hj. specialize (A j Hj). lia. Qed.

(** ** Evaluation *)
Section Ev.
  Context {A B : Type}.
  Lemma ev_bind (m : nat -> HM A) (f : nat -> A -> HM B) h a h1 b h2 :
    evaluates m h a h1 -> evaluates (fun n => f n a) h1 b h2 -> evaluates (fun n => hbind (m n) (f n)) h b h2.
  Proof.
    intros [n1 E1] [n2 E2]. exists (n1 + n2). intros n Hn. unfold hbind. rewrite E1 by lia. apply E2. lia.
  Qed.
  Lemma ev_const (m : HM A) h a h' : m h = Some (a, h') -> evaluates (fun _ => m) h a h'.
  Proof. intros E. exists 0. intros _ _. exact E. Qed.
  Lemma ev_step (m : nat -> HM A) h a h' : evaluates (fun n => m (S n)) h a h' -> evaluates m h a h'.
  Proof. intros [n0 E]. exists (S n0). intros [|n] Hn; [lia|]. apply E. lia. Qed.
  Lemma ev_ret (a : A) h : evaluates (fun _ => hret a) h a h.
  Proof. apply ev_const. reflexivity. Qed.
  Lemma ev_nil (f : nat -> A -> HM B) h : evaluates (fun n => hmap (f n) []) h [] h.
  Proof. exists 0. reflexivity. Qed.
  Lemma ev_det (m : nat -> HM A) h a h1 b h2 : evaluates m h a h1 -> evaluates m h b h2 -> a = b /\ h1 = h2.
  Proof. intros [n1 E1] [n2 E2]. specialize (E1 (n1 + n2)). specialize (E2 (n1 + n2)). rewrite E1 in E2 by lia. specialize (E2 ltac:(lia)). injection E2 as -> ->. auto. Qed.
End Ev.
Lemma ev_cons {A B} (f : nat -> A -> HM B) x t h y h1 ys h2 :
  evaluates (fun n => f n x) h y h1 -> evaluates (fun n => hmap (f n) t) h1 ys h2 -> evaluates (fun n => hmap (f n) (x :: t)) h (y :: ys) h2.
Proof.
  intros E1 E2. cbn [hmap]. eapply ev_bind; [exact E1|]. eapply ev_bind; [exact E2|]. apply ev_ret.
Qed.
Lemma ev_app {A B} (f : nat -> A -> HM B) s t h ys h1 zs h2 :
  evaluates (fun n => hmap (f n) s) h ys h1 -> evaluates (fun n => hmap (f n) t) h1 zs h2 -> evaluates (fun n => hmap (f n) (s ++ t)) h (ys ++ zs) h2.
Proof.
  revert h ys. induction s as [|x s IH]; intros h ys E1 E2; cbn [app].
  - destruct (ev_det _ _ _ _ _ _ E1 (ev_nil f h)) as [-> ->]. exact E2.
  - destruct E1 as [n0 E1]. pose proof (E1 n0 (Nat.le_refl _)) as Z. cbn [hmap] in Z. unfold hbind in Z.
    destruct (f n0 x h) as [[y h3]|] eqn:Ex; [|discriminate]. destruct (hmap (f n0) s h3) as [[ys' h4]|] eqn:Es; [|discriminate].
    cbn in Z. injection Z as <- ->. destruct E2 as [n2 E2].
    assert (Q : forall n, n0 <= n -> exists h3', f n x h = Some (y, h3') /\ hmap (f n) s h3' = Some (ys', h1)).
    { intros n Hn. specialize (E1 n Hn). cbn [hmap] in E1. unfold hbind in E1. destruct (f n x h) as [[y3 h3']|]; [|discriminate].
      destruct (hmap (f n) s h3') as [[ys3 h4]|] eqn:E4; [|discriminate]. cbn in E1. injection E1 as -> -> ->. exists h3'. auto. }
    exists (n0 + n2). intros n Hn. destruct (Q n ltac:(lia)) as (h3' & A1 & A2). cbn [hmap]. unfold hbind. rewrite A1.
    assert (R : hmap (f n) (s ++ t) h3' = Some (ys' ++ zs, h2)).
    { clear -A2 E2 Hn. assert (E3 : hmap (f n) t h1 = Some (zs, h2)) by (apply E2; lia). clear E2 Hn. revert h3' ys' A2. induction s as [|x s IH]; intros h3 ys A2; cbn [app hmap] in *.
      - cbn in A2. injection A2 as <- <-. exact E3.
      - unfold hbind in *. destruct (f n x h3) as [[y h4]|]; [|discriminate]. destruct (hmap (f n) s h4) as [[ys2 h5]|] eqn:E5; [|discriminate].
        cbn in A2. injection A2 as <- ->. rewrite (IH _ _ E5). reflexivity. }
    rewrite R. reflexivity.
Qed.

(** ** Primitive steps *)
Definition upd (h : heap) (i : ref) (o : object) : heap := Heap (next h) (fun j => if N.eqb j i then o else obj h j).
Lemma upd_same h i o : obj (upd h i o) i = o. Proof. cbn. rewrite N.eqb_refl. reflexivity. Qed.
Lemma upd_other h i o j : j <> i -> obj (upd h i o) j = obj h j.
Proof. intros E. cbn. destruct (N.eqb_spec j i); [contradiction|reflexivity]. Qed.
Lemma ev_get i h : evaluates (fun _ => get i) h (obj h i) h. Proof. apply ev_const. reflexivity. Qed.
Lemma ev_put i o h : evaluates (fun _ => put i o) h tt (upd h i o). Proof. apply ev_const. reflexivity. Qed.
Lemma ev_set_data i b h : evaluates (fun _ => set_data i b) h tt (upd h i (Obj (root (obj h i)) (parent (obj h i)) b)).
Proof. apply ev_const. reflexivity. Qed.
Lemma ev_set_parent i p h : evaluates (fun _ => set_parent i p) h tt (upd h i (Obj (root (obj h i)) p (data (obj h i)))).
Proof. apply ev_const. reflexivity. Qed.

Lemma F2_impl {A B} (P Q : A -> B -> Prop) xs ys : (forall x y, P x y -> Q x y) -> Forall2 P xs ys -> Forall2 Q xs ys.
Proof. intros I. induction 1; constructor; auto. Qed.
Lemma F2_impl_in {A B} (P Q : A -> B -> Prop) xs ys : Forall2 P xs ys -> (forall x y, In x xs -> In y ys -> P x y -> Q x y) -> Forall2 Q xs ys.
Proof. induction 1 as [|x y xs ys H1 H2 IH]; intros I; constructor; [apply I; [left; reflexivity|left; reflexivity|exact H1]|apply IH; intros; apply I; [right|right|]; auto]. Qed.

(** ** [apart] *)
Section Apart.
  Context {A B : Type}.
  Implicit Types P Q : A -> B -> list ref -> Prop.
  Lemma apart_impl P Q xs ys ids : apart P xs ys ids -> (forall x y js, In x xs -> In y ys -> incl js ids -> P x y js -> Q x y js) -> apart Q xs ys ids.
  Proof.
    induction 1 as [|x y ids xs ys jds H1 H2 IH D]; intros I; constructor.
    - apply I; [left; reflexivity|left; reflexivity|apply incl_appl, incl_refl|exact H1].
    - apply IH. intros a b js Ha Hb L. apply I; [right; exact Ha|right; exact Hb|apply incl_appr, L].
    - exact D.
  Qed.
  Lemma apart_length P xs ys ids : apart P xs ys ids -> length xs = length ys.
  Proof. induction 1; cbn; congruence. Qed.
  Lemma apart_app P xs ys ids xs' ys' jds : apart P xs ys ids -> apart P xs' ys' jds -> disjoint ids jds -> apart P (xs ++ xs') (ys ++ ys') (ids ++ jds).
  Proof.
    induction 1 as [|x y ids xs ys kds H1 H2 IH D]; intros H3 D2; [exact H3|]. cbn [app]. rewrite <- app_assoc. constructor; [exact H1|apply IH; [exact H3|intros j Hj; apply D2, in_app_iff; auto]|].
    intros j Hj. rewrite in_app_iff. intros [I|I]; [exact (D j Hj I)|]. exact (D2 j ltac:(apply in_app_iff; auto) I).
  Qed.
  Lemma apart_split P xs xs' ys ys' ids : length xs = length ys -> apart P (xs ++ xs') (ys ++ ys') ids ->
    exists a b, ids = a ++ b /\ apart P xs ys a /\ apart P xs' ys' b /\ disjoint a b.
  Proof.
    revert ys ids. induction xs as [|x xs IH]; intros [|y ys] ids L H; cbn in L; try discriminate.
    - exists [], ids. repeat split; [constructor|exact H|intros j []].
    - cbn [app] in H. inversion H as [|x0 y0 ids1 xs0 ys0 jds H1 H2 D]; subst. destruct (IH ys jds ltac:(lia) H2) as (a & b & -> & Ha & Hb & Dab).
      exists (ids1 ++ a), b. rewrite app_assoc. split; [reflexivity|]. split; [constructor; [exact H1|exact Ha|]|split; [exact Hb|]].
      + intros j Hj I. apply (D j Hj). apply in_app_iff; auto.
      + intros j Hj I. apply in_app_iff in Hj as [Hj|Hj]; [|exact (Dab j Hj I)]. apply (D j Hj). apply in_app_iff; auto.
  Qed.
  Lemma apart_Forall2 P xs ys ids : apart P xs ys ids -> Forall2 (fun x y => exists js, incl js ids /\ P x y js) xs ys.
  Proof.
    induction 1 as [|x y ids xs ys jds H1 H2 IH D]; constructor.
    - exists ids. split; [apply incl_appl, incl_refl|exact H1].
    - eapply F2_impl; [|exact IH]. intros a b (js & L & Q). exists js. split; [apply incl_appr, L|exact Q].
  Qed.
  Lemma apart_one P x y ids : P x y ids -> apart P [x] [y] ids.
  Proof. intros H. rewrite <- (app_nil_r ids). constructor; [exact H|constructor|intros j _ []]. Qed.
End Apart.
Lemma apart_map {A B C D} (P : A -> B -> list ref -> Prop) (Q : C -> D -> list ref -> Prop) (f : A -> C) (g : B -> D) xs ys ids (m : ref -> ref) :
  apart P xs ys ids -> (forall a b, m a = m b -> a = b) -> (forall x y js, In x xs -> In y ys -> incl js ids -> P x y js -> Q (f x) (g y) (map m js)) -> apart Q (map f xs) (map g ys) (map m ids).
Proof.
  intros H Inj. induction H as [|x y ids xs ys jds H1 H2 IH Dj]; intros I; cbn [map]; [constructor|]. rewrite map_app. constructor.
  - apply I; [left; reflexivity|left; reflexivity|apply incl_appl, incl_refl|exact H1].
  - apply IH. intros a b js Ha Hb L. apply I; [right; exact Ha|right; exact Hb|apply incl_appr, L].
  - intros j Hj Hk. apply in_map_iff in Hj as (j1 & <- & Hj). apply in_map_iff in Hk as (j2 & E & Hk). apply Inj in E. subst. exact (Dj _ Hj Hk).
Qed.

(** ** Trees *)
Lemma tree_top h i e ids : tree_at h i e ids -> In i ids.
Proof. inversion 1; left; reflexivity. Qed.
Lemma apart_tops {h cs es ids} : apart (tree_at h) cs es ids -> incl cs ids.
Proof. induction 1 as [|x y ids xs ys jds H1 H2 IH D]; intros j []; apply in_app_iff; subst; [left; eapply tree_top; eassumption|right; auto]. Qed.
Lemma branch_child h l l' ids i : branch_at h l l' ids -> l = inr i -> In i ids.
Proof. intros H ->. inversion H; subst. eapply tree_top; eassumption. Qed.

Lemma tree_frame h h' e : forall i ids, tree_at h i e ids -> (forall j, In j ids -> data (obj h' j) = data (obj h j)) -> tree_at h' i e ids.
Proof.
  induction e as [k bts es IH|c l r IHl IHr] using kex_ind'; intros i ids T F; inversion T; subst.
  - econstructor; [rewrite F by (left; reflexivity); eassumption| |assumption].
    eapply apart_impl; [eassumption|]. intros x y js Hx Hy L Q. apply (IH y Hy _ _ Q). intros j Hj. apply F. right. apply L, Hj.
  - econstructor; [rewrite F by (left; reflexivity); eassumption| | |assumption|assumption].
    + match goal with H : branch_at _ _ l _ |- _ => inversion H; subst end; constructor. eapply IHl; [reflexivity|eassumption|]. intros j Hj; apply F; right; apply in_app_iff; auto.
    + match goal with H : branch_at _ _ r _ |- _ => inversion H; subst end; constructor. eapply IHr; [reflexivity|eassumption|]. intros j Hj; apply F; right; apply in_app_iff; auto.
Qed.
Lemma apart_frame {h} h' {cs es ids} : apart (tree_at h) cs es ids -> (forall j, In j ids -> data (obj h' j) = data (obj h j)) -> apart (tree_at h') cs es ids.
Proof. intros A F. eapply apart_impl; [exact A|]. intros x y js _ _ L T. apply (tree_frame h); [exact T|]. intros j Hj. apply F, L, Hj. Qed.
Lemma branch_frame h h' l l' ids : branch_at h l l' ids -> (forall j, In j ids -> data (obj h' j) = data (obj h j)) -> branch_at h' l l' ids.
Proof. intros B F. inversion B; subst; constructor. eapply tree_frame; eassumption. Qed.
Lemma tree_ext h h' i e ids : ext h h' -> allocated h ids -> tree_at h i e ids -> tree_at h' i e ids.
Proof. intros [_ U] A T. eapply tree_frame; [exact T|]. intros j Hj. rewrite U; [reflexivity|apply A, Hj]. Qed.

(** The children of a node of a tree are nodes of the tree. *)
Lemma tree_children h e : forall i ids n c, tree_at h i e ids -> In n ids -> In c (children (data (obj h n))) -> In c ids.
Proof.
  induction e as [k bts es IH|o l r IHl IHr] using kex_ind'; intros i ids n c T Hn Hc; inversion T; subst.
  - destruct Hn as [<-|Hn].
    + match goal with E : data _ = _ |- _ => rewrite E in Hc end. cbn in Hc. right. eapply apart_tops; eassumption.
    + right. match goal with H : apart _ _ _ _ |- _ => rename H into Aa end. clear -Aa IH Hn Hc. induction Aa as [|x y ids xs ys jds H1 H2 IHa D]; [destruct Hn|].
      apply in_app_iff in Hn as [Hn|Hn]; apply in_app_iff; [left; eapply IH; [left; reflexivity|exact H1|exact Hn|exact Hc]|right; apply IHa; [|exact Hn]].
      intros c0 Hc0. apply IH. right; exact Hc0.
  - right. apply in_app_iff. destruct Hn as [<-|Hn].
    + match goal with E : data _ = _ |- _ => rewrite E in Hc end. cbn in Hc. apply in_app_iff in Hc as [Hc|Hc].
      * left. match goal with H : branch_at _ _ l _ |- _ => inversion H; subst end; [destruct Hc|]. destruct Hc as [<-|[]]. eapply tree_top; eassumption.
      * right. match goal with H : branch_at _ _ r _ |- _ => inversion H; subst end; [destruct Hc|]. destruct Hc as [<-|[]]. eapply tree_top; eassumption.
    + apply in_app_iff in Hn as [Hn|Hn].
      * left. match goal with H : branch_at _ _ l _ |- _ => inversion H; subst end; [destruct Hn|]. eapply IHl; [reflexivity|eassumption|exact Hn|exact Hc].
      * right. match goal with H : branch_at _ _ r _ |- _ => inversion H; subst end; [destruct Hn|]. eapply IHr; [reflexivity|eassumption|exact Hn|exact Hc].
Qed.
(** The top node is not a child. *)
Lemma tree_top_no_child h e : forall i ids n, tree_at h i e ids -> In n ids -> ~ In i (children (data (obj h n))).
Proof.
  intros i ids n T Hn Hc. inversion T; subst.
  - assert (I : In i ids0); [|contradiction]. destruct Hn as [<-|Hn].
    + match goal with E : data _ = _ |- _ => rewrite E in Hc end. cbn in Hc. eapply apart_tops; eassumption.
    + match goal with H : apart _ _ _ _ |- _ => apply apart_Forall2 in H as F end.
      match goal with H : apart _ _ _ _ |- _ => rename H into Aa end. clear -Aa Hn Hc.
      induction Aa as [|x y ids xs ys jds H1 H2 IHa D]; [destruct Hn|]. apply in_app_iff in Hn as [Hn|Hn]; apply in_app_iff; [left; eapply tree_children; eassumption|right; auto].
  - match goal with H : ~ In i _ |- _ => apply H end. apply in_app_iff. destruct Hn as [<-|Hn].
    + match goal with E : data _ = _ |- _ => rewrite E in Hc end. cbn in Hc. apply in_app_iff in Hc as [Hc|Hc].
      * left. match goal with H : branch_at _ l l' _ |- _ => inversion H; subst end; [destruct Hc|]. destruct Hc as [<-|[]]. eapply tree_top; eassumption.
      * right. match goal with H : branch_at _ r r' _ |- _ => inversion H; subst end; [destruct Hc|]. destruct Hc as [<-|[]]. eapply tree_top; eassumption.
    + apply in_app_iff in Hn as [Hn|Hn].
      * left. match goal with H : branch_at _ l l' _ |- _ => inversion H; subst end; [destruct Hn|]. eapply tree_children; eassumption.
      * right. match goal with H : branch_at _ r r' _ |- _ => inversion H; subst end; [destruct Hn|]. eapply tree_children; eassumption.
Qed.

(** ** Reading *)
Lemma ev_read h e : forall i ids, tree_at h i e ids -> evaluates (fun n => read n i) h e h.
Proof.
  induction e as [k bts es IH|c l r IHl IHr] using kex_ind'; intros i ids T; apply ev_step; cbn [read]; eapply ev_bind; try apply ev_get; inversion T; subst;
    match goal with E : data _ = _ |- _ => rewrite E end.
  - eapply ev_bind; [|apply ev_ret]. match goal with H : apart _ _ _ _ |- _ => rename H into Aa end. clear -Aa IH.
    induction Aa as [|x y ids xs ys jds H1 H2 IHa D]; [apply (ev_nil read)|]. eapply (ev_cons read); [eapply IH; [left; reflexivity|exact H1]|].
    apply IHa. intros c Hc. apply IH. right. exact Hc.
  - eapply ev_bind; [|eapply ev_bind; [|apply ev_ret]].
    + match goal with H : branch_at _ _ l _ |- _ => inversion H; subst end; cbn [hbranch]; [apply ev_ret|]. eapply ev_bind; [eapply IHl; [reflexivity|eassumption]|apply ev_ret].
    + match goal with H : branch_at _ _ r _ |- _ => inversion H; subst end; cbn [hbranch]; [apply ev_ret|]. eapply ev_bind; [eapply IHr; [reflexivity|eassumption]|apply ev_ret].
Qed.
Lemma ev_equal h a x ids b y jds : tree_at h a x ids -> tree_at h b y jds -> evaluates (fun n => equal n a b) h (keq x y) h.
Proof. intros Ta Tb. unfold equal. eapply ev_bind; [eapply ev_read, Ta|]. eapply ev_bind; [eapply ev_read, Tb|]. apply ev_ret. Qed.

(** [list.remove] *)
Definition some_tree (h : heap) (c : ref) (e : kex) : Prop := exists ids, tree_at h c e ids.
Lemma remove_split {A} (p : A -> bool) l r : list_remove p l = Some r ->
  exists pre x post, l = pre ++ x :: post /\ r = pre ++ post /\ p x = true /\ forall y, In y pre -> p y = false.
Proof.
  revert r. induction l as [|y t IH]; intros r; cbn [list_remove]; [discriminate|]. destruct (p y) eqn:E.
  - intros [= <-]. exists [], y, t. repeat split; auto. intros z [].
  - destruct (list_remove p t) as [r'|]; [|discriminate]. intros [= <-]. destruct (IH r' eq_refl) as (pre & x & post & -> & -> & Px & Hp).
    exists (y :: pre), x, post. repeat split; auto. intros z [<-|Hz]; auto.
Qed.
Lemma remove_skip {A} (p : A -> bool) pre x post : p x = true -> (forall y, In y pre -> p y = false) -> list_remove p (pre ++ x :: post) = Some (pre ++ post).
Proof.
  intros Px. induction pre as [|y pre IH]; intros Hp; cbn [app list_remove]; [rewrite Px; reflexivity|].
  rewrite (Hp y (or_introl eq_refl)), IH by (intros z Hz; apply Hp; right; exact Hz). reflexivity.
Qed.
Lemma ev_remove h hc e pre c post pre' x post' : some_tree h hc e -> Forall2 (some_tree h) pre pre' -> some_tree h c x -> keq x e = true ->
  (forall y, In y pre' -> keq y e = false) -> Forall2 (some_tree h) post post' ->
  evaluates (fun n => remove n hc (pre ++ c :: post)) h (pre ++ post) h.
Proof.
  intros [hids Th] F [ids T] E Hp _. induction F as [|y y' pre pre' [yids Ty] F IH]; cbn [app remove].
  - eapply ev_bind; [eapply ev_equal; eassumption|]. cbv beta. rewrite E. apply ev_ret.
  - eapply ev_bind; [eapply ev_equal; eassumption|]. cbv beta. rewrite (Hp y' (or_introl eq_refl)).
    eapply ev_bind; [|apply ev_ret]. apply IH. intros z Hz. apply Hp. right. exact Hz.
Qed.

(** ** set_root, set_all_parents *)
Definition rerooted (h h' : heap) (ids : list ref) (r : ref) : Prop :=
  next h' = next h /\ (forall j, In j ids -> obj h' j = Obj (Some r) (parent (obj h j)) (data (obj h j))) /\ (forall j, ~ In j ids -> obj h' j = obj h j).
Lemma rerooted_app a b c ids jds r : rerooted a b ids r -> rerooted b c jds r -> disjoint ids jds -> rerooted a c (ids ++ jds) r.
Proof.
  intros (N1 & I1 & O1) (N2 & I2 & O2) D. split; [congruence|]. split; intros j Hj.
  - apply in_app_iff in Hj as [Hj|Hj]; [rewrite O2 by (apply D, Hj); apply I1, Hj|]. rewrite I2 by exact Hj. rewrite O1; [reflexivity|]. intros I. exact (D _ I Hj).
  - rewrite in_app_iff in Hj. rewrite O2, O1; tauto.
Qed.
Lemma rerooted_nil h r : rerooted h h [] r. Proof. split; [reflexivity|]. split; [intros j []|reflexivity]. Qed.
Lemma rerooted_data h h' ids r : rerooted h h' ids r -> forall j, data (obj h' j) = data (obj h j).
Proof. intros (_ & I & O) j. destruct (in_dec N.eq_dec j ids) as [Hj|Hj]; [rewrite I by exact Hj; reflexivity|rewrite O by exact Hj; reflexivity]. Qed.
Lemma rerooted_parent h h' ids r : rerooted h h' ids r -> forall j, parent (obj h' j) = parent (obj h j).
Proof. intros (_ & I & O) j. destruct (in_dec N.eq_dec j ids) as [Hj|Hj]; [rewrite I by exact Hj; reflexivity|rewrite O by exact Hj; reflexivity]. Qed.

Lemma ev_set_root_some e : forall h i ids r, tree_at h i e ids -> exists h', evaluates (fun n => set_root n i (Some r)) h tt h' /\ rerooted h h' ids r.
Proof.
  induction e as [k bts es IH|c l r0 IHl IHr] using kex_ind'; intros h i ids r T; inversion T; subst.
  - set (h1 := upd h i (Obj (Some r) (parent (obj h i)) (data (obj h i)))).
    match goal with H : apart _ _ _ _ |- _ => rename H into Aa end.
    assert (A1 : apart (tree_at h1) cs es ids0).
    { eapply apart_frame; [exact Aa|]. intros j Hj. unfold h1. rewrite upd_other; [reflexivity|]. intros ->. contradiction. }
    assert (Q : exists h2 us, evaluates (fun n => hmap (fun c => set_root n c (Some r)) cs) h1 us h2 /\ rerooted h1 h2 ids0 r).
    { clear -IH A1. revert A1. generalize h1. clear h1. revert cs ids0. induction es as [|y es IHe]; intros cs ids h9 A1; inversion A1; subst.
      - exists h9, []. split; [apply (ev_nil (fun n c => set_root n c (Some r)))|apply rerooted_nil].
      - destruct (IH y (or_introl eq_refl) h9 x ids0 r ltac:(assumption)) as (h2 & E2 & R2).
        destruct (IHe (fun c Hc => IH c (or_intror Hc)) xs jds h2) as (h3 & us & E3 & R3).
        { eapply apart_frame; [eassumption|]. intros j _. eapply rerooted_data; exact R2. }
        exists h3, (tt :: us). split; [eapply (ev_cons (fun n c => set_root n c (Some r))); eassumption|]. eapply rerooted_app; [exact R2|exact R3|assumption]. }
    destruct Q as (h2 & us & E2 & R2). exists h2. split.
    + apply ev_step. cbn [set_root]. eapply ev_bind; [apply ev_get|]. cbv beta. eapply ev_bind; [apply ev_put|]. cbv beta.
      match goal with E : data _ = _ |- _ => rewrite E end. fold h1. eapply ev_bind; [|apply ev_ret].
      replace (upd h i (Obj (Some r) (parent (obj h i)) (BComm k bts cs))) with h1 by (unfold h1; congruence). exact E2.
    + change (i :: ids0) with ([i] ++ ids0). eapply rerooted_app; [|exact R2|intros j [<-|[]]; assumption].
      split; [reflexivity|]. split; [intros j [<-|[]]; apply upd_same|intros j Hj; apply upd_other; intros ->; apply Hj; left; reflexivity].
  - set (h1 := upd h i (Obj (Some r) (parent (obj h i)) (data (obj h i)))).
    assert (R1 : rerooted h h1 [i] r).
    { split; [reflexivity|]. split; [intros j [<-|[]]; apply upd_same|intros j Hj; apply upd_other; intros ->; apply Hj; left; reflexivity]. }
    assert (Ql : exists h2 u, evaluates (fun n => hbranch (fun c => set_root n c (Some r)) l0) h1 u h2 /\ rerooted h1 h2 ids0 r).
    { match goal with H : branch_at _ l0 _ _ |- _ => inversion H; subst end; cbn [hbranch]; [exists h1; eexists; split; [apply ev_ret|apply rerooted_nil]|].
      edestruct (IHl _ eq_refl h1) as (h2 & E2 & R2); [eapply tree_frame; [eassumption|]; intros j _; eapply rerooted_data; exact R1|].
      exists h2. eexists. split; [eapply ev_bind; [exact E2|apply ev_ret]|exact R2]. }
    destruct Ql as (h2 & u & E2 & R2).
    assert (Qr : exists h3 u', evaluates (fun n => hbranch (fun c => set_root n c (Some r)) r1) h2 u' h3 /\ rerooted h2 h3 jds r).
    { match goal with H : branch_at _ r1 _ _ |- _ => inversion H; subst end; cbn [hbranch]; [exists h2; eexists; split; [apply ev_ret|apply rerooted_nil]|].
      edestruct (IHr _ eq_refl h2) as (h3 & E3 & R3).
      { eapply tree_frame; [eassumption|]; intros j _. rewrite (rerooted_data _ _ _ _ R2). eapply rerooted_data; exact R1. }
      exists h3. eexists. split; [eapply ev_bind; [exact E3|apply ev_ret]|exact R3]. }
    destruct Qr as (h3 & u' & E3 & R3). exists h3. split.
    + apply ev_step. cbn [set_root]. eapply ev_bind; [apply ev_get|]. cbv beta. eapply ev_bind; [apply ev_put|]. cbv beta. fold h1.
      match goal with E : data _ = _ |- _ => rewrite E end. eapply ev_bind; [exact E2|]. cbv beta. eapply ev_bind; [exact E3|]. apply ev_ret.
    + change (i :: ids0 ++ jds) with ([i] ++ (ids0 ++ jds)). eapply rerooted_app; [exact R1|eapply rerooted_app; [exact R2|exact R3|assumption]|].
      intros j [<-|[]]. assumption.
Qed.
Lemma ev_set_root h i e ids r : tree_at h i e ids -> exists h', evaluates (fun n => set_root n i r) h tt h' /\ rerooted h h' ids (match r with None => i | Some r => r end).
Proof.
  intros T. destruct r as [r|]; [apply (ev_set_root_some _ _ _ _ _ T)|]. destruct (ev_set_root_some _ _ _ _ i T) as (h' & [n0 E] & R). exists h'. split; [|exact R].
  exists n0. intros n Hn. rewrite <- (E n Hn). destruct n; reflexivity.
Qed.

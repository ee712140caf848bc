(** Lemmas for C19: trees with a shared part in normal form.  They arise in between when a term of an expression is replaced by a branch of one of
    two equal changes; simplification treats them like trees. *)
From Coq Require Import List Bool Arith ZArith NArith Lia Permutation.
From Verif Require Import Py UtilModel KexModel KexSpec KexProofs KexSimp KexCong OpsModel HeapModel HeapSpec HeapBase HeapSimp HeapSimp2.
Import ListNotations.

Section Mix.
  Context (offset : bool).

  (** ** Trees in normal form stay as they are *)
  Definition same (h h' : heap) : Prop := next h' = next h /\ forall j, obj h' j = obj h j.
  Lemma same_refl h : same h h. Proof. split; reflexivity. Qed.
  Lemma same_trans a b c : same a b -> same b c -> same a c.
  Proof. intros [N1 O1] [N2 O2]. split; [congruence|]. intros j. rewrite O2. apply O1. Qed.
  Lemma same_tree h h' i e ids : same h h' -> tree_at h i e ids -> tree_at h' i e ids.
  Proof. intros [_ O] T. eapply tree_frame; [exact T|]. intros j _. rewrite O. reflexivity. Qed.
  Lemma same_apart h h' cs es ids : same h h' -> apart (tree_at h) cs es ids -> apart (tree_at h') cs es ids.
  Proof. intros [_ O] T. eapply apart_frame; [exact T|]. intros j _. rewrite O. reflexivity. Qed.
  Lemma ev_extract_comm h c k bts cs (es : list kex) : data (obj h c) = BComm k bts cs -> length cs = length es -> wf_counter bts -> ~ singleton (Comm k bts es) ->
    evaluates (fun _ => extract c) h (inr c) h.
  Proof.
    intros D Len W S. rewrite singleton_comm in S. assert (S' : is_singleton bts es = false) by (destruct (is_singleton bts es) eqn:E; [apply is_singleton_spec in E; [contradiction|exact W]|reflexivity]).
    unfold is_singleton in S'. apply Z.eqb_neq in S'. unfold extract. eapply ev_bind; [apply ev_get|]. cbv beta. rewrite D, Len.
    destruct (Z.eqb_spec (csum bts) 1) as [K1|K1]; destruct (Nat.eqb_spec (length es) 0) as [K2|K2]; cbn [andb]; try (exfalso; lia);
      destruct (Z.eqb_spec (csum bts) 0) as [K3|K3]; destruct (Nat.eqb_spec (length es) 1) as [K4|K4]; cbn [andb]; try (exfalso; lia); apply ev_ret.
  Qed.
  Lemma ev_extract_self h c e ids : tree_at h c e ids -> wf_top e -> ~ singleton e -> evaluates (fun _ => extract c) h (inr c) h.
  Proof.
    intros T W S. inversion T as [i k bts cs es F D Aa Hi|i k l r l' r' F G D Bl Br Hd Hi]; subst.
    - eapply ev_extract_comm; [exact D|eapply apart_length; exact Aa|exact W|exact S].
    - unfold extract. eapply ev_bind; [apply ev_get|]. cbv beta. rewrite D. apply ev_ret.
  Qed.
  Lemma still e : forall h i ids, tree_at h i e ids -> normal offset e -> exists h', evaluates (fun n => simplify offset n i) h tt h' /\ same h h'.
  Proof.
    induction e as [k bts es IH|o l r IHl IHr] using kex_ind'; intros h i ids T Nm; apply normal_iff in Nm;
      inversion T as [i0 k0 b0 cs es0 F D Aa Hi|i0 c0 l0 r0 l' r' F G D Bl Br Dj Hi]; subst.
    - destruct Nm as (W & Hc & Hk).
      assert (Q1 : exists us h1, evaluates (fun n => hmap (simplify offset n) cs) h us h1 /\ same h h1).
      { clear -IH Aa Hk. assert (Q : forall g, same h g -> exists us h1, evaluates (fun n => hmap (simplify offset n) cs) g us h1 /\ same g h1). 2:{ apply Q, same_refl. }
        induction Aa as [|x y ids xs ys jds T1 A2 IHa Dj]; intros g Sg; [exists [], g; split; [apply (ev_nil (simplify offset))|apply same_refl]|].
        destruct (IH y (or_introl eq_refl) g x ids) as (g1 & E1 & S1); [eapply same_tree; eassumption|apply Hk; left; reflexivity|].
        destruct (IHa (fun c Hc => IH c (or_intror Hc)) (fun c Hc => Hk c (or_intror Hc)) g1 (same_trans _ _ _ Sg S1)) as (us & g2 & E2 & S2).
        exists (tt :: us), g2. split; [eapply (ev_cons (simplify offset)); eassumption|eapply same_trans; eassumption]. }
      destruct Q1 as (us & h1 & E1 & S1). assert (A1 : apart (tree_at h1) cs es F) by (eapply same_apart; eassumption).
      assert (D1 : data (obj h1 i) = BComm k bts cs) by (destruct S1 as [_ O]; rewrite O; exact D).
      assert (Ek : map fst (filter snd (combine cs (map (is_kind k) es))) = []).
      { clear -Aa Hk. induction Aa as [|x y ids xs ys jds T1 A2 IHa Dj]; [reflexivity|]. cbn [map combine filter snd]. destruct (Hk y (or_introl eq_refl)) as (_ & _ & ->). apply IHa. intros c Hc. apply Hk. right; exact Hc. }
      assert (Ex : evaluates (fun _ => hmap extract cs) h1 (map inr cs) h1).
      { clear -A1 Hk. induction A1 as [|x y ids xs ys jds T1 A2 IHa Dj]; [apply ev_const; reflexivity|]. cbn [map]. destruct (Hk y (or_introl eq_refl)) as (Ny & Sy & _).
        eapply (ev_cons (fun _ => extract)); [eapply ev_extract_self; [exact T1|apply (normal_wf_top _ _ Ny)|exact Sy]|]. apply IHa. intros c Hc. apply Hk. right; exact Hc. }
      assert (B0 : concat (map (fun x : base + ref => match x with inl b => [b] | inr _ => [] end) (map inr cs)) = []) by (clear; induction cs; [reflexivity|exact IHcs]).
      assert (B1 : concat (map (fun x : base + ref => match x with inl _ => [] | inr c => [c] end) (map inr cs)) = cs) by (clear; induction cs as [|c cs IHc]; [reflexivity|cbn [map concat app]; rewrite IHc; reflexivity]).
      assert (Len : length cs = length es) by (eapply apart_length; exact Aa).
      eexists. split.
      + apply ev_step. cbn [simplify]. eapply ev_bind; [apply ev_get|]. cbv beta. rewrite D. eapply ev_bind; [exact E1|]. cbv beta.
        eapply ev_bind; [apply (ev_has_kinds _ _ _ _ _ A1)|]. cbv beta. rewrite Ek. eapply ev_bind; [apply (ev_nil (fun n => absorb offset n i))|]. cbv beta.
        eapply ev_bind; [apply ev_get|]. cbv beta. rewrite D1. eapply ev_bind; [exact Ex|]. cbv beta. rewrite B0, B1. apply ev_set_data.
      + eapply same_trans; [exact S1|]. split; [reflexivity|]. intros j. cbn [upd obj]. destruct (N.eqb_spec j i) as [->|]; [|reflexivity].
        cbn [cupdate_list fold_left]. rewrite Len. rewrite !(simp_base_fix offset k bts (length es)) by assumption. rewrite <- D1. destruct (obj h1 i); reflexivity.
    - assert (Q : forall g b b' H, branch_at g b b' H -> (forall x, b' = inr x -> (l = inr x \/ r = inr x)) -> exists g', evaluates (fun n => simp_branch offset n b) g b g' /\ same g g').
      { clear -IHl IHr Nm. intros g b b' H B I. inversion B as [b0 Hb Hx|d e js' T Hd He Hjs]; subst; cbn [simp_branch]; [exists g; split; [apply ev_ret|apply same_refl]|].
        destruct (Nm e (I e eq_refl)) as [Ne Se]. assert (X : exists g', evaluates (fun n => simplify offset n d) g tt g' /\ same g g').
        { destruct (I e eq_refl) as [->| ->]; [eapply (IHl e eq_refl)|eapply (IHr e eq_refl)]; eassumption. }
        destruct X as (g' & E1 & S1). exists g'. split; [|exact S1]. eapply ev_bind; [exact E1|]. cbv beta. eapply ev_extract_self; [eapply same_tree; eassumption|apply (normal_wf_top _ _ Ne)|exact Se]. }
      destruct (Q h l0 l F Bl) as (h1 & E1 & S1); [intros x ->; auto|].
      set (h2 := upd h1 i (Obj (root (obj h1 i)) (parent (obj h1 i)) (BChange o l0 r0))).
      assert (S2 : same h h2).
      { eapply same_trans; [exact S1|]. split; [reflexivity|]. intros j. unfold h2. cbn [upd obj]. destruct (N.eqb_spec j i) as [->|]; [|reflexivity]. rewrite <- D. destruct S1 as [_ O]. rewrite O. destruct (obj h i); reflexivity. }
      destruct (Q h2 r0 r G) as (h3 & E3 & S3); [eapply branch_frame; [exact Br|intros j _; destruct S2 as [_ O]; rewrite O; reflexivity]|intros x ->; auto|].
      pose proof (same_trans _ _ _ S2 S3) as S23.
      eexists. split.
      + apply ev_step. cbn [simplify]. eapply ev_bind; [apply ev_get|]. cbv beta. rewrite D. eapply ev_bind; [exact E1|]. cbv beta. eapply ev_bind; [apply ev_set_data|]. cbv beta. fold h2.
        eapply ev_bind; [exact E3|]. cbv beta. apply ev_set_data.
      + eapply same_trans; [exact S23|]. split; [reflexivity|]. intros j. cbn [upd obj]. destruct (N.eqb_spec j i) as [->|]; [|reflexivity]. rewrite <- D. destruct S23 as [_ O]. rewrite O. destruct (obj h i); reflexivity.
  Qed.

  (** ** Trees with a shared part *)
  (** [mixed h S i e ids]: as [tree_at], with the nodes [ids], but there may be places where the tree continues with parts of [S] in normal form. *)
  Inductive mixed (h : heap) (S : list ref) : ref -> kex -> list ref -> Prop :=
  | mx_shared i e js : tree_at h i e js -> incl js S -> normal offset e -> ~ singleton e -> mixed h S i e []
  | mx_comm i k bts cs es ids : data (obj h i) = BComm k bts cs -> apart (mixed h S) cs es ids -> ~ In i ids -> ~ In i S -> mixed h S i (Comm k bts es) (i :: ids)
  | mx_change i c l r l' r' ids jds :
      data (obj h i) = BChange c l r -> mixed_branch h S l l' ids -> mixed_branch h S r r' jds -> (forall j, In j ids -> ~ In j jds) -> ~ In i (ids ++ jds) -> ~ In i S ->
      mixed h S i (Change c l' r') (i :: ids ++ jds)
  with mixed_branch (h : heap) (S : list ref) : base + ref -> branch -> list ref -> Prop :=
  | mx_base b : mixed_branch h S (inl b) (inl b) []
  | mx_tree i e ids : mixed h S i e ids -> mixed_branch h S (inr i) (inr e) ids.

  Lemma mx_frame h h' S e : forall i ids, mixed h S i e ids -> (forall j, In j ids \/ In j S -> data (obj h' j) = data (obj h j)) -> mixed h' S i e ids.
  Proof.
    induction e as [k bts es IH|o l r IHl IHr] using kex_ind'; intros i ids T Fr;
      inversion T as [i0 e0 js T0 I0 N0 S0|i0 k0 b0 cs es0 F D Aa Hi HS|i0 c0 l0 r0 l' r' F G D Bl Br Dj Hi HS]; subst.
    - eapply mx_shared; [eapply tree_frame; [exact T0|intros j Hj; apply Fr; right; apply I0, Hj]|exact I0|exact N0|exact S0].
    - econstructor; [rewrite Fr by (left; left; reflexivity); exact D| |exact Hi|exact HS].
      eapply apart_impl; [exact Aa|]. intros x y js Hx Hy L Q. apply (IH y Hy _ _ Q). intros j [Hj|Hj]; apply Fr; [left; right; apply L, Hj|right; exact Hj].
    - eapply mx_shared; [eapply tree_frame; [exact T0|intros j Hj; apply Fr; right; apply I0, Hj]|exact I0|exact N0|exact S0].
    - econstructor; [rewrite Fr by (left; left; reflexivity); exact D| | |exact Dj|exact Hi|exact HS].
      + inversion Bl; subst; constructor. eapply IHl; [reflexivity|eassumption|]. intros j [Hj|Hj]; apply Fr; [left; right; apply in_app_iff; auto|right; exact Hj].
      + inversion Br; subst; constructor. eapply IHr; [reflexivity|eassumption|]. intros j [Hj|Hj]; apply Fr; [left; right; apply in_app_iff; auto|right; exact Hj].
  Qed.
  Lemma mxs_frame h h' S cs es ids : apart (mixed h S) cs es ids -> (forall j, In j ids \/ In j S -> data (obj h' j) = data (obj h j)) -> apart (mixed h' S) cs es ids.
  Proof. intros A F. eapply apart_impl; [exact A|]. intros x y js _ _ L T. eapply mx_frame; [exact T|]. intros j [Hj|Hj]; apply F; [left; apply L, Hj|right; exact Hj]. Qed.
  Lemma mxb_frame h h' S l l' ids : mixed_branch h S l l' ids -> (forall j, In j ids \/ In j S -> data (obj h' j) = data (obj h j)) -> mixed_branch h' S l l' ids.
  Proof. intros B F. inversion B; subst; constructor. eapply mx_frame; eassumption. Qed.
  Lemma mx_disjoint h S e : forall i ids, mixed h S i e ids -> disjoint ids S.
  Proof.
    induction e as [k bts es IH|o l r IHl IHr] using kex_ind'; intros i ids T;
      inversion T as [i0 e0 js T0 I0 N0 S0|i0 k0 b0 cs es0 F D Aa Hi HS|i0 c0 l0 r0 l' r' F G D Bl Br Dj Hi HS]; subst; try (intros j []; fail).
    - intros j [<-|Hj]; [exact HS|]. revert j Hj. clear -Aa IH. induction Aa as [|x y ids xs ys jds H1 H2 IHa D]; intros j Hj; [destruct Hj|]. apply in_app_iff in Hj as [Hj|Hj]; [eapply (IH y (or_introl eq_refl)); eassumption|]. apply IHa; [intros c Hc; apply IH; right; exact Hc|assumption].
    - intros j [<-|Hj]; [exact HS|]. apply in_app_iff in Hj as [Hj|Hj].
      + inversion Bl; subst; [destruct Hj|]. eapply IHl; [reflexivity|eassumption|exact Hj].
      + inversion Br; subst; [destruct Hj|]. eapply IHr; [reflexivity|eassumption|exact Hj].
  Qed.
  Lemma mxs_disjoint h S cs es ids : apart (mixed h S) cs es ids -> disjoint ids S.
  Proof. induction 1 as [|x y ids xs ys jds H1 H2 IHa D]; intros j Hj; [destruct Hj|]. apply in_app_iff in Hj as [Hj|Hj]; [eapply mx_disjoint; eassumption|apply IHa; assumption]. Qed.
  Lemma mx_top h S i e ids : mixed h S i e ids -> In i ids \/ In i S.
  Proof. inversion 1; subst; [right|left; left; reflexivity|left; left; reflexivity]. match goal with H : incl _ _ |- _ => apply H end. eapply tree_top; eassumption. Qed.
  Lemma mxs_tops h S cs es ids c : apart (mixed h S) cs es ids -> In c cs -> In c ids \/ In c S.
  Proof. induction 1 as [|x y ids xs ys jds H1 H2 IHa D]; intros []; [subst; destruct (mx_top _ _ _ _ _ H1); auto; left; apply in_app_iff; auto|]. destruct (IHa H) as [K|K]; auto. left; apply in_app_iff; auto. Qed.
  Lemma tree_mixed h S e : forall i ids, tree_at h i e ids -> disjoint ids S -> mixed h S i e ids.
  Proof.
    induction e as [k bts es IH|o l r IHl IHr] using kex_ind'; intros i ids T Ds; inversion T as [i0 k0 b0 cs es0 F D Aa Hi|i0 c0 l0 r0 l' r' F G D Bl Br Dj Hi]; subst.
    - econstructor; [exact D| |exact Hi|apply Ds; left; reflexivity]. eapply apart_impl; [exact Aa|]. intros x y js _ Hy L Tx. apply (IH y Hy); [exact Tx|]. intros j Hj. apply Ds. right. apply L, Hj.
    - econstructor; [exact D| | |exact Dj|exact Hi|apply Ds; left; reflexivity].
      + inversion Bl; subst; constructor. eapply IHl; [reflexivity|eassumption|]. intros j Hj. apply Ds. right. apply in_app_iff; auto.
      + inversion Br; subst; constructor. eapply IHr; [reflexivity|eassumption|]. intros j Hj. apply Ds. right. apply in_app_iff; auto.
  Qed.
  Lemma trees_mixed h S cs es ids : apart (tree_at h) cs es ids -> disjoint ids S -> apart (mixed h S) cs es ids.
  Proof. intros A Ds. eapply apart_impl; [exact A|]. intros x y js _ _ L T. eapply tree_mixed; [exact T|]. intros j Hj. apply Ds, L, Hj. Qed.

  (** Reading *)
  Definition reads (h : heap) (c : ref) (e : kex) : Prop := evaluates (fun n => read n c) h e h.
  Lemma mx_read h S e : forall i ids, mixed h S i e ids -> reads h i e.
  Proof.
    induction e as [k bts es IH|o l r IHl IHr] using kex_ind'; intros i ids T;
      inversion T as [i0 e0 js T0 I0 N0 S0|i0 k0 b0 cs es0 F D Aa Hi HS|i0 c0 l0 r0 l' r' F G D Bl Br Dj Hi HS]; subst; try (eapply ev_read; exact T0).
    - apply ev_step. cbn [read]. eapply ev_bind; [apply ev_get|]. cbv beta. rewrite D. eapply ev_bind; [|apply ev_ret]. clear -Aa IH.
      induction Aa as [|x y ids xs ys jds H1 H2 IHa Dj]; [apply (ev_nil read)|]. eapply (ev_cons read); [eapply IH; [left; reflexivity|exact H1]|]. apply IHa. intros c Hc. apply IH. right. exact Hc.
    - apply ev_step. cbn [read]. eapply ev_bind; [apply ev_get|]. cbv beta. rewrite D. eapply ev_bind; [|eapply ev_bind; [|apply ev_ret]].
      + inversion Bl; subst; cbn [hbranch]; [apply ev_ret|]. eapply ev_bind; [eapply IHl; [reflexivity|eassumption]|apply ev_ret].
      + inversion Br; subst; cbn [hbranch]; [apply ev_ret|]. eapply ev_bind; [eapply IHr; [reflexivity|eassumption]|apply ev_ret].
  Qed.
  Lemma mxs_read h S cs es ids : apart (mixed h S) cs es ids -> Forall2 (reads h) cs es.
  Proof. induction 1 as [|x y ids xs ys jds H1 H2 IHa D]; constructor; [eapply mx_read; exact H1|exact IHa]. Qed.
  Lemma reads_equal h a x b y : reads h a x -> reads h b y -> evaluates (fun n => equal n a b) h (keq x y) h.
  Proof. intros Ta Tb. unfold equal. eapply ev_bind; [exact Ta|]. eapply ev_bind; [exact Tb|]. apply ev_ret. Qed.
  Lemma reads_remove h hc e pre c post pre' x : reads h hc e -> Forall2 (reads h) pre pre' -> reads h c x -> keq x e = true -> (forall y, In y pre' -> keq y e = false) ->
    evaluates (fun n => remove n hc (pre ++ c :: post)) h (pre ++ post) h.
  Proof.
    intros Th F T E Hp. induction F as [|y y' pre pre' Ty F IH]; cbn [app remove].
    - eapply ev_bind; [eapply reads_equal; eassumption|]. cbv beta. rewrite E. apply ev_ret.
    - eapply ev_bind; [eapply reads_equal; eassumption|]. cbv beta. rewrite (Hp y' (or_introl eq_refl)).
      eapply ev_bind; [|apply ev_ret]. apply IH. intros z Hz. apply Hp. right. exact Hz.
  Qed.

  (** What simplification may change *)
  Definition steps (h h' : heap) (F S : list ref) : Prop := calm h h' (F ++ S) /\ forall j, In j S -> data (obj h' j) = data (obj h j).
  Lemma steps_refl h F S : steps h h F S. Proof. split; [apply calm_refl|reflexivity]. Qed.
  Lemma steps_trans a b c F G H S : steps a b F S -> steps b c G S -> incl F H -> incl G H -> steps a c H S.
  Proof.
    intros [C1 D1] [C2 D2] I J. split; [eapply calm_trans; [exact C1|exact C2| |]|intros j Hj; rewrite D2, D1 by exact Hj; reflexivity];
      intros j Hj; apply in_app_iff in Hj as [Hj|Hj]; apply in_app_iff; auto.
  Qed.
  Lemma steps_same h h' F S : same h h' -> steps h h' F S.
  Proof. intros [N O]. split; [|intros j _; rewrite O; reflexivity]. split; [exact N|]. split; intros j; [rewrite O; reflexivity|intros _; apply O]. Qed.
  Lemma steps_reparented h h' F S : reparented h h' (F ++ S) -> steps h h' F S.
  Proof. intros R. split; [apply reparented_calm, R|]. intros j _. apply R. Qed.
  Lemma steps_set h i b S : ~ In i S -> steps h (upd h i (Obj (root (obj h i)) (parent (obj h i)) b)) [i] S.
  Proof.
    intros HS. split; [|intros j Hj; rewrite upd_other by (intros ->; contradiction); reflexivity]. split; [reflexivity|]. split; intros j.
    - cbn [upd obj]. destruct (N.eqb_spec j i) as [->|]; reflexivity.
    - intros Hj. apply upd_other. intros ->. apply Hj. left. reflexivity.
  Qed.
  (** The nodes outside keep their data. *)
  Lemma steps_data h h' F S j : steps h h' F S -> ~ In j F -> data (obj h' j) = data (obj h j).
  Proof. intros [C D] Hj. destruct (in_dec N.eq_dec j S) as [K|K]; [apply D, K|]. destruct C as (_ & _ & O). rewrite O; [reflexivity|]. rewrite in_app_iff. tauto. Qed.

  (** ** extract *)
  Lemma mx_extract h S c e ids : mixed h S c e ids ->
    exists x h' js, evaluates (fun _ => extract c) h x h' /\ mixed_branch h' S x (KexModel.extract e) js /\ incl js ids /\ reparented h h' (ids ++ S).
  Proof.
    intros T. inversion T as [i0 e0 js T0 I0 N0 S0|i0 k bts cs es F D Aa Hi HS|i0 c0 l0 r0 l' r' F G D Bl Br Dj Hi HS]; subst.
    - exists (inr c), h, []. split; [eapply ev_extract_self; [exact T0|apply (normal_wf_top _ _ N0)|exact S0]|]. rewrite (extract_self e) by (try apply (normal_wf_top _ _ N0); exact S0).
      split; [constructor; exact T|]. split; [apply incl_refl|apply reparented_refl].
    - assert (Len : length cs = length es) by (eapply apart_length; exact Aa).
      cbn [KexModel.extract]. destruct (Z.eqb (csum bts) 1 && Nat.eqb (length es) 0) eqn:E1.
      + apply andb_prop in E1 as [Ea Eb]. destruct (celements bts) as [|b t] eqn:Ee; [exfalso; apply (csum_one_elements bts); [lia|exact Ee]|].
        exists (inl b), h, []. split; [|split; [constructor|split; [intros j []|apply reparented_refl]]].
        unfold extract. eapply ev_bind; [apply ev_get|]. cbv beta. rewrite D, Len, Ea, Eb, Ee. apply ev_ret.
      + destruct (Z.eqb (csum bts) 0 && Nat.eqb (length es) 1) eqn:E2.
        * destruct es as [|y [|y2 es]]; [rewrite andb_comm in E2; discriminate| |rewrite andb_comm in E2; discriminate].
          inversion Aa as [|x y0 ids0 xs ys jds T1 A2 Dj]; subst. inversion A2; subst. rewrite app_nil_r in *.
          pose proof (set_parent_reparented h x (parent (obj h c))) as R.
          exists (inr x). eexists. exists ids0. split; [|split; [|split]].
          -- unfold extract. eapply ev_bind; [apply ev_get|]. cbv beta. rewrite D, Len, E1, E2. eapply ev_bind; [apply ev_set_parent|]. apply ev_ret.
          -- constructor. eapply mx_frame; [exact T1|]. intros j _. apply R.
          -- intros j Hj. right. exact Hj.
          -- eapply reparented_incl; [exact R|]. intros j [<-|[]]. apply in_app_iff. destruct (mx_top _ _ _ _ _ T1); [left; right; assumption|right; assumption].
        * exists (inr c), h, (c :: F). split; [|split; [constructor; exact T|split; [apply incl_refl|apply reparented_refl]]].
          unfold extract. eapply ev_bind; [apply ev_get|]. cbv beta. rewrite D, Len, E1, E2. apply ev_ret.
    - exists (inr c), h, (c :: F ++ G). split; [|split; [constructor; exact T|split; [apply incl_refl|apply reparented_refl]]].
      unfold extract. eapply ev_bind; [apply ev_get|]. cbv beta. rewrite D. apply ev_ret.
  Qed.
  Lemma mx_extracts h S cs es F : apart (mixed h S) cs es F ->
    exists xs h' F', evaluates (fun _ => hmap extract cs) h xs h' /\ apart (mixed_branch h' S) xs (map KexModel.extract es) F' /\ incl F' F /\ reparented h h' (F ++ S).
  Proof.
    intros Aa. revert h cs F Aa. induction es as [|y es IH]; intros h cs F Aa; inversion Aa as [|x y0 ids xs ys jds T1 A2 Dj]; subst.
    - exists [], h, []. split; [apply ev_const; reflexivity|]. split; [constructor|]. split; [intros j []|apply reparented_refl].
    - destruct (mx_extract h S x y ids T1) as (z & h1 & js & E1 & B1 & I1 & R1).
      destruct (IH h1 xs jds) as (zs & h2 & F2 & E2 & B2 & I2 & R2); [eapply mxs_frame; [exact A2|intros j _; apply R1]|].
      exists (z :: zs), h2, (js ++ F2). split; [eapply (ev_cons (fun _ => extract)); eassumption|]. split; [|split].
      + cbn [map]. constructor; [eapply mxb_frame; [exact B1|intros j _; apply R2]|exact B2|]. intros j Hj K. exact (Dj j (I1 j Hj) (I2 j K)).
      + intros j Hj. apply in_app_iff in Hj as [Hj|Hj]; apply in_app_iff; auto.
      + eapply reparented_incl; [eapply reparented_trans; eassumption|]. intros j. rewrite !in_app_iff. tauto.
  Qed.
  Lemma mx_branches h S xs es F : apart (mixed_branch h S) xs es F ->
    concat (map (fun x => match x with inl b => [b] | inr _ => [] end) xs) = bases_of es /\ apart (mixed h S) (refs_of xs) (kexs_of es) F.
  Proof.
    induction 1 as [|x y ids xs ys jds B A [IH1 IH2] Dj]; [split; [reflexivity|constructor]|]. unfold bases_of, kexs_of, refs_of in *. cbn [map concat].
    rewrite IH1. inversion B as [b Hb Hx|d e js' T Hd He Hjs]; subst; cbn [app]; [split; [reflexivity|exact IH2]|]. split; [reflexivity|]. constructor; assumption.
  Qed.

  (** ** absorb_homogeneous_composites *)
  Definition mholds (h : heap) (S : list ref) (i : ref) (k : kind) (bts : counter) (cs : list ref) (es : list kex) (F : list ref) : Prop :=
    data (obj h i) = BComm k bts cs /\ apart (mixed h S) cs es F /\ ~ In i F /\ ~ In i S.
  (** The composites of a part *)
  Lemma mx_kids h S hc k hb hes ids : mixed h S hc (Comm k hb hes) ids -> exists hcs G, data (obj h hc) = BComm k hb hcs /\ apart (mixed h S) hcs hes G /\ incl G ids.
  Proof.
    intros T. inversion T as [i0 e0 js T0 I0 N0 S0|i0 k0 b0 cs es0 F D Aa Hi HS|]; subst.
    - inversion T0 as [i0 k0 b0 cs es0 F D Aa Hi|]; subst. exists cs, []. split; [exact D|]. split; [|apply incl_refl]. apply normal_iff in N0 as (_ & _ & Nk).
      assert (If : incl F S) by (intros j Hj; apply I0; right; exact Hj). clear -Aa Nk If. induction Aa as [|x y ids xs ys jds H1 H2 IHa Dj]; [constructor|]. change (@nil ref) with (@nil ref ++ []). destruct (Nk y (or_introl eq_refl)) as (Ny & Sy & _).
      constructor; [eapply mx_shared; [exact H1|intros j Hj; apply If, in_app_iff; auto|exact Ny|exact Sy]|apply IHa; [intros c Hc; apply Nk; right; exact Hc|intros j Hj; apply If, in_app_iff; auto]|intros j []].
    - exists cs, F. split; [exact D|]. split; [exact Aa|]. intros j Hj. right. exact Hj.
  Qed.
  Lemma mx_absorb h S i k bts pre hc post pre' hb hes post' F :
    mholds h S i k bts (pre ++ hc :: post) (pre' ++ Comm k hb hes :: post') F -> length pre = length pre' -> (forall y, In y pre' -> is_kind k y = false) ->
    exists hcs h' F', evaluates (fun n => absorb offset n i hc) h tt h'
      /\ mholds h' S i k (simp_base offset k (cupdate bts hb) (length (pre' ++ Comm k hb hes :: post'))) (pre ++ post ++ hcs) (pre' ++ post' ++ hes) F'
      /\ incl F' F /\ steps h h' (i :: F) S /\ length hcs = length hes.
  Proof.
    intros (D & Aa & Hi & HS) Len Hk.
    destruct (apart_split _ _ _ _ _ _ Len Aa) as (F1 & F2 & -> & A1 & A2 & D12).
    inversion A2 as [|x y ids0 xs ys jds T A3 Dj]; subst. destruct (mx_kids _ _ _ _ _ _ _ T) as (hcs & G & Dh & Ah & IG).
    assert (Lens : length (pre ++ hc :: post) = length (pre' ++ Comm k hb hes :: post')) by (eapply apart_length; exact Aa).
    assert (Nall : forall j, In j (F1 ++ ids0 ++ jds) \/ In j S -> j <> i) by (intros j [Hj|Hj] ->; contradiction).
    assert (Nhi : hc <> i) by (apply Nall; destruct (mx_top _ _ _ _ _ T); [left; rewrite !in_app_iff; auto|right; assumption]).
    set (bts' := simp_base offset k (cupdate bts hb) (length (pre ++ hc :: post))).
    set (h1 := upd h i (Obj (root (obj h i)) (parent (obj h i)) (BComm k bts' (pre ++ hc :: post)))).
    destruct (ev_set_parents h1 i hcs) as (h2 & us & E2 & R2 & _).
    assert (D2 : forall j, j <> i -> data (obj h2 j) = data (obj h j)).
    { intros j Hj. destruct R2 as (_ & Dd & _). rewrite Dd. unfold h1. rewrite upd_other by exact Hj. reflexivity. }
    set (h3 := upd h2 i (Obj (root (obj h2 i)) (parent (obj h2 i)) (BComm k bts' (pre ++ post ++ hcs)))).
    assert (D3 : forall j, j <> i -> data (obj h3 j) = data (obj h j)) by (intros j Hj; unfold h3; rewrite upd_other by exact Hj; apply D2, Hj).
    assert (Ic : forall c, In c hcs -> In c ((F1 ++ ids0 ++ jds) ++ S)).
    { intros c Hc. destruct (mxs_tops _ _ _ _ _ _ Ah Hc) as [K|K]; rewrite !in_app_iff; auto. }
    exists hcs, h3, (F1 ++ jds ++ G). split; [|split; [|split; [|split]]].
    - unfold absorb. eapply ev_bind; [apply ev_get|]. cbv beta. eapply ev_bind; [apply ev_get|]. cbv beta. rewrite D, Dh. fold bts'.
      eapply ev_bind; [apply ev_set_data|]. cbv beta. fold h1. eapply ev_bind; [exact E2|]. cbv beta. eapply ev_bind; [|cbv beta; apply ev_set_data].
      rewrite <- !app_assoc. cbn [app].
      assert (R : reads h2 hc (Comm k hb hes)). { eapply mx_read. eapply mx_frame; [exact T|]. intros j Hj. apply D2, Nall. rewrite !in_app_iff. tauto. }
      eapply (reads_remove h2 hc (Comm k hb hes) pre hc (post ++ hcs) pre' (Comm k hb hes)); [exact R| |exact R|apply keq_refl|].
      + eapply mxs_read. eapply mxs_frame; [exact A1|]. intros j Hj. apply D2, Nall. rewrite !in_app_iff. tauto.
      + intros y Hy. destruct (keq y (Comm k hb hes)) eqn:E; [|reflexivity]. apply (keq_kind _ _ k) in E. rewrite (Hk y Hy) in E. cbn in E. destruct k; discriminate.
    - split; [unfold h3; rewrite upd_same; cbn [data]; unfold bts'; rewrite Lens; reflexivity|]. split; [|split; [|exact HS]].
      + eapply mxs_frame; [|intros j Hj; apply D3, Nall; rewrite !in_app_iff in *; destruct Hj as [[Hj|[Hj|Hj]]|Hj]; auto].
        apply apart_app; [exact A1|apply apart_app; [exact A3|exact Ah|]|].
        * intros j Hj K. apply (Dj j); [apply IG, K|exact Hj].
        * intros j Hj K. apply (D12 j Hj). rewrite !in_app_iff in *. destruct K as [K|K]; [auto|left; apply IG, K].
      + intros Z. apply Hi. rewrite !in_app_iff in *. destruct Z as [Z|[Z|Z]]; auto.
    - intros j. rewrite !in_app_iff. intros [Z|[Z|Z]]; auto.
    - eapply steps_trans; [apply (steps_set h i (BComm k bts' (pre ++ hc :: post)) S HS)| |intros j [<-|[]]; left; reflexivity|apply incl_refl].
      eapply steps_trans; [|apply (steps_set h2 i (BComm k bts' (pre ++ post ++ hcs)) S HS)|apply incl_refl|intros j [<-|[]]; left; reflexivity].
      apply steps_reparented. eapply reparented_incl; [exact R2|]. intros c Hc. right. apply Ic, Hc.
    - eapply apart_length; exact Ah.
  Qed.
  Lemma mx_absorbs i k S rest : forall h bts pre app_ pre' rest' app' F,
    mholds h S i k bts (pre ++ rest ++ app_) (pre' ++ rest' ++ app') F -> length pre = length pre' -> length rest = length rest' -> (forall y, In y pre' -> is_kind k y = false) ->
    exists h' us cs F', evaluates (fun n => hmap (absorb offset n i) (same_kind k rest rest')) h us h'
      /\ (let st := fold_left (absorb_one offset k) (filter (is_kind k) rest') (bts, pre' ++ rest' ++ app') in mholds h' S i k (fst st) cs (snd st) F')
      /\ incl F' F /\ steps h h' (i :: F) S.
  Proof.
    induction rest as [|c rest IH]; intros h bts pre app_ pre' rest' app' F H Len Lr Hk; destruct rest' as [|e rest']; try discriminate.
    - exists h, [], (pre ++ [] ++ app_), F. split; [apply (ev_nil (fun n => absorb offset n i))|]. split; [exact H|]. split; [apply incl_refl|apply steps_refl].
    - unfold same_kind. cbn [combine map filter snd fst]. destruct (is_kind k e) eqn:K.
      + destruct e as [k' hb hes|]; [|discriminate]. assert (k' = k) as -> by (destruct k, k'; cbn in K; congruence).
        cbn [app] in H. destruct (mx_absorb h S i k bts pre c (rest ++ app_) pre' hb hes (rest' ++ app') F H Len Hk) as (hcs & h1 & F1 & E1 & H1 & I1 & W1 & Lh).
        rewrite <- (app_assoc rest) in H1. rewrite <- (app_assoc rest') in H1. destruct (IH h1 _ pre (app_ ++ hcs) pre' rest' (app' ++ hes) F1 H1 Len ltac:(cbn in Lr; lia) Hk) as (h2 & us & cs & F2 & E2 & H2 & I2 & W2).
        exists h2, (tt :: us), cs, F2. split; [cbn [map fst]; eapply (ev_cons (fun n => absorb offset n i)); [exact E1|exact E2]|]. split; [|split].
        * cbn [fold_left]. rewrite absorb_one_comm. cbn [fst snd app]. rewrite <- !app_assoc. cbn [app].
          rewrite remove_skip; [rewrite <- (app_assoc rest'); exact H2|apply keq_refl|]. intros y Hy. destruct (keq y (Comm k hb hes)) eqn:E; [|reflexivity].
          apply (keq_kind _ _ k) in E. rewrite (Hk y Hy) in E. rewrite K in E. discriminate.
        * eapply incl_tran; eassumption.
        * eapply steps_trans; [exact W1|exact W2|apply incl_refl|]. intros j [<-|Hj]; [left; reflexivity|right; apply I1, Hj].
      + destruct (IH h bts (pre ++ [c]) app_ (pre' ++ [e]) rest' app' F) as (h2 & us & cs & F2 & E2 & H2 & I2 & W2).
        * rewrite <- !app_assoc. exact H.
        * rewrite !app_length. cbn. lia.
        * cbn in Lr; lia.
        * intros y Hy. apply in_app_iff in Hy as [Hy|[<-|[]]]; auto.
        * exists h2, us, cs, F2. split; [exact E2|]. rewrite <- !app_assoc in H2. auto.
  Qed.

  (** ** simplify *)
  Definition msimplifies (S : list ref) (e : kex) : Prop := forall h i ids, mixed h S i e ids ->
    exists h' ids', evaluates (fun n => simplify offset n i) h tt h' /\ mixed h' S i (KexModel.simplify offset e) ids' /\ incl ids' ids /\ steps h h' ids S.
  Lemma mx_simplifies S es : (forall e, In e es -> msimplifies S e) -> forall h cs F, apart (mixed h S) cs es F ->
    exists h' us F', evaluates (fun n => hmap (simplify offset n) cs) h us h' /\ apart (mixed h' S) cs (map (KexModel.simplify offset) es) F' /\ incl F' F /\ steps h h' F S.
  Proof.
    induction es as [|y es IH]; intros Si h cs F Aa; inversion Aa as [|x y0 ids xs ys jds T1 A2 Dj]; subst.
    - exists h, [], []. split; [apply (ev_nil (simplify offset))|]. split; [constructor|]. split; [apply incl_refl|apply steps_refl].
    - destruct (Si y (or_introl eq_refl) h x ids T1) as (h1 & ids1 & E1 & T1' & I1 & C1). pose proof (mxs_disjoint _ _ _ _ _ A2) as DjS. pose proof (mx_disjoint _ _ _ _ _ T1) as DiS.
      destruct (IH (fun e He => Si e (or_intror He)) h1 xs jds) as (h2 & us & F2 & E2 & A2' & I2 & C2).
      + eapply mxs_frame; [exact A2|]. intros j Hj. eapply steps_data; [exact C1|]. intros K. destruct Hj as [Hj|Hj]; [exact (Dj j K Hj)|exact (DiS j K Hj)].
      + exists h2, (tt :: us), (ids1 ++ F2). split; [eapply (ev_cons (simplify offset)); eassumption|]. split; [|split].
        * cbn [map]. constructor; [eapply mx_frame; [exact T1'|]|exact A2'|]; [|intros j Hj K; exact (Dj j (I1 j Hj) (I2 j K))].
          intros j Hj. eapply steps_data; [exact C2|]. intros K. destruct Hj as [Hj|Hj]; [exact (Dj j (I1 j Hj) K)|exact (DjS j K Hj)].
        * intros j Hj. apply in_app_iff in Hj as [Hj|Hj]; apply in_app_iff; auto.
        * eapply steps_trans; [exact C1|exact C2|apply incl_appl, incl_refl|apply incl_appr, incl_refl].
  Qed.
  Lemma mx_has_kinds k h S cs es F : apart (mixed h S) cs es F -> evaluates (fun _ => hmap (has_kind k) cs) h (map (is_kind k) es) h.
  Proof.
    induction 1 as [|x y ids xs ys jds T A IH D]; [apply ev_const; reflexivity|]. eapply (ev_cons (fun _ => has_kind k)); [|exact IH].
    unfold has_kind. eapply ev_bind; [apply ev_get|]. cbv beta. inversion T as [i0 e0 js T0 I0 N0 S0|i0 k0 b0 cs es0 F E Aa Hi HS|i0 c0 l0 r0 l' r' F G E Bl Br Dj Hi HS]; subst; try (rewrite E; apply ev_ret).
    inversion T0 as [i k' bts cs es G E|i c l r l' r' G G' E]; subst; rewrite E; apply ev_ret.
  Qed.
  Lemma mx_simp_branch S b b' F g : mixed_branch g S b b' F -> (forall x, b' = inr x -> msimplifies S x) ->
    exists x g' F', evaluates (fun n => simp_branch offset n b) g x g' /\ mixed_branch g' S x (match b' with inl b => inl b | inr x => KexModel.extract (KexModel.simplify offset x) end) F'
      /\ incl F' F /\ steps g g' F S.
  Proof.
    intros B Si. inversion B as [b0 Hb Hx|d e js' T Hd He Hjs]; subst; cbn [simp_branch].
    - exists (inl b0), g, []. split; [apply ev_ret|]. split; [constructor|]. split; [intros j []|apply steps_refl].
    - destruct (Si e eq_refl g d F T) as (g1 & F1 & E1 & T1 & I1 & C1). destruct (mx_extract g1 S d _ F1 T1) as (x & g2 & F2 & E2 & B2 & I2 & R2).
      exists x, g2, F2. split; [eapply ev_bind; [exact E1|exact E2]|]. split; [exact B2|]. split; [eapply incl_tran; eassumption|].
      eapply steps_trans; [exact C1|apply steps_reparented, R2|apply incl_refl|exact I1].
  Qed.
  Theorem mx_simplify S e : msimplifies S e.
  Proof.
    induction e as [k bts es IH|o l r IHl IHr] using kex_ind'; intros h i ids T;
      inversion T as [i0 e0 js T0 I0 N0 S0|i0 k0 b0 cs es0 F D Aa Hi HS|i0 c0 l0 r0 l' r' F G D Bl Br Dj Hi HS]; subst;
      try (destruct (still _ h i js T0 N0) as (h' & E & Sm); exists h', []; split; [exact E|]; rewrite (normal_fix _ _ N0); split; [|split; [apply incl_refl|apply steps_same, Sm]];
           eapply mx_frame; [exact T|]; intros j _; destruct Sm as [_ O]; rewrite O; reflexivity).
    - destruct (mx_simplifies S es IH h cs F Aa) as (h1 & us1 & F1 & E1 & A1 & I1 & C1). pose proof (mxs_disjoint _ _ _ _ _ Aa) as DF.
      assert (Hi1 : ~ In i F1) by (intros K; apply Hi, I1, K).
      assert (D1 : data (obj h1 i) = BComm k bts cs) by (rewrite (steps_data _ _ _ _ i C1) by exact Hi; exact D).
      assert (Len : length cs = length (map (KexModel.simplify offset) es)) by (rewrite map_length; eapply apart_length; exact Aa).
      destruct (mx_absorbs i k S cs h1 bts [] [] [] (map (KexModel.simplify offset) es) [] F1) as (h2 & us2 & cs2 & F2 & E2 & H2 & I2 & W2).
      { cbn [app]. rewrite !app_nil_r. split; [exact D1|]. auto. }
      { reflexivity. }
      { exact Len. }
      { intros y []. }
      cbn [app] in H2. rewrite !app_nil_r in H2.
      set (st := fold_left (absorb_one offset k) (filter (is_kind k) (map (KexModel.simplify offset) es)) (bts, map (KexModel.simplify offset) es)) in H2. cbv zeta in H2.
      destruct H2 as (D2 & A2 & Hi2 & _).
      destruct (mx_extracts h2 S cs2 (snd st) F2 A2) as (xs & h3 & F3 & E3 & B3 & I3 & R3).
      destruct (mx_branches h3 S xs _ F3 B3) as (Eb & A3).
      assert (Hi3 : ~ In i F3) by (intros K; apply Hi2, I3, K).
      assert (Lrefs : length (refs_of xs) = length (kexs_of (map KexModel.extract (snd st)))) by (eapply apart_length; exact A3).
      set (bfin := simp_base offset k (simp_base offset k (cupdate_list (fst st) (bases_of (map KexModel.extract (snd st)))) (length (refs_of xs))) (length (refs_of xs))).
      set (h4 := upd h3 i (Obj (root (obj h3 i)) (parent (obj h3 i)) (BComm k bfin (refs_of xs)))).
      assert (O4 : forall j, j <> i -> obj h4 j = obj h3 j) by (intros j Hj; apply upd_other, Hj).
      exists h4, (i :: F3). split; [|split; [|split]].
      + apply ev_step. cbn [simplify]. eapply ev_bind; [apply ev_get|]. cbv beta. rewrite D.
        eapply ev_bind; [exact E1|]. cbv beta. eapply ev_bind; [apply (mx_has_kinds _ _ _ _ _ _ A1)|]. cbv beta.
        eapply ev_bind; [exact E2|]. cbv beta. eapply ev_bind; [apply ev_get|]. cbv beta. rewrite D2.
        eapply ev_bind; [exact E3|]. cbv beta. rewrite Eb. apply ev_set_data.
      + cbn [KexModel.simplify]. unfold simp_node, absorb_homogeneous, absorb_singletons. fold st. cbn [fst snd]. rewrite <- Lrefs.
        econstructor; [unfold h4; rewrite upd_same; reflexivity| |exact Hi3|exact HS]. eapply mxs_frame; [exact A3|]. intros j Hj. rewrite O4; [reflexivity|]. intros ->. tauto.
      + intros j [<-|Hj]; [left; reflexivity|]. right. apply I1, I2, I3, Hj.
      + eapply steps_trans; [exact C1| |intros j Hj; right; exact Hj|apply incl_refl].
        eapply steps_trans; [exact W2| |intros j [<-|Hj]; [left; reflexivity|right; apply I1, Hj]|apply incl_refl].
        eapply steps_trans; [apply steps_reparented, R3|apply steps_set, HS| |].
        * intros j Hj. right. apply I1, I2, Hj.
        * intros j [<-|[]]. left. reflexivity.
    - assert (HiF : ~ In i F) by (intros K; apply Hi, in_app_iff; auto). assert (HiG : ~ In i G) by (intros K; apply Hi, in_app_iff; auto).
      assert (DF : disjoint F S) by (inversion Bl; subst; [intros j []|eapply mx_disjoint; eassumption]). assert (DG : disjoint G S) by (inversion Br; subst; [intros j []|eapply mx_disjoint; eassumption]).
      destruct (mx_simp_branch S l0 l F h Bl IHl) as (xl & h1 & F1 & E1 & B1 & I1 & C1).
      set (h2 := upd h1 i (Obj (root (obj h1 i)) (parent (obj h1 i)) (BChange o xl r0))).
      assert (O2 : forall j, j <> i -> obj h2 j = obj h1 j) by (intros j Hj; apply upd_other, Hj).
      assert (Br2 : mixed_branch h2 S r0 r G).
      { eapply mxb_frame; [exact Br|]. intros j Hj. rewrite O2 by (intros ->; tauto). eapply steps_data; [exact C1|]. intros K. destruct Hj as [Hj|Hj]; [exact (Dj j K Hj)|exact (DF j K Hj)]. }
      destruct (mx_simp_branch S r0 r G h2 Br2 IHr) as (xr & h3 & G3 & E3 & B3 & I3 & C3).
      set (h4 := upd h3 i (Obj (root (obj h3 i)) (parent (obj h3 i)) (BChange o xl xr))).
      assert (O4 : forall j, j <> i -> obj h4 j = obj h3 j) by (intros j Hj; apply upd_other, Hj).
      assert (Hi4 : ~ In i (F1 ++ G3)). { intros K. apply in_app_iff in K as [K|K]; [apply HiF, I1, K|apply HiG, I3, K]. }
      exists h4, (i :: F1 ++ G3). split; [|split; [|split]].
      + apply ev_step. cbn [simplify]. eapply ev_bind; [apply ev_get|]. cbv beta. rewrite D.
        eapply ev_bind; [exact E1|]. cbv beta. eapply ev_bind; [apply ev_set_data|]. cbv beta. fold h2.
        eapply ev_bind; [exact E3|]. cbv beta. apply ev_set_data.
      + cbn [KexModel.simplify]. econstructor; [unfold h4; rewrite upd_same; reflexivity| | | |exact Hi4|exact HS].
        * eapply mxb_frame; [exact B1|]. intros j Hj. assert (j <> i) by (intros ->; destruct Hj as [Hj|Hj]; [apply HiF, I1, Hj|contradiction]). rewrite O4, (steps_data _ _ _ _ j C3), O2; auto.
          intros K. destruct Hj as [Hj|Hj]; [exact (Dj j (I1 j Hj) K)|exact (DG j K Hj)].
        * eapply mxb_frame; [exact B3|]. intros j Hj. rewrite O4; [reflexivity|]. intros ->. destruct Hj as [Hj|Hj]; [apply HiG, I3, Hj|contradiction].
        * intros j Hj K. exact (Dj j (I1 j Hj) (I3 j K)).
      + intros j [<-|Hj]; [left; reflexivity|]. right. apply in_app_iff in Hj as [Hj|Hj]; apply in_app_iff; auto.
      + eapply steps_trans; [exact C1| |intros j Hj; right; apply in_app_iff; auto|apply incl_refl].
        eapply steps_trans; [apply (steps_set h1 i (BChange o xl r0) S HS)| |intros j [<-|[]]; left; reflexivity|apply incl_refl].
        eapply steps_trans; [exact C3|apply (steps_set h3 i (BChange o xl xr) S HS)|intros j Hj; right; apply in_app_iff; auto|intros j [<-|[]]; left; reflexivity].
  Qed.
End Mix.

(** Lemmas for C19: what is done at a term equal to an earlier one of the same Sum or Product was already done there. *)
From Coq Require Import List Bool Arith ZArith NArith Lia Permutation.
From Verif Require Import Py UtilModel KexModel KexSpec KexProofs KexSimp KexCong OpsModel OpsSpec OpsProofs
  HeapModel HeapSpec HeapBase HeapSimp HeapSimp2 HeapNew HeapOps HeapOps2 HeapRepl HeapMix HeapSpoil HeapTree HeapExpand.
Import ListNotations.

Notation place := (kex * (kex -> kex) * bool)%type.
Definition spot_node (x : place) : kex := fst (fst x).
Definition spot_context (x : place) : kex -> kex := snd (fst x).
(** The place [x] has an equal node and context as [y]. *)
Definition alike (y x : place) : Prop :=
  keq (spot_node y) (spot_node x) = true /\ forall n n', keq n n' = true -> keq (spot_context y n) (spot_context x n') = true.
(** Each place of [l] whose mark is false is like an earlier one. *)
Fixpoint covered (seen l : list place) : Prop :=
  match l with
  | [] => True
  | x :: t => (snd x = false -> exists y, In y seen /\ alike y x) /\ covered (seen ++ [x]) t
  end.
Lemma covered_mono l : forall seen seen', incl seen seen' -> covered seen l -> covered seen' l.
Proof.
  induction l as [|x l IH]; intros seen seen' I C; [exact C|]. destruct C as [H C]. cbn [covered]. split; [intros F; destruct (H F) as (y & Hy & A); exists y; auto|].
  eapply IH; [|exact C]. intros z Hz. apply in_app_iff in Hz as [Hz|Hz]; apply in_app_iff; auto.
Qed.
Lemma covered_app a b : forall seen, covered seen a -> covered (seen ++ a) b -> covered seen (a ++ b).
Proof.
  induction a as [|x a IH]; intros seen Ca Cb; [rewrite app_nil_r in Cb; exact Cb|]. destruct Ca as [H C]. cbn [app covered]. split; [exact H|]. apply IH; [exact C|]. rewrite <- app_assoc. exact Cb.
Qed.
Lemma covered_map (g : kex -> kex) l : (forall n n', keq n n' = true -> keq (g n) (g n') = true) -> forall seen, covered seen l ->
  covered (map (fun x => (fst (fst x), (fun n => g (snd (fst x) n)), snd x)) seen) (map (fun x => (fst (fst x), (fun n => g (snd (fst x) n)), snd x)) l).
Proof.
  intros G. induction l as [|x l IH]; intros seen C; [exact I|]. destruct C as [H C]. cbn [map covered]. split; [|specialize (IH _ C); rewrite map_app in IH; exact IH].
  cbn [snd]. intros F. destruct (H F) as (y & Hy & [A1 A2]). eexists. split; [apply in_map_iff; exists y; split; [reflexivity|exact Hy]|]. split; [exact A1|]. intros n n' K. cbn. apply G, A2, K.
Qed.
Lemma keq_comm k bts es es' : lreord es es' -> keq (Comm k bts es) (Comm k bts es') = true.
Proof. intros L. apply keq_spec, reord_comm_iff. split; [intros b; reflexivity|exact L]. Qed.
Lemma lreord_one n n' : keq n n' = true -> lreord [n] [n'].
Proof. intros K. exists [n']. split; [apply Permutation_refl|]. constructor; [apply keq_spec, K|constructor]. Qed.
Lemma list_remove_ext {A} (p q : A -> bool) l : (forall x, p x = q x) -> list_remove p l = list_remove q l.
Proof. intros H. induction l as [|x l IH]; cbn [list_remove]; [reflexivity|]. rewrite H, IH. reflexivity. Qed.
Lemma remove_eq_keq a b es : keq a b = true -> remove_eq a es = remove_eq b es.
Proof.
  intros K. unfold remove_eq. rewrite (list_remove_ext (fun y => keq y a) (fun y => keq y b)); [reflexivity|]. intros x. destruct (keq x a) eqn:E1, (keq x b) eqn:E2; try reflexivity; exfalso.
  - rewrite (keq_trans x a b E1 K) in E2. discriminate.
  - rewrite (keq_trans x b a E2) in E1; [discriminate|]. rewrite keq_sym. exact K.
Qed.
Lemma reord_branch_refl b : reord_branch b b.
Proof. destruct b; constructor. apply reord_refl. Qed.
Lemma keq_left o r n n' : keq n n' = true -> keq (Change o (inr n) r) (Change o (inr n') r) = true.
Proof. intros K. apply keq_spec. constructor; [constructor; apply keq_spec, K|apply reord_branch_refl]. Qed.
Lemma keq_right o l n n' : keq n n' = true -> keq (Change o l (inr n)) (Change o l (inr n')) = true.
Proof. intros K. apply keq_spec. constructor; [apply reord_branch_refl|constructor; apply keq_spec, K]. Qed.

Section Cover.
  Context (offset : bool).
  Lemma marks_branch_covered mkb mkl b seen : (forall n n', keq n n' = true -> keq (mkb n) (mkb n') = true) -> (forall x, b = inr x -> covered [] (marks_below offset x)) ->
    covered seen (marks_branch offset mkb mkl (marks_below offset) b).
  Proof.
    intros G H. destruct b as [b|x]; cbn [marks_branch covered]; split; try (cbn [snd]; discriminate); [exact I|].
    eapply covered_mono; [|apply (covered_map mkb _ G [] (H x eq_refl))]. intros z [].
  Qed.
  Theorem marks_covered e : covered [] (marks_below offset e).
  Proof.
    induction e as [k bts es IH|o l r IHl IHr] using kex_ind'.
    - cbn [marks_below]. assert (Q : forall L pre seen, es = pre ++ L -> (forall c, In c pre -> exists q, In ((c, fun n => Comm k bts (remove_eq c es ++ [n])), q) seen) ->
        covered seen (marks_children k bts es (combine (seq (length pre) (length L)) (map (fun c => (c, marks_below offset c)) L)))).
      { intros L. induction L as [|c L IHL]; intros pre seen E Hp; [exact I|]. unfold marks_children. cbn [length seq map combine concat fst snd].
        change (?a :: ?b ++ ?d) with ((a :: b) ++ d). apply covered_app.
        - cbn [covered]. split.
          + cbn [snd]. intros F. apply negb_false_iff, existsb_exists in F as (z & Hz & K). rewrite E, firstn_app, Nat.sub_diag, firstn_all in Hz. cbn [firstn] in Hz. rewrite app_nil_r in Hz.
            destruct (Hp z Hz) as (q & Hq). eexists. split; [exact Hq|]. split; [exact K|]. intros n n' Kn. cbn. rewrite (remove_eq_keq z c es K). apply keq_comm, lreord_app; [apply lreord_refl|apply lreord_one, Kn].
          + eapply covered_mono; [|apply (covered_map (fun n => Comm k bts (set_nth (length pre) es n)) (marks_below offset c)) with (seen := []); [|apply IH; rewrite E; apply in_app_iff; right; left; reflexivity]]; [intros z []|].
            intros n n' Kn. apply keq_comm. unfold set_nth. apply lreord_app; [apply lreord_refl|]. apply (lreord_app [n] _ [n'] _); [apply lreord_one, Kn|apply lreord_refl].
        - specialize (IHL (pre ++ [c])). rewrite app_length in IHL. cbn [length] in IHL. rewrite Nat.add_1_r in IHL. apply IHL; [rewrite <- app_assoc; exact E|].
          intros d Hd. apply in_app_iff in Hd as [Hd|[<-|[]]]; [destruct (Hp d Hd) as (q & Hq); exists q; apply in_app_iff; left; exact Hq|]. eexists. apply in_app_iff. right. left. reflexivity. }
      apply (Q es [] []); [reflexivity|intros c []].
    - cbn [marks_below]. apply covered_app; apply marks_branch_covered; auto; intros n n'; [apply keq_left|apply keq_right].
  Qed.
  Lemma covered_split seen pre x post : covered seen (pre ++ x :: post) -> snd x = false -> exists y, In y (seen ++ pre) /\ alike y x.
  Proof.
    revert seen. induction pre as [|z pre IH]; intros seen C F; destruct C as [H C].
    - rewrite app_nil_r. apply H, F.
    - destruct (IH _ C F) as (y & Hy & A). exists y. split; [rewrite <- app_assoc in Hy; exact Hy|exact A].
  Qed.

  (** Removing a term of such a place *)
  Context (bases noC : list base) (rules : list rule_name).
  Definition group (x : place) : list kex := map (spot_context x) (OpsModel.expand_node (map (rule_of offset bases noC) rules) (spot_node x)).
  Lemma group_cover seen x er : (exists y, In y seen /\ alike y x) -> In RemoveSomeTerm rules -> branch_of (spot_node x) er ->
    exists w, In w (concat (map group seen)) /\ keq w (spot_context x er) = true.
  Proof.
    intros (y & Hy & [A1 A2]) Hr (o & l & r & E & B). rewrite E in A1. apply keq_spec in A1. inversion A1 as [|c l1 l2 r1 r2 Bl Br Ey]. symmetry in Ey. clear A1. subst.
    assert (Z : exists er', In er' (OpsModel.remove_a_term offset (spot_node y)) /\ keq er' er = true).
    { rewrite Ey. cbn [OpsModel.remove_a_term map]. destruct B as [->| ->]; [inversion Bl as [|x' y' K]|inversion Br as [|x' y' K]]; subst; exists x'; (split; [cbn [In]; auto|apply keq_spec, K]). }
    destruct Z as (er' & I1 & K1). destruct (expand_node_covers (map (rule_of offset bases noC) rules) (spot_node y) er') as (w & Iw & Kw).
    { exists (rule_of offset bases noC RemoveSomeTerm), (OpsModel.remove_a_term offset (spot_node y)). split; [apply in_map, Hr|]. split; [left; reflexivity|exact I1]. }
    exists (spot_context y w). split; [|apply A2; eapply keq_trans; eassumption]. apply in_concat. exists (group y). split; [apply in_map, Hy|]. apply in_map, Iw.
  Qed.

  (** Where a mark is false there are two equal terms of one Sum or Product. *)
  Lemma spot_normal h i e s en f p cl : spot offset h i e s en f p cl -> equal_changes_normal offset e -> cl = false -> is_change en = true -> normal offset en.
  Proof.
    induction 1 as [i k bts cs es m c ec D Hc He|i k bts cs es m c ec s en f p cl D Hc He S IH| |i o x r ex r' s en f p cl D S IH| | |i o l x l' ex s en f p cl D S IH|]; intros N F Ch; try discriminate F.
    - apply negb_false_iff, existsb_exists in F as (z & Hz & K). apply nth_error_at in He as (pre & post & -> & <-). rewrite firstn_app, Nat.sub_diag, firstn_all in Hz. cbn [firstn] in Hz. rewrite app_nil_r in Hz.
      apply in_split in Hz as (a & b & ->). apply (N k bts a z b ec post); [rewrite <- app_assoc; constructor|exact Ch|exact K].
    - apply IH; auto. intros k0 b0 a x0 mid y post Hn. apply (N k0 b0 a x0 mid y post). eapply node_comm; [eapply nth_error_In; exact He|exact Hn].
    - apply IH; auto. intros k0 b0 a x0 mid y post Hn. apply (N k0 b0 a x0 mid y post). apply node_left, Hn.
    - apply IH; auto. intros k0 b0 a x0 mid y post Hn. apply (N k0 b0 a x0 mid y post). apply node_right, Hn.
  Qed.
  Lemma node_normal n e : node n e -> normal offset e -> normal offset n.
  Proof.
    induction 1 as [e|n k bts cts c Hc Hn IH|n o x r Hn IH|n o l x Hn IH]; intros N; [exact N| | |]; apply IH; apply normal_iff in N; apply N; auto.
  Qed.
  Lemma normal_equal_normal e : normal offset e -> equal_changes_normal offset e.
  Proof.
    intros H k bts pre x mid y post N _ _. apply (node_normal _ _) in N; [|exact H]. apply normal_iff in N. apply N. apply in_app_iff. right. right. apply in_app_iff. right. left. reflexivity.
  Qed.
End Cover.

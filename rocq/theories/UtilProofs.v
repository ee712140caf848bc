(** Proofs about the generic utilities. *)
From Coq Require Import List Bool Arith ZArith QArith Qminmax Lia Permutation Sorting.Sorted.
From Verif Require Import Py UtilModel UtilSpec.
Import ListNotations.
Local Open Scope nat_scope.

(** ** list_remove *)
Lemma list_remove_some {A} (p : A -> bool) l r :
  list_remove p l = Some r ->
  exists l1 x l2, l = l1 ++ x :: l2 /\ r = l1 ++ l2 /\ p x = true /\ forallb (fun y => negb (p y)) l1 = true.
Proof.
  revert r; induction l as [|y t IH]; simpl; intros r H; [discriminate|].
  destruct (p y) eqn:E.
  - injection H as <-. exists [], y, t; simpl; auto.
  - destruct (list_remove p t) as [r'|] eqn:R; simpl in H; [|discriminate].
    injection H as <-. destruct (IH r' eq_refl) as (l1 & x & l2 & -> & -> & Hx & Hf).
    exists (y :: l1), x, l2; simpl; rewrite E; auto.
Qed.

Lemma list_remove_none {A} (p : A -> bool) l :
  list_remove p l = None <-> (forall x, In x l -> p x = false).
Proof.
  induction l as [|y t IH]; simpl.
  - split; [intros _ x []|reflexivity].
  - destruct (p y) eqn:E.
    + split; [discriminate|]. intros H. specialize (H y (or_introl eq_refl)). congruence.
    + destruct (list_remove p t) eqn:R; simpl; split; try discriminate.
      * intros H. destruct IH as [_ IH]. assert (Some l = None) by (apply IH; intros; apply H; auto). discriminate.
      * intros _ x [<-|Hx]; [exact E|]. apply IH; auto.
      * reflexivity.
Qed.

Lemma list_remove_perm {A} (p : A -> bool) l r :
  list_remove p l = Some r -> exists x, p x = true /\ In x l /\ Permutation l (x :: r).
Proof.
  intros H. destruct (list_remove_some _ _ _ H) as (l1 & x & l2 & -> & -> & Hx & _).
  exists x; repeat split; auto.
  - apply in_or_app; right; left; auto.
  - symmetry; apply Permutation_middle.
Qed.

Lemma list_remove_length {A} (p : A -> bool) l r :
  list_remove p l = Some r -> length l = S (length r).
Proof.
  intros H; destruct (list_remove_perm _ _ _ H) as (x & _ & _ & P).
  apply Permutation_length in P; simpl in P; exact P.
Qed.

(** ** sorting *)
Section Sorted.
  Context {A : Type} (le : A -> A -> bool).
  Hypothesis le_total : forall x y, le x y = true \/ le y x = true.
  Hypothesis le_trans : forall x y z, le x y = true -> le y z = true -> le x z = true.

  Lemma insert_sorted_perm x l : Permutation (insert_sorted le x l) (x :: l).
  Proof.
    induction l as [|y t IH]; simpl; [auto|].
    destruct (le x y); [auto|]. rewrite IH. apply perm_swap.
  Qed.
  Lemma py_sorted_perm l : Permutation (py_sorted le l) l.
  Proof.
    induction l as [|x t IH]; simpl; [auto|]. rewrite insert_sorted_perm, IH; auto.
  Qed.
  Lemma insert_sorted_sorted x l :
    StronglySorted (fun a b => le a b = true) l -> StronglySorted (fun a b => le a b = true) (insert_sorted le x l).
  Proof.
    induction l as [|y t IH]; simpl; intros H.
    - repeat constructor.
    - inversion H as [|? ? Ht Hy]; subst. destruct (le x y) eqn:E.
      + constructor; [exact H|]. constructor; [exact E|].
        eapply Forall_impl; [|exact Hy]. intros a Ha; eapply le_trans; eauto.
      + constructor; [apply IH, Ht|].
        assert (Hyx : le y x = true) by (destruct (le_total x y); congruence).
        apply Permutation_Forall with (x :: t); [symmetry; apply insert_sorted_perm|].
        constructor; assumption.
  Qed.
  Lemma py_sorted_sorted l : StronglySorted (fun a b => le a b = true) (py_sorted le l).
  Proof. induction l; simpl; [constructor|]. apply insert_sorted_sorted; assumption. Qed.
  (** Stability: elements with equal keys keep their input order. *)
  Lemma insert_sorted_filter x l p :
    StronglySorted (fun a b => le a b = true) l ->
    (forall a b, p a = true -> p b = true -> le a b = true) ->
    filter p (insert_sorted le x l) = if p x then x :: filter p l else filter p l.
  Proof.
    intros Hs Hp. induction l as [|y t IH]; simpl.
    - destruct (p x); reflexivity.
    - inversion Hs as [|? ? Ht Hy]; subst. destruct (le x y) eqn:E; simpl.
      + destruct (p x); reflexivity.
      + rewrite IH by assumption. destruct (p x) eqn:Ex, (p y) eqn:Ey; try reflexivity.
        rewrite (Hp x y Ex Ey) in E; discriminate.
  Qed.
  Lemma py_sorted_filter l p :
    (forall a b, p a = true -> p b = true -> le a b = true) ->
    filter p (py_sorted le l) = filter p l.
  Proof.
    intros Hp. induction l as [|x t IH]; simpl; [reflexivity|].
    rewrite insert_sorted_filter by (auto using py_sorted_sorted). rewrite IH. reflexivity.
  Qed.
  Lemma py_sorted_id l : StronglySorted (fun a b => le a b = true) l -> py_sorted le l = l.
  Proof.
    induction l as [|x t IH]; simpl; [reflexivity|]. intros H; inversion H as [|? ? Ht Hx]; subst.
    rewrite IH by assumption. destruct t as [|y t']; simpl; [reflexivity|].
    inversion Hx; subst. rewrite H2; reflexivity.
  Qed.
End Sorted.

(** ** dictionaries *)
Section Dict.
  Context {K V : Type} (keqb : K -> K -> bool).
  Hypothesis keqb_spec : forall a b, keqb a b = true <-> a = b.
  Lemma dict_get_set (d : list (K * V)) k v k' :
    dict_get keqb (dict_set keqb d k v) k' = if keqb k k' then Some v else dict_get keqb d k'.
  Proof.
    induction d as [|[k0 v0] t IH]; simpl.
    - reflexivity.
    - destruct (keqb k0 k) eqn:E; simpl.
      + apply keqb_spec in E; subst k0. destruct (keqb k k') eqn:E'; reflexivity.
      + rewrite IH. destruct (keqb k0 k') eqn:E0; [|reflexivity].
        apply keqb_spec in E0; subst k'. destruct (keqb k k0) eqn:E1; [|reflexivity].
        apply keqb_spec in E1; subst. assert (keqb k0 k0 = true) by (apply keqb_spec; auto). congruence.
  Qed.
  Lemma dict_set_keys (d : list (K * V)) k v :
    map fst (dict_set keqb d k v) = if dict_has keqb d k then map fst d else map fst d ++ [k].
  Proof.
    induction d as [|[k0 v0] t IH]; simpl; [reflexivity|].
    unfold dict_has in *; simpl. destruct (keqb k0 k) eqn:E; simpl; [reflexivity|].
    rewrite IH. destruct (dict_get keqb t k); reflexivity.
  Qed.
  Lemma dict_get_none (d : list (K * V)) k : dict_get keqb d k = None <-> ~ In k (map fst d).
  Proof.
    induction d as [|[k0 v0] t IH]; simpl; [tauto|].
    destruct (keqb k0 k) eqn:E.
    - apply keqb_spec in E; subst. split; [discriminate|tauto].
    - rewrite IH. assert (k0 <> k) by (intros ->; assert (keqb k k = true) by (apply keqb_spec; auto); congruence). tauto.
  Qed.
  Lemma dict_get_in (d : list (K * V)) k v : dict_get keqb d k = Some v -> In (k, v) d.
  Proof.
    induction d as [|[k0 v0] t IH]; simpl; [discriminate|].
    destruct (keqb k0 k) eqn:E.
    - apply keqb_spec in E; subst. intros [= ->]; auto.
    - intros H; right; auto.
  Qed.
  Lemma dict_in_get (d : list (K * V)) k v : NoDup (map fst d) -> In (k, v) d -> dict_get keqb d k = Some v.
  Proof.
    induction d as [|[k0 v0] t IH]; simpl; [tauto|].
    intros N H. inversion N; subst. destruct H as [[= -> ->]|H].
    - assert (keqb k k = true) by (apply keqb_spec; auto). rewrite H; reflexivity.
    - destruct (keqb k0 k) eqn:E; [|auto]. apply keqb_spec in E; subst.
      exfalso; apply H2. change k with (fst (k, v)). apply in_map; assumption.
  Qed.
  Lemma dict_set_nodup (d : list (K * V)) k v : NoDup (map fst d) -> NoDup (map fst (dict_set keqb d k v)).
  Proof.
    intros N. rewrite dict_set_keys. unfold dict_has. destruct (dict_get keqb d k) eqn:E; [exact N|].
    apply dict_get_none in E.
    apply (Permutation_NoDup (l := k :: map fst d)); [apply Permutation_cons_append|].
    constructor; assumption.
  Qed.
End Dict.

(** ** partition, group_by *)
Lemma partition_py_correct {A} (p : A -> bool) xs :
  partition_py p xs = (filter p xs, filter (fun x => negb (p x)) xs).
Proof.
  unfold partition_py.
  enough (H : forall a b, fold_left (fun acc x => if p x then (fst acc ++ [x], snd acc) else (fst acc, snd acc ++ [x])) xs (a, b)
              = (a ++ filter p xs, b ++ filter (fun x => negb (p x)) xs)) by exact (H [] []).
  induction xs as [|x t IH]; intros a b; simpl.
  - rewrite !app_nil_r; reflexivity.
  - destruct (p x); simpl; rewrite IH, <- app_assoc; reflexivity.
Qed.

Section GroupBy.
  Context {A K : Type} (keqb : K -> K -> bool) (f : A -> K).
  Hypothesis keqb_spec : forall a b, keqb a b = true <-> a = b.
  Lemma group_by_get xs k :
    dict_get keqb (group_by keqb f xs) k
    = match filter (fun x => keqb (f x) k) xs with [] => None | l => Some l end.
  Proof.
    unfold group_by.
    enough (H : forall acc,
      dict_get keqb (fold_left (fun acc x =>
        dict_set keqb acc (f x) ((match dict_get keqb acc (f x) with Some l => l | None => [] end) ++ [x])) xs acc) k
      = match filter (fun x => keqb (f x) k) xs with
        | [] => dict_get keqb acc k
        | l => Some ((match dict_get keqb acc k with Some l0 => l0 | None => [] end) ++ l) end).
    { rewrite H; simpl. destruct (filter _ xs); reflexivity. }
    induction xs as [|x t IH]; intros acc; simpl; [reflexivity|].
    rewrite IH. rewrite (dict_get_set keqb keqb_spec).
    destruct (keqb (f x) k) eqn:E.
    - apply keqb_spec in E. rewrite E.
      destruct (filter (fun y => keqb (f y) k) t); [reflexivity|]. rewrite <- app_assoc; reflexivity.
    - reflexivity.
  Qed.
  Lemma group_by_nodup xs : NoDup (map fst (group_by keqb f xs)).
  Proof.
    unfold group_by.
    enough (H : forall acc, NoDup (map fst acc) -> NoDup (map fst (fold_left (fun acc x =>
        dict_set keqb acc (f x) ((match dict_get keqb acc (f x) with Some l => l | None => [] end) ++ [x])) xs acc)))
      by (apply H; constructor).
    induction xs as [|x t IH]; intros acc N; simpl; [exact N|].
    apply IH. apply dict_set_nodup; assumption.
  Qed.
  Lemma group_by_spec xs :
    NoDup (map fst (group_by keqb f xs)) /\
    forall k, (forall l, In (k, l) (group_by keqb f xs) <-> l = filter (fun x => keqb (f x) k) xs /\ l <> []).
  Proof.
    split; [apply group_by_nodup|]. intros k l. split.
    - intros H. apply (dict_in_get keqb keqb_spec) in H; [|apply group_by_nodup]. rewrite group_by_get in H.
      destruct (filter _ xs); [discriminate|]. injection H as <-. split; [reflexivity|discriminate].
    - intros (-> & H). apply (dict_get_in keqb keqb_spec). rewrite group_by_get.
      destruct (filter _ xs); [congruence|reflexivity].
  Qed.
End GroupBy.

Section UpdateDict.
  Context {K V : Type} (keqb : K -> K -> bool) (f : V -> V -> V).
  Hypothesis keqb_spec : forall a b, keqb a b = true <-> a = b.
  Lemma update_dict_with_get d0 d1 k :
    NoDup (map fst d1) ->
    dict_get keqb (update_dict_with keqb f d0 d1) k
    = match dict_get keqb d0 k, dict_get keqb d1 k with
      | Some a, Some b => Some (f a b) | Some a, None => Some a | None, o => o end.
  Proof.
    unfold update_dict_with. revert d0. induction d1 as [|[k1 v1] t IH]; intros d0 N; simpl.
    - destruct (dict_get keqb d0 k); reflexivity.
    - inversion N as [|? ? Hn N']; subst. rewrite IH by assumption. rewrite (dict_get_set keqb keqb_spec).
      destruct (keqb k1 k) eqn:E.
      + apply keqb_spec in E; subst k1.
        assert (dict_get keqb t k = None) as -> by (apply (dict_get_none keqb keqb_spec); exact Hn).
        destruct (dict_get keqb d0 k); reflexivity.
      + reflexivity.
  Qed.
End UpdateDict.

(** ** unique, eq_elems, diff *)
Section EqProofs.
  Context {A : Type} (eqb : A -> A -> bool).
  Hypothesis eqb_refl : forall x, eqb x x = true.
  Hypothesis eqb_sym : forall x y, eqb x y = eqb y x.
  Hypothesis eqb_trans : forall x y z, eqb x y = true -> eqb y z = true -> eqb x z = true.

  Lemma unique_aux_snoc seen xs x :
    unique_aux eqb seen (xs ++ [x])
    = unique_aux eqb seen xs ++ (if existsb (fun s => eqb s x) (seen ++ xs) then [] else [x]).
  Proof.
    revert seen. induction xs as [|y t IH]; intros seen; simpl.
    - rewrite app_nil_r. destruct (existsb (fun s => eqb s x) seen); reflexivity.
    - destruct (existsb (fun s => eqb s y) seen) eqn:E.
      + rewrite IH. f_equal.
        rewrite !existsb_app; simpl.
        destruct (eqb y x) eqn:Eyx; simpl; [|reflexivity].
        assert (existsb (fun s => eqb s x) seen = true) as ->.
        { apply existsb_exists in E as (s & Hs & Es). apply existsb_exists. exists s; split; auto. eapply eqb_trans; eauto. }
        reflexivity.
      + rewrite IH. rewrite <- app_assoc. simpl. reflexivity.
  Qed.
  Lemma unique_snoc xs x :
    unique eqb (xs ++ [x]) = unique eqb xs ++ (if existsb (fun s => eqb s x) xs then [] else [x]).
  Proof. unfold unique. apply (unique_aux_snoc []). Qed.

  Lemma unique_in xs x : In x (unique eqb xs) -> In x xs.
  Proof.
    induction xs as [|y t IH] using rev_ind; simpl; [auto|].
    rewrite unique_snoc, !in_app_iff. destruct (existsb _ t); simpl; intuition.
  Qed.
  Lemma unique_aux_covers seen xs x :
    In x xs -> exists y, In y (seen ++ unique_aux eqb seen xs) /\ eqb y x = true.
  Proof.
    revert seen; induction xs as [|z t IH]; intros seen; simpl; [tauto|].
    intros H. destruct (existsb (fun s => eqb s z) seen) eqn:E.
    - destruct H as [<-|H]; [|apply IH; exact H].
      apply existsb_exists in E as (s & Hs & Es). exists s; split; auto. apply in_or_app; auto.
    - destruct H as [<-|H].
      + exists z; split; auto. apply in_or_app; right; left; auto.
      + destruct (IH (seen ++ [z]) H) as (y & Hy & Ey). exists y; split; auto.
        rewrite <- app_assoc in Hy; exact Hy.
  Qed.
  Lemma unique_covers xs x : In x xs -> exists y, In y (unique eqb xs) /\ eqb y x = true.
  Proof. intros H. exact (unique_aux_covers [] xs x H). Qed.

  Lemma unique_aux_fresh seen xs y s : In y (unique_aux eqb seen xs) -> In s seen -> eqb s y = false.
  Proof.
    revert seen; induction xs as [|z t IH]; intros seen; simpl; [tauto|].
    destruct (existsb (fun s => eqb s z) seen) eqn:E; [apply IH|].
    intros [<-|H] Hs.
    - destruct (eqb s z) eqn:Es; [|reflexivity].
      assert (existsb (fun s => eqb s z) seen = true) by (apply existsb_exists; eauto). congruence.
    - eapply IH; [exact H|]. apply in_or_app; auto.
  Qed.
  Lemma unique_aux_distinct seen xs : ForallOrdPairs (fun a b => eqb a b = false) (unique_aux eqb seen xs).
  Proof.
    revert seen; induction xs as [|z t IH]; intros seen; simpl; [constructor|].
    destruct (existsb (fun s => eqb s z) seen) eqn:E; [apply IH|].
    constructor; [|apply IH]. apply Forall_forall. intros y Hy.
    eapply unique_aux_fresh; [exact Hy|]. apply in_or_app; right; left; auto.
  Qed.
  Lemma unique_distinct xs : ForallOrdPairs (fun a b => eqb a b = false) (unique eqb xs).
  Proof. apply unique_aux_distinct. Qed.

  (** eq_elems decides equality up to a reordering and [eqb]. *)
  Lemma eq_elems_sound xs ys :
    eq_elems eqb xs ys = true -> exists ys', Permutation ys ys' /\ Forall2 (fun x y => eqb y x = true) xs ys'.
  Proof.
    revert ys; induction xs as [|x t IH]; intros ys; simpl.
    - destruct ys; [|discriminate]. intros _; exists []; auto.
    - destruct (list_remove (fun y => eqb y x) ys) as [r|] eqn:R; [|discriminate].
      intros H. destruct (IH _ H) as (ys' & P & F).
      destruct (list_remove_perm _ _ _ R) as (y & Ey & _ & Py).
      exists (y :: ys'); split; [rewrite Py; constructor; exact P|constructor; assumption].
  Qed.
  Lemma Forall2_perm_r {B C} (R : B -> C -> Prop) (xs : list B) ys ys' :
    Forall2 R xs ys -> Permutation ys ys' -> exists xs', Permutation xs xs' /\ Forall2 R xs' ys'.
  Proof.
    intros F P. revert xs F. induction P; intros xs F.
    - inversion F; subst. exists []; auto.
    - inversion F; subst. destruct (IHP _ H3) as (xs' & P' & F'). exists (x0 :: xs'); split; constructor; auto.
    - inversion F as [|? ? ? ? ? F']; subst. inversion F'; subst.
      eexists; split; [apply perm_swap|repeat constructor; eassumption].
    - destruct (IHP1 _ F) as (xs1 & P1' & F1). destruct (IHP2 _ F1) as (xs2 & P2' & F2).
      exists xs2; split; [etransitivity; eauto|auto].
  Qed.
  Lemma eq_elems_complete xs ys ys' :
    Permutation ys ys' -> Forall2 (fun x y => eqb y x = true) xs ys' -> eq_elems eqb xs ys = true.
  Proof.
    revert ys ys'; induction xs as [|x t IH]; intros ys ys' P F; simpl.
    - inversion F; subst. symmetry in P. apply Permutation_nil in P; subst; reflexivity.
    - inversion F as [|? y0 ? t' E0 F']; subst.
      destruct (list_remove (fun y => eqb y x) ys) as [r|] eqn:R.
      + destruct (list_remove_perm _ _ _ R) as (y & Ey & _ & Py).
        (* y :: r is a permutation of y0 :: t', with y == x == y0 *)
        assert (P' : Permutation (y :: r) (y0 :: t')) by (rewrite <- Py; exact P).
        clear R Py P.
        assert (In y (y0 :: t')) by (eapply Permutation_in; [exact P'|left; auto]).
        destruct H as [<-|Hin].
        * apply Permutation_cons_inv in P'. eapply IH; eauto.
        * apply in_split in Hin as (l1 & l2 & ->).
          assert (Pr : Permutation r (l1 ++ y0 :: l2)).
          { apply Permutation_cons_inv with y. rewrite P'.
            rewrite <- !Permutation_middle. apply perm_swap. }
          eapply IH; [exact Pr|].
          apply Forall2_app_inv_r in F' as (t1 & t2 & F1 & F2 & ->).
          apply Forall2_app; [exact F1|]. inversion F2; subst. constructor; auto.
          (* eqb y0 x2 from eqb y x2, eqb y x, eqb y0 x *)
          eapply eqb_trans; [exact E0|]. rewrite eqb_sym in Ey. eapply eqb_trans; [exact Ey|]. assumption.
      + exfalso. rewrite list_remove_none in R.
        rewrite (R y0) in E0; [discriminate|]. eapply Permutation_in; [symmetry; exact P|left; auto].
  Qed.

End EqProofs.

(** ** subsequences *)
Lemma subseq_refl {A} (l : list A) : subseq l l.
Proof. induction l; [constructor|apply ss_keep; auto]. Qed.
Lemma subseq_app {A} (l1 m1 l2 m2 : list A) : subseq l1 m1 -> subseq l2 m2 -> subseq (l1 ++ l2) (m1 ++ m2).
Proof. induction 1; simpl; intros; [auto|apply ss_skip; auto|apply ss_keep; auto]. Qed.
Lemma subseq_trans {A} (l m n : list A) : subseq l m -> subseq m n -> subseq l n.
Proof.
  intros H1 H2; revert l H1; induction H2; intros k H1; [exact H1| |].
  - apply ss_skip; auto.
  - inversion H1; subst; [apply ss_skip|apply ss_keep]; auto.
Qed.
Lemma subseq_nil_l {A} (l : list A) : subseq [] l.
Proof. induction l; [constructor|apply ss_skip; auto]. Qed.
Lemma subseq_in {A} (l m : list A) x : subseq l m -> In x l -> In x m.
Proof. induction 1; simpl; intuition. Qed.
Lemma list_remove_subseq {A} (p : A -> bool) l r : list_remove p l = Some r -> subseq r l.
Proof.
  intros H. destruct (list_remove_some _ _ _ H) as (l1 & x & l2 & -> & -> & _).
  apply subseq_app; [apply subseq_refl|apply ss_skip; apply subseq_refl].
Qed.
Lemma unique_aux_subseq {A} (eqb : A -> A -> bool) seen xs : subseq (unique_aux eqb seen xs) xs.
Proof.
  revert seen; induction xs; intros seen; simpl; [constructor|].
  destruct existsb; [apply ss_skip|apply ss_keep]; auto.
Qed.
Lemma subseq_sorted {A} (R : A -> A -> Prop) l m : subseq l m -> StronglySorted R m -> StronglySorted R l.
Proof.
  induction 1; intros S; [constructor| |]; inversion S; subst; auto.
  constructor; auto. rewrite Forall_forall in *. intros y Hy. apply H3. eapply subseq_in; eauto.
Qed.

(** ** diff, for an exact equality test *)
Section Diff.
  Context {A : Type} (eqb : A -> A -> bool).
  Hypothesis eqb_spec : forall x y, eqb x y = true <-> x = y.
  Lemma diff_subseq xs ys : subseq (diff eqb xs ys) xs.
  Proof.
    revert xs; induction ys as [|y t IH]; intros xs; simpl; [apply subseq_refl|].
    destruct (list_remove (fun x => eqb x y) xs) eqn:E; [|apply subseq_refl].
    eapply subseq_trans; [apply IH|]. eapply list_remove_subseq; eauto.
  Qed.
  Lemma diff_perm xs ys zs : Permutation xs (ys ++ zs) -> Permutation xs (ys ++ diff eqb xs ys).
  Proof.
    revert xs zs; induction ys as [|y t IH]; intros xs zs P; simpl in *; [auto|].
    destruct (list_remove (fun x => eqb x y) xs) as [r|] eqn:E.
    - destruct (list_remove_perm _ _ _ E) as (y' & Hy & _ & P'). apply eqb_spec in Hy; subst y'.
      rewrite P'. constructor. apply IH with zs.
      apply Permutation_cons_inv with y. rewrite <- P'. exact P.
    - exfalso. rewrite list_remove_none in E.
      assert (In y xs) by (eapply Permutation_in; [symmetry; exact P|left; auto]).
      specialize (E y H). assert (eqb y y = true) by (apply eqb_spec; auto). congruence.
  Qed.
End Diff.

(** ** chunk *)
Lemma chunk_pieces {A} (k : nat) (xs : list A) (m : nat) :
  concat (map (fun i => firstn k (skipn (i * k) xs)) (seq 0 m)) = firstn (m * k) xs.
Proof.
  induction m as [|m IH]; [reflexivity|].
  rewrite seq_S, map_app, concat_app, IH; simpl. rewrite app_nil_r.
  rewrite (Nat.add_comm k). transitivity (firstn (m * k + k) (firstn (m * k) xs ++ skipn (m * k) xs));
    [|rewrite firstn_skipn; reflexivity].
  rewrite firstn_app. rewrite firstn_firstn. replace (min (m * k + k) (m * k)) with (m * k) by lia.
  f_equal. rewrite firstn_length.
  destruct (le_lt_dec (m * k) (length xs)).
  - rewrite Nat.min_l by lia. f_equal; lia.
  - rewrite (skipn_all2 (n := m * k)) by lia. rewrite !firstn_nil. reflexivity.
Qed.
Lemma chunk_concat {A} (xs : list A) (n : Z) cs :
  (0 < n)%Z -> chunk xs n = Ok cs -> concat cs = xs.
Proof.
  unfold chunk. intros Hn. replace (n =? 0)%Z with false by (symmetry; apply Z.eqb_neq; lia).
  replace (n <? 0)%Z with false by (symmetry; apply Z.ltb_ge; lia). intros [= <-].
  rewrite chunk_pieces. apply firstn_all2.
  set (k := Z.to_nat n). assert (0 < k) by (subst k; lia).
  pose proof (Nat.div_mod (length xs + k - 1) k ltac:(lia)).
  pose proof (Nat.mod_upper_bound (length xs + k - 1) k ltac:(lia)). lia.
Qed.
Lemma chunk_sizes {A} (xs : list A) (n : Z) cs :
  (0 < n)%Z -> chunk xs n = Ok cs ->
  forall i c, nth_error cs i = Some c ->
    c <> [] /\ (length c <= Z.to_nat n) /\ (S i < length cs -> length c = Z.to_nat n).
Proof.
  unfold chunk. intros Hn. replace (n =? 0)%Z with false by (symmetry; apply Z.eqb_neq; lia).
  replace (n <? 0)%Z with false by (symmetry; apply Z.ltb_ge; lia). intros [= <-].
  intros i c. set (k := Z.to_nat n). assert (0 < k) by (subst k; lia).
  set (m := (length xs + k - 1) / k).
  pose proof (Nat.div_mod (length xs + k - 1) k ltac:(lia)) as D. fold m in D.
  pose proof (Nat.mod_upper_bound (length xs + k - 1) k ltac:(lia)) as U.
  intros E. assert (Hi : i < m).
  { assert (Hs : nth_error (map (fun i => firstn k (skipn (i * k) xs)) (seq 0 m)) i <> None) by congruence.
    apply nth_error_Some in Hs. rewrite map_length, seq_length in Hs. exact Hs. }
  rewrite nth_error_map in E. rewrite (nth_error_nth' (seq 0 m) 0) in E by (rewrite seq_length; exact Hi).
  rewrite seq_nth in E by exact Hi. simpl in E. injection E as <-.
  rewrite map_length, seq_length, firstn_length, skipn_length.
  assert (i * k + 1 <= length xs) by nia.
  repeat split.
  - intros C. apply (f_equal (@length A)) in C. rewrite firstn_length, skipn_length in C. simpl in C. lia.
  - lia.
  - intros Hl. assert (i * k + k <= length xs) by nia. lia.
Qed.

Lemma chunk_spec {A} (xs : list A) (n : Z) :
  (0 < n)%Z -> exists cs, chunk xs n = Ok cs /\ concat cs = xs /\
  forall i c, nth_error cs i = Some c ->
    c <> [] /\ length c <= Z.to_nat n /\ (S i < length cs -> length c = Z.to_nat n).
Proof.
  intros Hn. assert (exists cs, chunk xs n = Ok cs) as (cs & E).
  { unfold chunk. destruct (Z.eqb_spec n 0); [lia|]. destruct (Z.ltb_spec n 0); [lia|]. eauto. }
  exists cs. split; [exact E|]. split; [eapply chunk_concat|eapply chunk_sizes]; eauto.
Qed.

(** ** topological sort *)
Lemma take_first_some {A} (c : A -> bool) xs x r :
  take_first c xs = Some (x, r) -> exists l1 l2, xs = l1 ++ x :: l2 /\ r = l1 ++ l2 /\ c x = true.
Proof.
  revert r; induction xs as [|y t IH]; simpl; intros r; [discriminate|].
  destruct (c y) eqn:E.
  - intros [= <- <-]. exists [], t; auto.
  - destruct (take_first c t) as [[y' r']|] eqn:T; [|discriminate]. intros [= <- <-].
    destruct (IH r' eq_refl) as (l1 & l2 & -> & -> & H). exists (y :: l1), l2; auto.
Qed.
Lemma take_first_none {A} (c : A -> bool) xs : take_first c xs = None -> forall x, In x xs -> c x = false.
Proof.
  induction xs as [|y t IH]; simpl; [tauto|].
  destruct (c y) eqn:E; [discriminate|]. destruct (take_first c t) as [[? ?]|]; [discriminate|].
  intros _ x [<-|H]; auto.
Qed.

Section Topo.
  Context {A : Type} (eqb : A -> A -> bool).
  Hypothesis eqb_spec : forall x y, eqb x y = true <-> x = y.

  Let reduced (done : list (A * list A)) (ad : A * list A) : A * list A :=
    (fst ad, filter (fun d => negb (existsb (eqb d) (map fst done))) (snd ad)).
  Let ready (x : A * list A) : bool := match snd x with [] => true | _ => false end.

  Lemma reduced_step done x ad :
    (fst (reduced done ad), filter (fun d => negb (eqb d (fst x))) (snd (reduced done ad))) = reduced (done ++ [x]) ad.
  Proof.
    unfold reduced; simpl. f_equal. rewrite map_app. induction (snd ad) as [|d t IH]; simpl; [reflexivity|].
    rewrite existsb_app; simpl. rewrite orb_false_r.
    destruct (existsb (eqb d) (map fst done)); simpl; [exact IH|].
    destruct (eqb d (fst x)); simpl; [exact IH|f_equal; exact IH].
  Qed.
  Lemma ready_deps done ad : ready (reduced done ad) = true <-> forall d, In d (snd ad) -> In d (map fst done).
  Proof.
    unfold ready, reduced; simpl. induction (snd ad) as [|d t IH]; simpl.
    - split; [tauto|reflexivity].
    - destruct (existsb (eqb d) (map fst done)) eqn:E; simpl.
      + rewrite IH. apply existsb_exists in E as (d' & Hd & Ed). apply eqb_spec in Ed; subst d'.
        split; [intros H d' [<-|]; auto|intros H; auto].
      + split; [discriminate|]. intros H. specialize (H d (or_introl eq_refl)).
        assert (existsb (eqb d) (map fst done) = true) by (apply existsb_exists; exists d; split; [auto|apply eqb_spec; auto]).
        congruence.
  Qed.

  Let step_f := fun (acc : list A) (x : A * list A) => acc ++ [fst x].
  Let step_g := fun (_ : list A) (x : A * list A) (xs : list (A * list A)) =>
     map (fun ad : A * list A => (fst ad, filter (fun d => negb (eqb d (fst x))) (snd ad))) xs.

  Definition ordered_so_far (order : list (A * list A)) : Prop :=
    forall before a deps after, order = before ++ (a, deps) :: after -> forall d, In d deps -> In d (map fst before).

  Lemma ordered_snoc done x : ordered_so_far done -> (forall d, In d (snd x) -> In d (map fst done)) -> ordered_so_far (done ++ [x]).
  Proof.
    intros H Hx before a deps after E d Hd.
    destruct after as [|y after'] using rev_ind.
    - apply app_inj_tail in E as [<- ->]. apply Hx; exact Hd.
    - rewrite app_comm_cons, app_assoc in E. apply app_inj_tail in E as [-> _]. eapply H; eauto.
  Qed.

  (** The loop invariant: [done] is the order of the consumed nodes, [rest] the original remaining ones. *)
  Lemma topo_loop fuel done rest :
    length rest <= fuel -> ordered_so_far done ->
    exists done' rest',
      foldq step_f step_g ready fuel (map (reduced done) rest) (map fst done) = Some (map fst done', map (reduced done') rest')
      /\ ordered_so_far done' /\ Permutation (done ++ rest) (done' ++ rest')
      /\ (forall ad, In ad rest' -> ready (reduced done' ad) = false).
  Proof.
    revert done rest. induction fuel as [|fuel IH]; intros done rest Hl Ho.
    - destruct rest; [|simpl in Hl; lia]. exists done, []; simpl; repeat split; auto. intros ? [].
    - destruct rest as [|r0 rest0]; [exists done, []; simpl; repeat split; auto; intros ? []|].
      remember (r0 :: rest0) as rest eqn:Er.
      destruct (take_first ready (map (reduced done) rest)) as [[x r]|] eqn:T.
      + destruct (take_first_some _ _ _ _ T) as (l1 & l2 & E1 & E2 & Hx).
        apply map_eq_app in E1 as (m1 & m2' & Em & <- & E1'). destruct m2' as [|x0 m2]; [discriminate|].
        simpl in E1'. injection E1' as Ex <-.
        destruct (IH (done ++ [x0]) (m1 ++ m2)) as (done' & rest' & F & O & P & N).
        * rewrite Em, app_length in Hl. rewrite app_length. simpl in Hl. lia.
        * apply ordered_snoc; [exact Ho|]. apply ready_deps. rewrite Ex; exact Hx.
        * exists done', rest'. split; [|repeat split; auto].
          -- rewrite Er. simpl map at 1. cbn [foldq].
             change (reduced done r0 :: map (reduced done) rest0) with (map (reduced done) (r0 :: rest0)).
             rewrite <- Er, T. rewrite <- F. f_equal.
             ++ unfold step_g. rewrite E2, <- map_app, map_map. apply map_ext. intros ad.
                rewrite <- Ex. exact (reduced_step done x0 ad).
             ++ unfold step_f. rewrite map_app, <- Ex. reflexivity.
          -- rewrite <- P, Em. rewrite <- app_assoc. simpl. apply Permutation_app_head. symmetry; apply Permutation_middle.
      + exists done, rest. split; [|repeat split; auto].
        * rewrite Er. simpl map at 1. cbn [foldq].
          change (reduced done r0 :: map (reduced done) rest0) with (map (reduced done) (r0 :: rest0)).
          rewrite <- Er, T. rewrite Er; reflexivity.
        * intros ad Had. apply (take_first_none _ _ T). apply in_map; exact Had.
  Qed.

  Lemma reduced_nil nodes : map (reduced []) nodes = nodes.
  Proof.
    unfold reduced; simpl. rewrite <- (map_id nodes) at 2. apply map_ext. intros [a l]; simpl. f_equal.
    induction l; simpl; [reflexivity|f_equal; auto].
  Qed.

  Lemma topological_sort_spec nodes :
    (exists order, topological_sort eqb nodes = Some (Ok (map fst order)) /\ valid_order nodes order)
    \/ (topological_sort eqb nodes = Some (Raise EValueError) /\ forall order, ~ valid_order nodes order).
  Proof.
    destruct (topo_loop (length nodes) [] nodes (le_n _)) as (done & rest & F & O & P & N).
    { intros before a deps after E. destruct before; discriminate. }
    rewrite reduced_nil in F.
    assert (Ht : topological_sort eqb nodes =
      match map (reduced done) rest with [] => Some (Ok (map fst done)) | _ :: _ => Some (Raise EValueError) end).
    { unfold topological_sort, foldq_strict. unfold step_f, step_g, ready in F. simpl map in F. rewrite F. reflexivity. }
    destruct rest as [|r0 rest0].
    - left. exists done. split; [exact Ht|]. split; [rewrite app_nil_r in P; simpl in P; symmetry; exact P|exact O].
    - right. split; [exact Ht|]. intros order [Po Ho].
      (* no element of the order can be among the remaining nodes *)
      assert (Hall : forall before after, order = before ++ after -> forall x, In x before -> ~ In x (r0 :: rest0)).
      { induction before as [|y before IHb] using rev_ind; intros after E x Hx; [destruct Hx|].
        rewrite <- app_assoc in E; simpl in E.
        apply in_app_iff in Hx as [Hx|[<-|[]]]; [eapply IHb; eauto|].
        intros Hy. assert (R : ready (reduced done y) = true).
        { apply ready_deps. intros d Hd. destruct y as [a deps]; simpl in Hd.
          specialize (Ho before a deps after E d Hd). apply in_map_iff in Ho as (z & <- & Hz).
          apply in_map. assert (In z (done ++ r0 :: rest0)).
          { eapply Permutation_in; [exact P|]. simpl. eapply Permutation_in; [exact Po|]. rewrite E. apply in_or_app; auto. }
          apply in_app_iff in H as [H|H]; [exact H|]. exfalso. eapply IHb; eauto. }
        rewrite (N y Hy) in R. discriminate. }
      apply (Hall order [] (eq_sym (app_nil_r _)) r0).
      + eapply Permutation_in; [symmetry; exact Po|]. simpl in P. eapply Permutation_in; [symmetry; exact P|].
        apply in_or_app; right; left; auto.
      + left; auto.
  Qed.
End Topo.

(** ** interval_overlap *)
Lemma interval_overlap_nonneg a b : (0 <= interval_overlap a b)%Q.
Proof. unfold interval_overlap. apply Q.le_max_l. Qed.
Lemma interval_overlap_sym a b : (interval_overlap a b == interval_overlap b a)%Q.
Proof. unfold interval_overlap. rewrite (Q.min_comm (snd a)), (Q.max_comm (fst a)). reflexivity. Qed.
(** If the intersection is the closed interval [lo,hi], the overlap is its length; if it is empty, 0. *)
Lemma interval_overlap_length a b lo hi :
  (lo <= hi)%Q ->
  (forall x, ((fst a <= x <= snd a)%Q /\ (fst b <= x <= snd b)%Q) <-> (lo <= x <= hi)%Q) ->
  (interval_overlap a b == hi - lo)%Q.
Proof.
  intros Hle H. destruct a as [a0 a1], b as [b0 b1]; simpl in *.
  destruct (proj2 (H lo) (conj (Qle_refl _) Hle)) as [[? ?] [? ?]].
  destruct (proj2 (H hi) (conj Hle (Qle_refl _))) as [[? ?] [? ?]].
  set (l := Qmax a0 b0). set (h := Qmin a1 b1).
  assert (Hl : (l == lo)%Q).
  { apply Qle_antisym.
    - subst l. apply Q.max_lub; assumption.
    - destruct (H l) as [Hf _]. apply Hf. subst l. repeat split.
      + apply Q.le_max_l.
      + apply Q.max_lub; eapply Qle_trans; eauto.
      + apply Q.le_max_r.
      + apply Q.max_lub; eapply Qle_trans; eauto. }
  assert (Hh : (h == hi)%Q).
  { apply Qle_antisym.
    - destruct (H h) as [Hf _]. apply Hf. subst h. repeat split.
      + apply Q.min_glb; eapply Qle_trans; eauto.
      + apply Q.le_min_l.
      + apply Q.min_glb; eapply Qle_trans; eauto.
      + apply Q.le_min_r.
    - subst h. apply Q.min_glb; assumption. }
  unfold interval_overlap; simpl. fold l h. rewrite Hl, Hh.
  apply Q.max_r. unfold Qminus. rewrite <- Qle_minus_iff. exact Hle.
Qed.
Lemma interval_overlap_empty a b :
  (forall x, ~ ((fst a <= x <= snd a)%Q /\ (fst b <= x <= snd b)%Q)) ->
  (interval_overlap a b == 0)%Q.
Proof.
  intros H. destruct a as [a0 a1], b as [b0 b1]; simpl in *. unfold interval_overlap; simpl.
  apply Q.max_l. destruct (Qlt_le_dec (Qmin a1 b1) (Qmax a0 b0)) as [L|L].
  - apply Qlt_le_weak in L. apply (Qplus_le_l _ _ (Qmax a0 b0)). ring_simplify. exact L.
  - exfalso. apply (H (Qmax a0 b0)). repeat split.
    + apply Q.le_max_l.
    + eapply Qle_trans; [exact L|apply Q.le_min_l].
    + apply Q.le_max_r.
    + eapply Qle_trans; [exact L|apply Q.le_min_r].
Qed.

(** ** first-of-class characterisation of unique, multiset characterisation of eq_elems *)
Section EqSpecs.
  Context {A : Type} (eqb : A -> A -> bool).
  Hypothesis eqb_refl : forall x, eqb x x = true.
  Hypothesis eqb_sym : forall x y, eqb x y = eqb y x.
  Hypothesis eqb_trans : forall x y z, eqb x y = true -> eqb y z = true -> eqb x z = true.

  Lemma unique_indices xs :
    unique eqb xs = map snd (filter (fun ix => negb (existsb (fun s => eqb s (snd ix)) (firstn (fst ix) xs)))
                                    (combine (seq 0 (length xs)) xs)).
  Proof.
    induction xs as [|x t IH] using rev_ind; [reflexivity|].
    rewrite (unique_snoc eqb eqb_trans), IH, app_length, seq_app; simpl.
    assert (Hc : forall (l1 l2 : list nat) (m1 m2 : list A), length l1 = length m1 ->
                 combine (l1 ++ l2) (m1 ++ m2) = combine l1 m1 ++ combine l2 m2).
    { induction l1 as [|? ? IHl]; destruct m1; simpl; intros; try discriminate; [reflexivity|]. f_equal; auto. }
    rewrite Hc by apply seq_length. rewrite filter_app, map_app. f_equal.
    - f_equal. apply filter_ext_in. intros [i y] Hin. f_equal; simpl.
      apply in_combine_l in Hin. apply in_seq in Hin. rewrite firstn_app.
      replace (i - length t) with 0 by lia. rewrite firstn_O, app_nil_r. reflexivity.
    - simpl. rewrite firstn_app, Nat.sub_diag, firstn_all, firstn_O, app_nil_r.
      destruct (existsb _ t); reflexivity.
  Qed.

  Lemma eq_elems_iff xs ys :
    eq_elems eqb xs ys = true <-> exists ys', Permutation ys ys' /\ Forall2 (fun x y => eqb x y = true) xs ys'.
  Proof.
    assert (Hf : forall a b, Forall2 (fun x y => eqb x y = true) a b <-> Forall2 (fun x y => eqb y x = true) a b).
    { intros a b; split; induction 1; constructor; auto; rewrite eqb_sym; auto. }
    split.
    - intros H. destruct (eq_elems_sound eqb _ _ H) as (ys' & P & F). exists ys'. rewrite Hf. auto.
    - intros (ys' & P & F). rewrite Hf in F. eapply eq_elems_complete; eauto.
  Qed.
End EqSpecs.

(** ** counting *)
Lemma diff_count {A} (eq_dec : forall x y : A, {x = y} + {x <> y}) (eqb : A -> A -> bool)
  (eqb_spec : forall x y, eqb x y = true <-> x = y) xs ys :
  (forall v, count_occ eq_dec ys v <= count_occ eq_dec xs v) ->
  forall v, count_occ eq_dec (diff eqb xs ys) v = count_occ eq_dec xs v - count_occ eq_dec ys v.
Proof.
  revert xs; induction ys as [|y t IH]; intros xs H v; simpl; [lia|].
  destruct (list_remove (fun x => eqb x y) xs) as [r|] eqn:E.
  - destruct (list_remove_perm _ _ _ E) as (y' & Hy & _ & P). apply eqb_spec in Hy; subst y'.
    assert (Hc : forall w, count_occ eq_dec xs w = count_occ eq_dec (y :: r) w)
      by (intros w; apply Permutation_count_occ; exact P).
    rewrite IH.
    + specialize (Hc v). simpl in Hc. destruct (eq_dec y v); lia.
    + intros w. specialize (H w); specialize (Hc w). simpl in H, Hc. destruct (eq_dec y w); lia.
  - exfalso. rewrite list_remove_none in E. specialize (H y). simpl in H.
    destruct (eq_dec y y) as [_|C]; [|congruence].
    assert (Hin : In y xs) by (apply (count_occ_In eq_dec); lia).
    specialize (E y Hin). assert (eqb y y = true) by (apply eqb_spec; auto). congruence.
Qed.

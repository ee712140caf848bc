(** When slopes are fitted, a description does not depend on those of intervals with two ends (C69). *)
From Coq Require Import String Reals List Bool Arith ZArith Lia.
From Verif Require Import Py KexModel KernModel SemModel IvModel TextSpec TextSlopeSpec.
Import ListNotations.
Local Open Scope list_scope.

Section Rel.
  Context {A : Type} (R0 : A -> A -> Prop) (ord : A -> nat).
  Let le a b := Nat.leb (ord a) (ord b).
  Lemma insert_rel x x' l l' : (forall a b, R0 a b -> ord a = ord b) -> R0 x x' -> Forall2 R0 l l' ->
    Forall2 R0 (insert_sorted le x l) (insert_sorted le x' l').
  Proof.
    intros Ho Hx H. induction H as [|y y' l l' Hy H IH]; cbn [insert_sorted]; [constructor; [exact Hx|constructor]|].
    unfold le at 1 3. rewrite (Ho _ _ Hx), (Ho _ _ Hy). destruct (Nat.leb (ord x') (ord y')); constructor; auto.
  Qed.
  Lemma sorted_rel l l' : (forall a b, R0 a b -> ord a = ord b) -> Forall2 R0 l l' -> Forall2 R0 (py_sorted le l) (py_sorted le l').
  Proof. intros Ho H. induction H as [|y y' l l' Hy H IH]; cbn [py_sorted]; [constructor|]. apply insert_rel; auto. Qed.
End Rel.
Lemma mapM_rel {A B} (R0 : A -> A -> Prop) (f : A -> res B) l l' : (forall a b, R0 a b -> f a = f b) -> Forall2 R0 l l' -> mapM f l = mapM f l'.
Proof. intros Hf H. induction H as [|y y' l l' Hy H IH]; cbn [mapM]; [reflexivity|]. rewrite (Hf _ _ Hy), IH. reflexivity. Qed.

Section Slope.
  Context (offset : bool) (fmt : R -> string).
  (** Items that are described in the same way. *)
  Definition item_like (i j : item) : Prop :=
    match i, j with
    | inl (b, ps), inl (b', ps') => b = b' /\ (is_sigmoid b = false -> ps = ps')
    | inr l, inr l' => Forall2 same_two_ends l l'
    | _, _ => False
    end.
  Lemma item_like_order i j : item_like i j -> item_order i = item_order j.
  Proof. destruct i as [[b ps]|l], j as [[b' ps']|l']; cbn; try tauto. intros [-> _]. reflexivity. Qed.
  Lemma interval_like v v' : same_two_ends v v' -> interval_text false fmt v = interval_text false fmt v'.
  Proof.
    intros (i & i' & -> & -> & s & e & Hs & He & Hs' & He'). unfold interval_text. cbn [vmissing vget]. rewrite Hs, He, Hs', He'. reflexivity.
  Qed.
  Lemma post_like i j : item_like i j -> postmodifier_interpretation false offset fmt i = postmodifier_interpretation false offset fmt j.
  Proof.
    destruct i as [[b ps]|l], j as [[b' ps']|l']; cbn [item_like postmodifier_interpretation]; try tauto.
    - intros [-> H]. destruct b'; try (rewrite H by reflexivity; reflexivity); reflexivity.
    - intros H. unfold intervals_text. rewrite (mapM_rel same_two_ends _ l l' interval_like H). reflexivity.
  Qed.
  Lemma first_like i j : item_like i j -> item_first offset fmt i = item_first offset fmt j.
  Proof.
    destruct i as [[b ps]|l], j as [[b' ps']|l']; cbn [item_like item_first]; try tauto.
    intros [-> H]. destruct b'; try (rewrite H by reflexivity; reflexivity); reflexivity.
  Qed.
  Lemma items_like d d' : same_but_sigmoids d d' ->
    match mapM item_of (dict_del pkey_eqb d KProduct), mapM item_of (dict_del pkey_eqb d' KProduct) with
    | Ok l, Ok l' => Forall2 item_like l l'
    | Raise e, Raise e' => e = e'
    | _, _ => False
    end.
  Proof.
    unfold dict_del. induction 1 as [|[k ps] [k' ps'] d d' [Hk Hp] H IH]; cbn [filter fst snd] in *; [constructor|]. subst k'.
    destruct (pkey_eqb k KProduct) eqn:E; cbn [negb]; [exact IH|].
    cbn [mapM item_of fst snd]. destruct k as [b| |c|s b]; cbn [bind item_of fst snd]; try reflexivity.
    destruct (mapM item_of (filter _ d)) as [l|e], (mapM item_of (filter _ d')) as [l'|e']; cbn [bind] in *; try tauto.
    constructor; [|exact IH]. cbn. split; [reflexivity|]. intros Hb. apply Hp. intros b0 [= ->]. exact Hb.
  Qed.
  Lemma pars_like d d' : same_but_sigmoids d d' -> pars d KProduct = pars d' KProduct.
  Proof.
    unfold pars. induction 1 as [|[k ps] [k' ps'] d d' [Hk Hp] H IH]; cbn [dict_get fst snd] in *; [reflexivity|]. subst k'.
    destruct (pkey_eqb k KProduct) eqn:E; [|exact IH]. destruct k; try discriminate. apply Hp. discriminate.
  Qed.
  Lemma two_ends_untold d d' l l' : same_but_sigmoids d d' ->
    sigmoids_to_intervals false d = Ok (Some l) -> sigmoids_to_intervals false d' = Ok (Some l') -> Forall2 same_two_ends l l' ->
    base_factors_interpretation false offset fmt d = base_factors_interpretation false offset fmt d'.
  Proof.
    intros S E E' H. unfold base_factors_interpretation. rewrite E, E', (pars_like d d' S). cbn [bind].
    destruct (head (pars d' KProduct)) as [pv|]; [|reflexivity]. cbn [bind]. destruct (pget pv pVariance) as [var|]; [|reflexivity]. cbn [bind].
    pose proof (items_like d d' S) as I.
    destruct (mapM item_of (dict_del pkey_eqb d KProduct)) as [its|e], (mapM item_of (dict_del pkey_eqb d' KProduct)) as [its'|e']; cbn [bind];
      [|destruct I|destruct I|congruence].
    pose proof (sorted_rel item_like item_order (its ++ [inr l]) (its' ++ [inr l']) item_like_order) as So.
    assert (F : Forall2 item_like (its ++ [inr l]) (its' ++ [inr l'])) by (apply Forall2_app; [exact I|constructor; [exact H|constructor]]).
    specialize (So F). destruct So as [|i i' o o' Hi Ho]; [reflexivity|]. cbn [tl]. rewrite (first_like _ _ Hi).
    erewrite (mapM_rel item_like); [reflexivity| |exact Ho].
    intros a b Hab. rewrite (post_like a b Hab). destruct a as [[? ?]|], b as [[? ?]|]; cbn in Hab; try tauto; reflexivity.
  Qed.
End Slope.

(** The order of the sigmoids among the parameters of a component (C34). *)
From Coq Require Import Reals Lra List Bool Arith ZArith Lia Permutation.
From Verif Require Import Py KexModel KexSpec KexProofs KernModel KernSpec SemModel SemSpec IvModel IvSpec IvProofs ParModel ParSpec ParMatch ParCov ParInv ParInv2 ParInv3.
Import ListNotations.
Local Open Scope list_scope.

Definition sigmoid_key (k : pkey) : bool := match k with KBase b => is_sigmoid b | _ => false end.
(** The entries for sigmoids. *)
Definition sg (ps : params) : params := filter (fun e => sigmoid_key (fst e)) ps.
Definition gstep (d : params) (e : pkey * pdict) : params := if sigmoid_key (fst e) then pappend d (fst e) (snd e) else d.
(** The sigmoids of a monomial, grouped by type in the order in which the types first occur. *)
Definition group (m : mono) : params := fold_left gstep m [].

Lemma fold_app {A B} (f : A -> B -> A) l l' a : fold_left f (l ++ l') a = fold_left f l' (fold_left f l a).
Proof. apply fold_left_app. Qed.
Lemma group_snoc m e : group (m ++ [e]) = gstep (group m) e.
Proof. unfold group. now rewrite fold_left_app. Qed.
Lemma eqb_false k k' : k <> k' -> pkey_eqb k k' = false.
Proof. intros H. destruct (pkey_eqb k k') eqn:E; [apply pkey_eqb_eq in E; contradiction|reflexivity]. Qed.

(** ** Appending *)
Lemma set_new (d : params) k l : ~ In k (map fst d) -> dict_set pkey_eqb d k l = d ++ [(k, l)].
Proof.
  induction d as [|[a w] d IH]; intros N; [reflexivity|]. cbn in N |- *. rewrite eqb_false by tauto. f_equal. apply IH. tauto.
Qed.
Lemma set_old (d1 d2 : params) k l l' : ~ In k (map fst d1) -> dict_set pkey_eqb (d1 ++ (k, l) :: d2) k l' = d1 ++ (k, l') :: d2.
Proof.
  induction d1 as [|[a w] d1 IH]; intros N; cbn [app dict_set]; [now rewrite pkey_eqb_same|]. cbn in N. rewrite eqb_false by tauto. f_equal. apply IH. tauto.
Qed.
Lemma pars_old (d1 d2 : params) k l : ~ In k (map fst d1) -> pars (d1 ++ (k, l) :: d2) k = l.
Proof.
  unfold pars. induction d1 as [|[a w] d1 IH]; intros N; cbn [app dict_get]; [now rewrite pkey_eqb_same|]. cbn in N. rewrite eqb_false by tauto. apply IH. tauto.
Qed.
Lemma append_new (d : params) k p : ~ In k (map fst d) -> pappend d k p = d ++ [(k, [p])].
Proof. intros N. unfold pappend. rewrite pars_absent by exact N. now apply set_new. Qed.
Lemma append_old (d1 d2 : params) k l p : ~ In k (map fst d1) -> pappend (d1 ++ (k, l) :: d2) k p = d1 ++ (k, l ++ [p]) :: d2.
Proof. intros N. unfold pappend. rewrite pars_old by exact N. now apply set_old. Qed.
Lemma split_key (d : params) k : In k (map fst d) -> exists d1 l d2, d = d1 ++ (k, l) :: d2 /\ ~ In k (map fst d1).
Proof.
  induction d as [|[a w] d IH]; [intros []|]. intros I. destruct (pkey_eqb a k) eqn:E.
  - apply pkey_eqb_eq in E. subst. exists [], w, d. split; [reflexivity|intros []].
  - destruct I as [I|I]; [cbn in I; subst; rewrite pkey_eqb_same in E; discriminate E|]. destruct (IH I) as (d1 & l & d2 & -> & N). exists ((a, w) :: d1), l, d2. split; [reflexivity|].
    intros [J|J]; [cbn in J; subst; rewrite pkey_eqb_same in E; discriminate E|contradiction].
Qed.
Lemma key_dec (k : pkey) l : In k l \/ ~ In k l.
Proof. destruct (in_dec pkey_eq_dec k l); auto. Qed.
Lemma append_keys (d : params) k p x : In x (map fst (pappend d k p)) <-> x = k \/ In x (map fst d).
Proof. unfold pappend. rewrite set_keys. tauto. Qed.
Lemma append_nodup (d : params) k p : NoDup (map fst d) -> NoDup (map fst (pappend d k p)).
Proof. apply set_nodup. Qed.
Lemma append_comm (d : params) k p k' p' : In k (map fst d) -> k <> k' -> pappend (pappend d k p) k' p' = pappend (pappend d k' p') k p.
Proof.
  intros I D. destruct (split_key d k I) as (d1 & l & d2 & -> & N). rewrite (append_old d1 d2 k l p N).
  destruct (key_dec k' (map fst d1)) as [J|J].
  - destruct (split_key d1 k' J) as (e1 & w & e2 & -> & N'). rewrite <- !app_assoc. cbn [app]. rewrite !(append_old e1 _ k' w p') by exact N'.
    rewrite map_app in N. cbn [map fst] in N. assert (M : ~ In k (map fst (e1 ++ (k', w ++ [p']) :: e2))) by (rewrite map_app; cbn [map fst]; exact N).
    pose proof (append_old (e1 ++ (k', w ++ [p']) :: e2) d2 k l p M) as E. rewrite <- !app_assoc in E. cbn [app] in E. symmetry. exact E.
  - destruct (key_dec k' (map fst d2)) as [J2|J2].
    + destruct (split_key d2 k' J2) as (e1 & w & e2 & -> & N').
      assert (G : forall v, pappend (d1 ++ (k, v) :: e1 ++ (k', w) :: e2) k' p' = d1 ++ (k, v) :: e1 ++ (k', w ++ [p']) :: e2).
      { intros v. assert (M : ~ In k' (map fst (d1 ++ (k, v) :: e1))) by (rewrite map_app; cbn [map fst]; rewrite in_app_iff; cbn [In]; intuition congruence).
        pose proof (append_old (d1 ++ (k, v) :: e1) e2 k' w p' M) as E. rewrite <- !app_assoc in E. cbn [app] in E. exact E. }
      rewrite !G. symmetry. apply append_old, N.
    + assert (G : forall v, pappend (d1 ++ (k, v) :: d2) k' p' = d1 ++ (k, v) :: d2 ++ [(k', [p'])]).
      { intros v. rewrite append_new; [now rewrite <- app_assoc|]. rewrite map_app. cbn [map fst]. rewrite in_app_iff. cbn [In]. intuition congruence. }
      rewrite !G. symmetry. apply append_old, N.
Qed.

(** ** Folds *)
Lemma step_keys d e x : In x (map fst d) -> In x (map fst (gstep d e)).
Proof. unfold gstep. destruct (sigmoid_key (fst e)); [|auto]. intros I. apply append_keys. auto. Qed.
Lemma fold_keys l : forall d x, In x (map fst d) -> In x (map fst (fold_left gstep l d)).
Proof. induction l as [|e l IH]; intros d x I; [exact I|]. cbn [fold_left]. apply IH, step_keys, I. Qed.
Lemma fold_comm l : forall d k p, sigmoid_key k = true -> In k (map fst d) -> ~ In k (map fst l) -> fold_left gstep l (gstep d (k, p)) = gstep (fold_left gstep l d) (k, p).
Proof.
  induction l as [|[a q] l IH]; intros d k p S I N; [reflexivity|]. cbn [fold_left]. cbn [map fst In] in N. rewrite <- IH; [|exact S|apply step_keys, I|tauto]. f_equal.
  unfold gstep. cbn [fst snd]. rewrite S. destruct (sigmoid_key a); [|reflexivity]. apply append_comm; [exact I|]. intros ->. apply N. left. reflexivity.
Qed.
Lemma entries_app d d' : entries (d ++ d') = entries d ++ entries d'.
Proof. unfold entries. now rewrite map_app, concat_app. Qed.
Lemma entries_keys d x : In x (map fst (entries d)) -> In x (map fst d).
Proof.
  induction d as [|[k l] d IH]; [auto|]. unfold entries in *. cbn [map concat fst snd]. rewrite map_app, in_app_iff. intros [I|I]; [left|right; apply IH, I].
  rewrite map_map in I. cbn [fst] in I. apply in_map_iff in I as (? & E & _). exact E.
Qed.
Lemma group_facts m : NoDup (map fst (group m)) /\ (forall k l, In (k, l) (group m) -> sigmoid_key k = true /\ l <> []).
Proof.
  induction m as [|e m [ND F]] using rev_ind; [split; [constructor|intros k l []]|]. rewrite group_snoc. unfold gstep. destruct (sigmoid_key (fst e)) eqn:S; [|split; assumption].
  split; [apply append_nodup, ND|]. intros k l I. unfold pappend in I.
  assert (G : In k (map fst (dict_set pkey_eqb (group m) (fst e) (pars (group m) (fst e) ++ [snd e])))) by (apply (in_map fst) in I; exact I).
  pose proof (pars_in k l _ (set_nodup _ _ _ ND) I) as E. rewrite pars_set in E. apply set_keys in G. destruct (pkey_eqb (fst e) k) eqn:K.
  - apply pkey_eqb_eq in K. subst. split; [exact S|]. intros Z. symmetry in Z. now apply app_cons_not_nil in Z.
  - destruct G as [->|G]; [rewrite pkey_eqb_same in K; discriminate K|]. apply key_in in G. rewrite E in G. eapply F, G.
Qed.
Lemma fold_group m : forall acc, fold_left gstep (entries (group m)) acc = fold_left gstep m acc.
Proof.
  induction m as [|[k p] m IH] using rev_ind; intros acc; [reflexivity|]. rewrite group_snoc, fold_left_app. cbn [fold_left]. rewrite <- IH. unfold gstep at 2. cbn [fst snd].
  destruct (sigmoid_key k) eqn:S.
  2:{ unfold gstep at 2. cbn [fst]. rewrite S. reflexivity. }
  destruct (group_facts m) as [ND F]. destruct (key_dec k (map fst (group m))) as [I|I].
  - destruct (split_key _ k I) as (d1 & l & d2 & E & N). rewrite E. rewrite append_old by exact N. change (d1 ++ (k, l ++ [p]) :: d2) with (d1 ++ [(k, l ++ [p])] ++ d2). change (d1 ++ (k, l) :: d2) with (d1 ++ [(k, l)] ++ d2).
    rewrite !entries_app, !fold_left_app. unfold entries at 2 5. cbn [map concat fst snd]. rewrite !app_nil_r, map_app, fold_left_app. cbn [map fold_left].
    assert (N2 : ~ In k (map fst (entries d2))).
    { intros J. apply entries_keys in J. rewrite E, map_app in ND. cbn [map fst] in ND. apply NoDup_remove_2 in ND. apply ND, in_or_app. right. exact J. }
    apply fold_comm; [exact S| |exact N2].
    assert (L : l <> []) by (eapply (F k); rewrite E; apply in_or_app; right; left; reflexivity). destruct l as [|q l]; [contradiction|]. cbn [map fold_left]. apply fold_keys.
    unfold gstep. cbn [fst snd]. rewrite S. apply append_keys. auto.
  - rewrite append_new by exact I. rewrite entries_app, fold_left_app. reflexivity.
Qed.
Lemma fold_sg d : forall acc, fold_left gstep (entries (sg d)) acc = fold_left gstep (entries d) acc.
Proof.
  induction d as [|[k l] d IH]; intros acc; [reflexivity|]. unfold sg. cbn [filter fst]. change ((k, l) :: d) with ([(k, l)] ++ d). rewrite entries_app, fold_left_app. destruct (sigmoid_key k) eqn:S.
  - change ((k, l) :: filter (fun e => sigmoid_key (fst e)) d) with ([(k, l)] ++ sg d). rewrite entries_app, fold_left_app. apply IH.
  - fold (sg d). rewrite IH. f_equal. unfold entries. cbn [map concat fst snd]. rewrite app_nil_r. clear IH. revert acc. induction l as [|p l IH]; intros acc; [reflexivity|]. cbn [map fold_left]. rewrite <- IH.
    unfold gstep. cbn [fst]. rewrite S. reflexivity.
Qed.
Lemma fold_block l : forall acc k l0, sigmoid_key k = true -> ~ In k (map fst acc) -> fold_left gstep (map (fun p => (k, p)) l) (acc ++ [(k, l0)]) = acc ++ [(k, l0 ++ l)].
Proof.
  induction l as [|p l IH]; intros acc k l0 S N; [now rewrite app_nil_r|]. cbn [map fold_left]. unfold gstep at 2. cbn [fst snd]. rewrite S, append_old by exact N. rewrite (IH acc k (l0 ++ [p]) S N), <- app_assoc. reflexivity.
Qed.
Lemma fold_own d : forall acc, NoDup (map fst (acc ++ d)) -> (forall k l, In (k, l) d -> sigmoid_key k = true /\ l <> []) -> fold_left gstep (entries d) acc = acc ++ d.
Proof.
  induction d as [|[k l] d IH]; intros acc ND F; [cbn; now rewrite app_nil_r|]. unfold entries. cbn [map concat fst snd]. fold (entries d). rewrite fold_left_app.
  destruct (F k l (or_introl eq_refl)) as [S L]. destruct l as [|p l]; [contradiction|]. cbn [map fold_left]. unfold gstep at 3. cbn [fst snd]. rewrite S.
  assert (N : ~ In k (map fst acc)) by (rewrite map_app in ND; cbn [map fst] in ND; apply NoDup_remove_2 in ND; intros J; apply ND, in_or_app; left; exact J).
  rewrite append_new by exact N. rewrite fold_block by assumption. cbn [app]. rewrite IH; [now rewrite <- app_assoc|rewrite <- app_assoc; exact ND|]. intros k' l' I. apply F. right. exact I.
Qed.
Lemma group_own d : NoDup (map fst d) -> (forall k l, In (k, l) d -> sigmoid_key k = true -> l <> []) -> sg d = group (entries d).
Proof.
  intros ND F. unfold group. rewrite <- fold_sg, fold_own; [reflexivity| |].
  - cbn [app]. apply filter_nodup, ND.
  - intros k l I. apply filter_In in I as [I S]. split; [exact S|]. eapply F; eassumption.
Qed.

(** ** new_bases_with_parameters *)
Lemma sg_set d k l : sigmoid_key k = false -> sg (dict_set pkey_eqb d k l) = sg d.
Proof.
  intros S. unfold sg. induction d as [|[a w] d IH]; cbn [dict_set filter fst]; [rewrite S; reflexivity|]. destruct (pkey_eqb a k) eqn:E.
  - apply pkey_eqb_eq in E. subst. cbn [filter fst]. rewrite S. reflexivity.
  - cbn [filter fst]. destruct (sigmoid_key a); [f_equal|]; exact IH.
Qed.
Lemma sg_filter f d : (forall k l, sigmoid_key k = true -> f (k, l) = true) -> sg (filter f d) = sg d.
Proof.
  intros H. unfold sg. induction d as [|[k l] d IH]; [reflexivity|]. cbn [filter fst]. destruct (f (k, l)) eqn:F; cbn [filter fst].
  - destruct (sigmoid_key k); [f_equal|]; exact IH.
  - destruct (sigmoid_key k) eqn:S; [rewrite (H k l S) in F; discriminate F|exact IH].
Qed.
Lemma sg_append d k p : sg (pappend d k p) = gstep (sg d) (k, p).
Proof.
  unfold gstep. cbn [fst snd]. destruct (sigmoid_key k) eqn:S; [|apply sg_set, S].
  destruct (key_dec k (map fst d)) as [I|I].
  - destruct (split_key d k I) as (d1 & l & d2 & -> & N). rewrite append_old by exact N. unfold sg. rewrite !filter_app. cbn [filter fst]. rewrite S. symmetry. apply append_old.
    intros J. apply N. apply (keys_filter sigmoid_key) in J. apply J.
  - rewrite append_new by exact I. unfold sg. rewrite filter_app. cbn [filter fst]. rewrite S. symmetry. apply append_new. intros J. apply I. apply (keys_filter sigmoid_key) in J. apply J.
Qed.
Section Steps.
  Context (offset fixed : bool).
  Lemma step_sg bts ps e bts' ps' : entry_ok offset fixed e -> new_base_with_parameters (bts, ps) e = Ok (bts', ps') -> sg ps' = gstep (sg ps) e.
  Proof.
    destruct e as [k p]. intros EO. unfold new_base_with_parameters. destruct (dict_get pname_eqb p pVariance) as [v|] eqn:V.
    - destruct (pars ps KProduct) as [|p0 rest]; [discriminate|]. destruct (pget p0 pVariance) as [v0|]; [|discriminate]. cbn [bind].
      assert (NS : sigmoid_key k = false).
      { unfold entry_ok in EO. cbn [fst snd] in EO. destruct k as [b| | |]; try reflexivity. cbn [sigmoid_key]. destruct (is_sigmoid b) eqn:S; [|reflexivity].
        pose proof (sigmoid_no_variance fixed b p EO) as N. unfold no_variance in N. congruence. }
      destruct k; try discriminate; intros E; injection E as <- <-.
      + rewrite sg_append. unfold gstep. cbn [fst]. rewrite NS. apply sg_set. reflexivity.
      + unfold gstep. cbn [fst sigmoid_key]. apply sg_set. reflexivity.
    - cbn [bind]. destruct k; try discriminate; intros E; injection E as <- <-. apply sg_append.
  Qed.
  Lemma steps_sg es : forall bts ps bts' ps', Forall (entry_ok offset fixed) es -> foldM new_base_with_parameters es (bts, ps) = Ok (bts', ps') -> sg ps' = fold_left gstep es (sg ps).
  Proof.
    induction es as [|e es IH]; intros bts ps bts' ps' F E; [cbn in E; injection E as <- <-; reflexivity|]. inversion F as [|? ? Fe Fes]; subst. cbn [foldM] in E.
    destruct (new_base_with_parameters (bts, ps) e) as [[b1 p1]|] eqn:E1; [|discriminate E]. cbn [bind] in E. cbn [fold_left]. rewrite <- (step_sg _ _ _ _ _ Fe E1). eapply IH; eassumption.
  Qed.
  Lemma simp_sg bts ps ps' : simplify_base_terms_params bts ps = Ok ps' -> sg ps' = sg ps.
  Proof.
    unfold simplify_base_terms_params. set (ps1 := if dict_has pkey_eqb ps (KBase bWN) then filter (fun kv => match fst kv with KBase bWN | KProduct => true | KBase b => is_sigmoid b | _ => false end) ps else ps).
    assert (S1 : sg ps1 = sg ps).
    { unfold ps1. destruct (dict_has pkey_eqb ps (KBase bWN)); [|reflexivity]. apply sg_filter. intros k l S. cbn [fst]. destruct k as [b| | |]; try discriminate S. destruct b; try discriminate S; reflexivity. }
    clearbody ps1. set (ps2 := if dict_has pkey_eqb ps1 (KBase bC)
               then if negb (chas bts bC) then dict_del pkey_eqb ps1 (KBase bC)
                    else if Nat.ltb 1 (length (pars ps1 (KBase bC))) then dict_set pkey_eqb ps1 (KBase bC) [[]] else ps1
               else ps1).
    assert (S2 : sg ps2 = sg ps).
    { rewrite <- S1. unfold ps2. destruct (dict_has pkey_eqb ps1 (KBase bC)); [|reflexivity]. destruct (negb (chas bts bC)).
      - rewrite dict_del_filter. apply sg_filter. intros k l S. cbn [fst]. destruct k as [b| | |]; try discriminate S. destruct b; try discriminate S; reflexivity.
      - destruct (Nat.ltb 1 _); [apply sg_set|]; reflexivity. }
    clearbody ps2. destruct (dict_has pkey_eqb ps2 (KBase bSE) && _); [|intros E; injection E as <-; exact S2].
    destruct (mapM _ _) as [[|l t]|]; cbn [bind]; try discriminate. intros E. injection E as <-. rewrite sg_set by reflexivity. exact S2.
  Qed.
End Steps.

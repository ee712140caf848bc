(** Proofs about expression operations and expansion. *)
From Coq Require Import String List Bool Arith ZArith Lia Permutation.
From Verif Require Import Py UtilModel UtilSpec UtilProofs KexModel KexSpec KexProofs KexSimp KexMore OpsModel OpsSpec KexCong.
Import ListNotations.
Local Open Scope list_scope.
Local Open Scope Z_scope.

(** ** Counter arithmetic *)
Lemma NoDup_app' {A} (l m : list A) : NoDup l -> NoDup m -> (forall x, In x l -> ~ In x m) -> NoDup (l ++ m).
Proof.
  induction 1 as [|x l Hx N IH]; intros Nm D; [exact Nm|]. simpl. constructor.
  - rewrite in_app_iff. intros [H|H]; [tauto|]. apply (D x); [left; auto|exact H].
  - apply IH; [exact Nm|]. intros y Hy. apply D. right; auto.
Qed.
Lemma nodup_map_val (c : counter) (f : base * Z -> Z) : nodup c -> nodup (map (fun kv => (fst kv, f kv)) c).
Proof. unfold nodup. rewrite map_map. simpl. auto. Qed.
Lemma cget_map_val (c : counter) (f : base * Z -> Z) b :
  cget (map (fun kv => (fst kv, f kv)) c) b = if chas c b then f (b, cget c b) else 0.
Proof.
  unfold chas, dict_has, cget. induction c as [|[k v] c IH]; simpl; [reflexivity|].
  destruct (base_eqb k b) eqn:E; [|exact IH]. apply base_eqb_spec in E; subst. reflexivity.
Qed.
Lemma chas_in c b : chas c b = true <-> In b (map fst c).
Proof.
  unfold chas, dict_has. destruct (dict_get base_eqb c b) eqn:E.
  - split; [|reflexivity]. intros _. apply (dict_get_in _ base_eqb_spec) in E. apply (in_map fst) in E. exact E.
  - apply (dict_get_none _ base_eqb_spec) in E. split; [discriminate|tauto].
Qed.
Lemma chas_false c b : chas c b = false -> cget c b = 0.
Proof. unfold chas, dict_has, cget. destruct (dict_get base_eqb c b); [discriminate|reflexivity]. Qed.
Lemma cget_app c d b : cget (c ++ d) b = if chas c b then cget c b else cget d b.
Proof.
  unfold chas, dict_has, cget. induction c as [|[k v] c IH]; simpl; [reflexivity|].
  destruct (base_eqb k b); [reflexivity|]. exact IH.
Qed.
Lemma in_fst_filter (c : counter) p x : In x (map fst (filter p c)) -> In x (map fst c).
Proof.
  intros H. apply in_map_iff in H as (kv & <- & H). apply filter_In in H as [H _]. apply in_map, H.
Qed.
Lemma chas_filter_false c p b : nodup c -> chas (filter p c) b = false -> chas c b = true -> p (b, cget c b) = false.
Proof.
  intros N H H1. destruct (p (b, cget c b)) eqn:E; [|reflexivity].
  assert (In (b, cget c b) (filter p c)).
  { apply filter_In. split; [|exact E]. unfold chas, dict_has, cget in *.
    destruct (dict_get base_eqb c b) eqn:G; [|discriminate]. apply (dict_get_in _ base_eqb_spec), G. }
  apply (in_map fst) in H0. apply chas_in in H0. simpl in H0. congruence.
Qed.
Lemma cadd_nodup a b : nodup a -> nodup b -> nodup (cadd a b).
Proof.
  intros Na Nb. unfold nodup, cadd. rewrite map_app. apply NoDup_app'.
  - apply (nodup_filter (map (fun kv => (fst kv, snd kv + cget b (fst kv))) a)).
    apply (nodup_map_val a (fun kv => snd kv + cget b (fst kv))), Na.
  - apply nodup_filter, Nb.
  - intros x Hx Hy. apply in_fst_filter in Hx. rewrite map_map in Hx. simpl in Hx.
    apply in_map_iff in Hy as (kv & <- & Hy). apply filter_In in Hy as [_ Hy]. apply andb_true_iff in Hy as [Hy _].
    apply chas_in in Hx. rewrite Hx in Hy. discriminate.
Qed.
Lemma cget_cadd a b x : nodup a -> nodup b -> cget (cadd a b) x = Z.max 0 (cget a x + cget b x).
Proof.
  intros Na Nb. unfold cadd. rewrite cget_app.
  set (m := map (fun kv => (fst kv, snd kv + cget b (fst kv))) a).
  assert (Nm : nodup m) by (apply (nodup_map_val a (fun kv => snd kv + cget b (fst kv))), Na).
  assert (Em : cget m x = if chas a x then cget a x + cget b x else 0) by (apply (cget_map_val a (fun kv => snd kv + cget b (fst kv)))).
  assert (Hm : chas m x = chas a x).
  { unfold m. destruct (chas a x) eqn:E.
    - apply chas_in. rewrite map_map. simpl. apply chas_in, E.
    - destruct (chas (map _ a) x) eqn:E'; [|reflexivity]. apply chas_in in E'. rewrite map_map in E'. simpl in E'. apply chas_in in E'. congruence. }
  rewrite !cget_filter by assumption. cbn [fst snd].
  destruct (chas (filter _ m) x) eqn:F.
  - apply chas_in, in_fst_filter, chas_in in F. rewrite Em. rewrite Hm in F. rewrite F. destruct (Z.ltb_spec 0 (cget a x + cget b x)); lia.
  - destruct (chas a x) eqn:E; cbn [negb andb].
    + apply chas_filter_false in F; [|exact Nm|exact Hm]. cbn [snd] in F. rewrite Em in F. lia.
    + rewrite (chas_false a x E). destruct (Z.ltb_spec 0 (cget b x)); lia.
Qed.
Lemma csub_nodup a b : nodup a -> nodup b -> nodup (csub a b).
Proof.
  intros Na Nb. unfold nodup, csub. rewrite map_app. apply NoDup_app'.
  - apply (nodup_filter (map (fun kv => (fst kv, snd kv - cget b (fst kv))) a)).
    apply (nodup_map_val a (fun kv => snd kv - cget b (fst kv))), Na.
  - rewrite map_map. simpl. apply (nodup_filter b), Nb.
  - intros x Hx Hy. apply in_fst_filter in Hx. rewrite map_map in Hx. simpl in Hx. rewrite map_map in Hy. simpl in Hy.
    apply in_map_iff in Hy as (kv & <- & Hy). apply filter_In in Hy as [_ Hy]. apply andb_true_iff in Hy as [Hy _].
    apply chas_in in Hx. rewrite Hx in Hy. discriminate.
Qed.
Lemma filter_pos_wf c : nodup c -> wf_counter (filter (fun kv => 0 <? snd kv) c).
Proof. apply cpos_wf. Qed.
Lemma wf_app c d : wf_counter c -> wf_counter d -> nodup (c ++ d) -> wf_counter (c ++ d).
Proof. intros [_ Wc] [_ Wd] N. split; [exact N|]. intros b n H. apply in_app_iff in H as [H|H]; eauto. Qed.
Lemma cadd_wf a b : nodup a -> nodup b -> wf_counter (cadd a b).
Proof.
  intros Na Nb. split; [apply cadd_nodup; assumption|]. intros x n H. unfold cadd in H.
  apply in_app_iff in H as [H|H]; apply filter_In in H as [_ H]; cbn [fst snd] in H; [lia|].
  apply andb_true_iff in H as [_ H]. lia.
Qed.
Lemma csub_wf a b : nodup a -> nodup b -> wf_counter (csub a b).
Proof.
  intros Na Nb. split; [apply csub_nodup; assumption|]. intros x n H. unfold csub in H.
  apply in_app_iff in H as [H|H].
  - apply filter_In in H as [_ H]; cbn [fst snd] in H; lia.
  - apply in_map_iff in H as (kv & [= <- <-] & H). apply filter_In in H as [_ H]. apply andb_true_iff in H as [_ H]. lia.
Qed.
Lemma counter_of_nodup l : nodup (counter_of l).
Proof. apply wf_nodup, counter_of_wf. Qed.
Lemma nodup_single b n : nodup [(b, n)].
Proof. repeat constructor. intros []. Qed.
Lemma nodup_fst c : nodup c -> NoDup (map fst c).
Proof. auto. Qed.

(** ** swap_base (C08) and remove_a_term (C09) *)
Lemma distinct_cpos c : wf_counter c -> distinct_bases c (map fst (cpos c)).
Proof.
  intros W. rewrite (wf_cpos c W). split; [apply W|]. intros b. rewrite <- chas_in. apply wf_has, W.
Qed.
Lemma delta_swap bt B x : bt <> B -> cget (swap_counter bt B) x = - delta bt x + delta B x.
Proof.
  intros H. unfold swap_counter, delta. rewrite !cget_cset. change (cget [] x) with 0.
  destruct (base_eqb B x) eqn:E1, (base_eqb bt x) eqn:E2; try lia.
  apply base_eqb_spec in E1, E2. congruence.
Qed.
Lemma swap_args_spec bts B bt c' : wf_counter bts -> bt <> B -> 0 < cget bts bt ->
  c' = cadd (cpos bts) (swap_counter bt B) -> replace_one bts c' bt B.
Proof.
  intros W Hne Hp ->. rewrite (wf_cpos bts W). pose proof (wf_nodup _ W) as N.
  assert (Ns : nodup (swap_counter bt B)) by (apply cset_nodup, cset_nodup; constructor).
  split; [apply cadd_wf; assumption|]. intros x. rewrite cget_cadd by assumption. rewrite delta_swap by exact Hne.
  pose proof (wf_nonneg bts x W). unfold delta. destruct (base_eqb bt x) eqn:E1, (base_eqb B x) eqn:E2; try lia.
  apply base_eqb_spec in E1. subst. lia.
Qed.
Lemma swap_base_comm offset k bts cts B : wf_counter bts -> exists bs,
  distinct_bases bts bs /\ length (swap_base offset (Comm k bts cts) B) = length bs
  /\ forall i bt, nth_error bs i = Some bt -> bt <> B ->
       exists c', replace_one bts c' bt B /\ nth_error (swap_base offset (Comm k bts cts) B) i = Some (mk offset k c' cts).
Proof.
  intros W. exists (map fst (cpos bts)). split; [apply distinct_cpos, W|]. split.
  - cbn [swap_base]. unfold swap_args. rewrite !map_length. reflexivity.
  - intros i bt H Hne. exists (cadd (cpos bts) (swap_counter bt B)). split.
    + eapply swap_args_spec; eauto. apply (proj2 (distinct_cpos bts W)). eapply nth_error_In, H.
    + cbn [swap_base]. unfold swap_args. rewrite nth_error_map, nth_error_map, H. reflexivity.
Qed.
Lemma swap_base_change offset o l r B x :
  In x (swap_base offset (Change o l r) B) <->
  (exists b, l = inl b /\ b <> B /\ x = mk_change offset o (inl B) r) \/ (exists b, r = inl b /\ b <> B /\ x = mk_change offset o l (inl B)).
Proof.
  cbn [swap_base]. rewrite in_app_iff.
  assert (H : forall (br : branch) y, In x (match br with inl b => if base_eqb b B then [] else [y] | inr _ => [] end)
              <-> exists b, br = inl b /\ b <> B /\ x = y).
  { intros [b|e] y; [|split; [intros []|intros (b & E & _); discriminate]]. destruct (base_eqb b B) eqn:E.
    - apply base_eqb_spec in E. split; [intros []|]. intros (b' & [= <-] & H & _). congruence.
    - apply base_eqb_false in E. split; [intros [<-|[]]; eauto|]. intros (b' & _ & _ & ->). left; auto. }
  rewrite !H. tauto.
Qed.

Lemma remove_a_term_comm offset k bts cts : wf_counter bts -> 1 < terms bts cts -> exists bs,
  distinct_bases bts bs
  /\ length (remove_a_term offset (Comm k bts cts)) = (length bs + length cts)%nat
  /\ (forall i b, nth_error bs i = Some b ->
        exists c', minus_one bts c' b /\ nth_error (remove_a_term offset (Comm k bts cts)) i = Some (mk offset k c' cts))
  /\ (forall i l1 c l2, cts = l1 ++ c :: l2 -> length l1 = i ->
        nth_error (remove_a_term offset (Comm k bts cts)) (length bs + i) = Some (mk offset k bts (l1 ++ l2))).
Proof.
  intros W T. exists (map fst (cpos bts)). split; [apply distinct_cpos, W|].
  rewrite terms_csum in T by apply wf_nodup, W.
  cbn [remove_a_term]. unfold remove_args. destruct (Z.ltb_spec 1 (csum bts + Z.of_nat (length cts))); [|lia].
  split; [|split].
  - rewrite map_length, app_length, !map_length, seq_length. reflexivity.
  - intros i b H1. exists (cadd (cpos bts) [(b, -1)]). split.
    + rewrite (wf_cpos bts W). pose proof (wf_nodup _ W) as N. split; [apply cadd_wf; [exact N|apply nodup_single]|].
      intros x. rewrite cget_cadd by (exact N || apply nodup_single). rewrite cget_cons. change (cget [] x) with 0. unfold delta.
      pose proof (wf_nonneg bts x W). destruct (base_eqb b x) eqn:E; [|lia]. apply base_eqb_spec in E; subst x.
      assert (0 < cget bts b) by (apply (proj2 (distinct_cpos bts W)); eapply nth_error_In, H1). lia.
    + rewrite map_app. rewrite nth_error_app1 by (rewrite !map_length;
        assert (G : (i < length (map fst (cpos bts)))%nat) by (apply nth_error_Some; congruence); rewrite map_length in G; exact G).
      rewrite nth_error_map, nth_error_map, H1. reflexivity.
  - intros i l1 c l2 -> <-. rewrite map_app, nth_error_app2 by (rewrite !map_length; lia).
    rewrite !map_length.
    replace (length (cpos bts) + length l1 - length (cpos bts))%nat with (length l1) by lia.
    rewrite map_map, nth_error_map, (nth_error_nth' (seq 0 (length (l1 ++ c :: l2))) 0%nat) by (rewrite seq_length, app_length; simpl; lia).
    rewrite seq_nth by (rewrite app_length; simpl; lia). cbn [option_map fst snd Nat.add]. unfold drop_nth.
    rewrite (wf_cpos bts W). do 2 f_equal.
    rewrite firstn_app, Nat.sub_diag, firstn_O, firstn_all, app_nil_r, skipn_app, skipn_all2 by lia.
    replace (S (length l1) - length l1)%nat with 1%nat by lia. reflexivity.
Qed.
Lemma remove_a_term_single offset k bts cts : wf_counter bts -> terms bts cts <= 1 -> remove_a_term offset (Comm k bts cts) = [].
Proof.
  intros W T. rewrite terms_csum in T by apply wf_nodup, W. cbn [remove_a_term]. unfold remove_args.
  destruct (Z.ltb_spec 1 (csum bts + Z.of_nat (length cts))); [lia|reflexivity].
Qed.
Lemma remove_a_term_change offset o l r :
  remove_a_term offset (Change o l r)
  = [match l with inl b => Comm KSum [(b, 1)] [] | inr x => x end; match r with inl b => Comm KSum [(b, 1)] [] | inr x => x end].
Proof. cbn [remove_a_term map]. destruct l, r; rewrite ?mkl_leaf; reflexivity. Qed.

(** ** Rules build well-formed and nearly normal expressions *)
Section RulesOk.
  Variable offset : bool.
  Variable P : kex -> Prop.
  Hypothesis Pmk : forall k bts cts, wf_counter bts -> (forall c, In c cts -> P c) -> P (mk offset k bts cts).
  Hypothesis Pchange : forall o l r, (forall x, l = inr x \/ r = inr x -> P x) -> P (mk_change offset o l r).
  Hypothesis Pcomm_inv : forall k bts cts, P (Comm k bts cts) -> wf_counter bts /\ forall c, In c cts -> P c.
  Hypothesis Pchange_inv : forall o l r, P (Change o l r) -> forall x, l = inr x \/ r = inr x -> P x.
  Hypothesis Pdel : forall e, P e -> P (del_se e).

  Lemma Pmkl k bs cts : (forall c, In c cts -> P c) -> P (mkl offset k bs cts).
  Proof. apply Pmk, counter_of_wf. Qed.
  Lemma Psnoc cts c : (forall x, In x cts -> P x) -> P c -> forall x, In x (cts ++ [c]) -> P x.
  Proof. intros H Hc x Hx. apply in_app_iff in Hx as [Hx|[<-|[]]]; auto. Qed.
  Lemma Papp c1 c2 : (forall x, In x c1 -> P x) -> (forall x, In x c2 -> P x) -> forall x, In x (c1 ++ c2) -> P x.
  Proof. intros H1 H2 x Hx. apply in_app_iff in Hx as [Hx|Hx]; auto. Qed.
  Definition Pb (b : branch) : Prop := match b with inl _ => True | inr e => P e end.
  Lemma cpos_add_wf b c : wf_counter b -> nodup c -> wf_counter (cadd (cpos b) c).
  Proof. intros W N. apply cadd_wf; [apply cpos_nodup, wf_nodup, W|exact N]. Qed.
  Lemma cpos_sub_wf b c : wf_counter b -> nodup c -> wf_counter (csub (cpos b) c).
  Proof. intros W N. apply csub_wf; [apply cpos_nodup, wf_nodup, W|exact N]. Qed.
  Lemma cpos_wf' b : wf_counter b -> wf_counter (cpos b).
  Proof. intros W. apply cpos_wf, wf_nodup, W. Qed.

  Ltac solveP := match goal with
    | H : P (Comm _ _ _) |- _ => let H1 := fresh "W" in let H2 := fresh "C" in
        pose proof (Pcomm_inv _ _ _ H) as [H1 H2]; revert H; solveP; intros H
    | _ => idtac end.
  Ltac wfc := first [apply counter_of_wf | apply cpos_add_wf; [|apply counter_of_nodup || (apply wf_nodup; assumption) || apply nodup_single]; assumption
                    | apply cpos_sub_wf; [assumption|apply counter_of_nodup] | apply cpos_wf'; assumption].
  Ltac inl := let x := fresh in let Hx := fresh in intros x Hx; simpl in Hx; intuition (subst; auto).
  Lemma P_add k1 k2 : Pb k1 -> Pb k2 -> P (add offset k1 k2).
  Proof.
    intros H1 H2. destruct k1 as [x|[[|] b1 c1|o1 l1 r1]], k2 as [y|[[|] b2 c2|o2 l2 r2]]; cbn [Pb] in H1, H2; cbn [add];
      try (pose proof (Pcomm_inv _ _ _ H1) as [W1 C1]); try (pose proof (Pcomm_inv _ _ _ H2) as [W2 C2]);
      first [apply Pmkl; inl | apply Pmk; [wfc|]; first [assumption | apply Papp; assumption | apply Psnoc; assumption]].
  Qed.
  Lemma P_multiply k1 k2 : Pb k1 -> Pb k2 -> P (multiply offset k1 k2).
  Proof.
    intros H1 H2. destruct k1 as [x|[[|] b1 c1|o1 l1 r1]], k2 as [y|[[|] b2 c2|o2 l2 r2]]; cbn [Pb] in H1, H2; cbn [multiply];
      try (pose proof (Pcomm_inv _ _ _ H1) as [W1 C1]); try (pose proof (Pcomm_inv _ _ _ H2) as [W2 C2]);
      first [apply Pmkl; inl | apply Pmk; [wfc|]; first [assumption | apply Papp; assumption | apply Psnoc; assumption]].
  Qed.
  Lemma P_add_nested k1 k2 e : Pb k1 -> Pb k2 -> In e (add_nested offset k1 k2) -> P e.
  Proof.
    intros H1 H2 He.
    assert (G : forall x b c, P (Comm KProd b c) -> In e (mkl offset KSum [x] [Comm KProd b c]
        :: map (fun bt => mk offset KProd (csub (cpos b) (counter_of [bt])) (c ++ [mkl offset KSum [x; bt] []])) (celements b)) -> P e).
    { intros x b c Hp [<-|He']; [apply Pmkl; inl|]. apply in_map_iff in He' as (bt & <- & _).
      destruct (Pcomm_inv _ _ _ Hp) as [W C]. apply Pmk; [wfc|]. apply Psnoc; [exact C|]. apply Pmkl; intros ? []. }
    assert (G2 : In e [add offset k1 k2] -> P e) by (intros [<-|[]]; apply P_add; assumption).
    destruct k1 as [x|[[|] b1 c1|o1 l1 r1]], k2 as [y|[[|] b2 c2|o2 l2 r2]]; cbn [Pb add_nested] in H1, H2, He; eauto.
  Qed.
  Lemma P_multiply_nested k1 k2 e : Pb k1 -> Pb k2 -> In e (multiply_nested offset k1 k2) -> P e.
  Proof.
    intros H1 H2 He.
    assert (G : forall x b c, P (Comm KSum b c) -> In e (mkl offset KProd [x] [Comm KSum b c]
        :: map (fun bt => mk offset KSum (csub (cpos b) (counter_of [bt])) (c ++ [mkl offset KProd [x; bt] []])) (celements b)) -> P e).
    { intros x b c Hp [<-|He']; [apply Pmkl; inl|]. apply in_map_iff in He' as (bt & <- & _).
      destruct (Pcomm_inv _ _ _ Hp) as [W C]. apply Pmk; [wfc|]. apply Psnoc; [exact C|]. apply Pmkl; intros ? []. }
    assert (G2 : In e [multiply offset k1 k2] -> P e) by (intros [<-|[]]; apply P_multiply; assumption).
    destruct k1 as [x|[[|] b1 c1|o1 l1 r1]], k2 as [y|[[|] b2 c2|o2 l2 r2]]; cbn [Pb multiply_nested] in H1, H2, He; eauto.
  Qed.
  Lemma P_swap_base S B e : P S -> In e (swap_base offset S B) -> P e.
  Proof.
    intros H He. destruct S as [k b c|o l r].
    - destruct (Pcomm_inv _ _ _ H) as [W C]. cbn [swap_base] in He. unfold swap_args in He. rewrite map_map in He.
      apply in_map_iff in He as (bt & <- & _). apply Pmk; [|exact C]. apply cpos_add_wf; [exact W|]. apply cset_nodup, cset_nodup. constructor.
    - pose proof (Pchange_inv _ _ _ H) as HI.
      apply swap_base_change in He as [(b & -> & _ & ->)|(b & -> & _ & ->)]; apply Pchange; intros x [E|E]; try discriminate; apply HI; auto.
  Qed.
  Lemma P_change_pair o a b : Pb a -> Pb b -> P (mk_change offset o a b).
  Proof. intros Ha Hb. apply Pchange. intros x [->| ->]; assumption. Qed.
  Lemma P_one_change S o S2 e : Pb S -> match S2 with Some s => Pb s | None => True end -> In e (one_change offset S o S2) -> P e.
  Proof.
    intros H1 H2. destruct S2 as [s2|]; cbn [one_change]; [destruct (branch_eqb s2 S)|];
      intros He; simpl in He; intuition (subst; apply P_change_pair; assumption).
  Qed.
  Lemma P_both_changes S S2 e : Pb S -> match S2 with Some s => Pb s | None => True end -> In e (both_changes offset S S2) -> P e.
  Proof.
    intros H1 H2. unfold both_changes. rewrite in_concat. intros (l & Hl & He). apply in_map_iff in Hl as (o & <- & _).
    destruct S2 as [s2|]; [destruct (branch_eqb s2 S)|]; simpl in He; intuition (subst; apply P_change_pair; assumption).
  Qed.
  Lemma P_remove S e : P S -> In e (remove_a_term offset S) -> P e.
  Proof.
    intros H He. destruct S as [k b c|o l r]; cbn [remove_a_term] in He.
    - destruct (Pcomm_inv _ _ _ H) as [W C]. unfold remove_args in He. destruct (1 <? _); [|destruct He].
      apply in_map_iff in He as ([bb cc] & <- & He). apply in_app_iff in He as [He|He].
      + apply in_map_iff in He as (bt & [= <- <-] & _). apply Pmk; [|exact C]. apply cpos_add_wf; [exact W|apply nodup_single].
      + apply in_map_iff in He as (i & [= <- <-] & _). apply Pmk; [apply cpos_wf', W|]. intros x Hx. apply C.
        unfold drop_nth in Hx. simpl in Hx. apply in_app_iff in Hx as [Hx|Hx].
        * rewrite <- (firstn_skipn i c). apply in_or_app; auto.
        * rewrite <- (firstn_skipn (1 + i) c). apply in_or_app; right; exact Hx.
    - pose proof (Pchange_inv _ _ _ H) as HI. apply in_map_iff in He as (br & <- & Hb).
      destruct br as [b|x]; [apply Pmkl; intros ? []|]. apply HI. destruct Hb as [->|[->|[]]]; auto.
  Qed.
  Lemma P_higher_kers e : In e (higher_kers offset) -> P e.
  Proof. intros [<-|[<-|[]]]; apply Pmkl; intros ? []. Qed.
  Lemma P_higher S e : P S -> In e (higher_curves offset S) -> P e.
  Proof.
    intros H He. destruct S as [[|] b c|o l r]; cbn [higher_curves] in He.
    - destruct (Pcomm_inv _ _ _ H) as [W C].
      assert (G : forall x, In x (map (fun ct => mk offset KSum (cpos b) (c ++ [ct])) (higher_kers offset)) -> P x).
      { intros x Hx. apply in_map_iff in Hx as (ct & <- & Hc). apply Pmk; [apply cpos_wf', W|]. apply Psnoc; [exact C|]. apply P_higher_kers, Hc. }
      destruct (chas (cpos b) bSE); [|auto]. apply in_map_iff in He as (x & <- & Hx). auto.
    - destruct (Pcomm_inv _ _ _ H) as [W C].
      assert (G : forall x, In x (map (fun d => mk offset KProd (cadd (cpos b) d) c)
          [[(bLIN, 2)]; [(bLIN, 3)]; (if chas (cpos b) bPER then [(bPER, 1)] else [(bPER, 2)])]) -> P x).
      { intros x Hx. apply in_map_iff in Hx as (d & <- & Hd). apply Pmk; [|exact C]. apply cpos_add_wf; [exact W|].
        destruct Hd as [<-|[<-|[<-|[]]]]; try apply nodup_single. destruct (chas (cpos b) bPER); apply nodup_single. }
      destruct (chas (cpos b) bSE); [|auto]. apply in_map_iff in He as (x & <- & Hx). auto.
    - pose proof (Pchange_inv _ _ _ H) as HI. apply in_app_iff in He as [He|He].
      + destruct l as [b|x]; [|destruct He]. apply in_map_iff in He as (ct & <- & Hc). apply Pchange.
        intros x [[= <-]|E]; [apply P_higher_kers, Hc|apply HI; auto].
      + destruct r as [b|x]; [|destruct He]. apply in_map_iff in He as (ct & <- & Hc). apply Pchange.
        intros x [E|[= <-]]; [apply HI; auto|apply P_higher_kers, Hc].
  Qed.
  Lemma P_rules_all bases noC r n g e : In r (rules_all offset bases noC) -> P n -> In g (r n) -> In e g -> P e.
  Proof.
    intros Hr Hn Hg He. cbn [rules_all In] in Hr.
    repeat (destruct Hr as [<-|Hr]); [..|destruct Hr];
      unfold plus_base, times_base, replace_base, change_new_base, change_same, change_point_linear, change_window_constant,
        change_window_linear, times_shifted_base, replace_with_singleton, remove_some_term, try_higher_curves in Hg;
      first [apply in_map_iff in Hg as (B & <- & HB) | destruct Hg as [<-|[]]].
    - eapply P_add_nested; [| |exact He]; [exact Hn|exact I].
    - eapply P_multiply_nested; [| |exact He]; [exact Hn|exact I].
    - eapply P_swap_base; eauto.
    - eapply P_both_changes; [| |exact He]; [exact Hn|exact I].
    - eapply P_both_changes; [| |exact He]; [exact Hn|exact I].
    - eapply P_one_change; [| |exact He]; [exact Hn|exact I].
    - eapply P_one_change; [| |exact He]; [exact Hn|exact I].
    - eapply P_one_change; [| |exact He]; [exact Hn|exact I].
    - eapply P_multiply_nested; [| |exact He]; [exact Hn|]. cbn [Pb]. apply Pmkl; intros ? [].
    - cbn [replace_node] in He. destruct He as [<-|[]]. apply Pmkl; intros ? [].
    - eapply P_remove; eauto.
    - eapply P_higher; eauto.
  Qed.
End RulesOk.

Lemma dict_del_wf c b : wf_counter c -> wf_counter (dict_del base_eqb c b).
Proof. intros [N W]. split; [apply nodup_filter, N|]. intros x n H. apply filter_In in H as [H _]. eauto. Qed.
Lemma cget_del c b x : nodup c -> cget (dict_del base_eqb c b) x = if base_eqb x b then 0 else cget c x.
Proof. intros N. unfold dict_del. rewrite cget_filter by exact N. cbn [fst]. destruct (base_eqb x b); reflexivity. Qed.
Lemma mk_wf offset k bts cts : wf_counter bts -> (forall c, In c cts -> wf c) -> wf (mk offset k bts cts).
Proof. intros W H. apply simplify_wf, wf_comm. auto. Qed.
Lemma mk_change_wf offset o l r : (forall x, l = inr x \/ r = inr x -> wf x) -> wf (mk_change offset o l r).
Proof. intros H. apply simplify_wf, wf_change. exact H. Qed.
Lemma del_se_wf e : wf e -> wf (del_se e).
Proof.
  destruct e as [k b c|]; [|auto]. intros W. apply wf_comm in W as [Wb Wc]. apply wf_comm. split; [|exact Wc].
  apply dict_del_wf, Wb.
Qed.
Lemma del_se_pnf offset e : pnf offset e -> pnf offset (del_se e).
Proof.
  destruct e as [k b c|]; [|auto]. intros (W & Hc & Hk). split; [apply dict_del_wf, W|]. split; [|exact Hk].
  pose proof (wf_nodup _ W) as N. destruct k; cbn [cardinality] in *; rewrite ?cget_del by exact N.
  - cbn [base_eqb]. exact Hc.
  - cbn [base_eqb]. destruct Hc as (H1 & H2 & H3 & H4). split; [|split; [lia|split; [exact H3|]]].
    + intros HW; apply H1 in HW; tauto.
    + intros HC. destruct (H4 HC) as [H5 H6]. split; [exact H5|].
      intros b0 Hb Hs. rewrite cget_del by exact N. destruct (base_eqb b0 bSE); [reflexivity|]. apply H6; assumption.
Qed.
Definition groups (offset : bool) : list (list base -> list base -> list rule) :=
  [rules_all offset; rules_default offset; rules_original offset; rules_minimal offset].
Lemma groups_incl offset G bases noC r : In G (groups offset) -> In r (G bases noC) -> In r (rules_all offset bases noC).
Proof.
  intros HG Hr. cbn [groups In] in HG. destruct HG as [<-|[<-|[<-|[<-|[]]]]]; [exact Hr|..];
    cbn [rules_default rules_original rules_minimal rules_all In] in *; tauto.
Qed.
Lemma rules_all_wf offset bases noC r n g e : In r (rules_all offset bases noC) -> wf n -> In g (r n) -> In e g -> wf e.
Proof.
  apply (P_rules_all offset wf).
  - apply mk_wf.
  - apply mk_change_wf.
  - intros k b c W. exact (proj1 (wf_comm k b c) W).
  - intros o l r0 W. exact (proj1 (wf_change o l r0) W).
  - apply del_se_wf.
Qed.
Lemma rules_all_pnf offset bases noC r n g e : In r (rules_all offset bases noC) -> pnf offset n -> In g (r n) -> In e g -> pnf offset e.
Proof.
  apply (P_rules_all offset (pnf offset)).
  - intros; apply mk_pnf; assumption.
  - apply mk_change_pnf.
  - intros k b c (W & _ & H). split; [exact W|]. intros x Hx. apply normal_pnf, H, Hx.
  - intros o l r0 H x Hx. eapply pnf_node; [exact H|]. destruct Hx as [->| ->]; [apply node_left|apply node_right]; constructor.
  - apply del_se_pnf.
Qed.
Lemma groups_wf offset G bases noC : In G (groups offset) -> wf_rules (G bases noC).
Proof. intros HG n new W (r & g & Hr & Hg & Hn). eapply rules_all_wf; eauto. eapply groups_incl; eauto. Qed.

(** ** Where replacements go *)
Lemma in_set_nth {A} (x c : A) i l : In x (firstn i l ++ c :: skipn (S i) l) -> x = c \/ In x l.
Proof.
  intros H. apply in_app_iff in H as [H|[<-|H]]; [right|left; auto|right].
  - rewrite <- (firstn_skipn i l). apply in_or_app; auto.
  - rewrite <- (firstn_skipn (S i) l). apply in_or_app; auto.
Qed.
Lemma lreord_sym l m : lreord l m -> lreord m l.
Proof.
  intros (m' & P & F). assert (F' : Forall2 reord m' l) by (eapply Forall2_sym_in; [exact F|]; intros; apply reord_sym; auto).
  destruct (Forall2_perm_l reord m' m l F' (Permutation_sym P)) as (l' & Pl & Fl). exists l'. auto.
Qed.
Lemma lreord_trans l m n : lreord l m -> lreord m n -> lreord l n.
Proof.
  intros (m' & P & F) (n' & Q & G). destruct (Forall2_perm_l reord m m' n' G P) as (n'' & Pn & Gn).
  exists n''. split; [etransitivity; eauto|]. eapply Forall2_trans_in; [exact F|exact Gn|]. intros; eapply reord_trans; eauto.
Qed.
Lemma lreord_cons x y l m : reord x y -> lreord l m -> lreord (x :: l) (y :: m).
Proof. intros R (m' & P & F). exists (y :: m'). auto. Qed.
Lemma remove_eq_lreord cts i c : nth_error cts i = Some c -> lreord (remove_eq c cts) (firstn i cts ++ skipn (S i) cts).
Proof.
  intros H. apply nth_error_split in H as (l1 & l2 & -> & <-).
  assert (E : firstn (length l1) (l1 ++ c :: l2) ++ skipn (S (length l1)) (l1 ++ c :: l2) = l1 ++ l2).
  { rewrite firstn_app, Nat.sub_diag, firstn_O, firstn_all, app_nil_r, skipn_app, skipn_all2 by lia.
    replace (S (length l1) - length l1)%nat with 1%nat by lia. reflexivity. }
  rewrite E. unfold remove_eq. destruct (list_remove (fun y => keq y c) (l1 ++ c :: l2)) as [r|] eqn:R.
  - destruct (list_remove_perm _ _ _ R) as (x & Hx & Hin & P). apply keq_spec in Hx.
    rewrite <- Permutation_middle in P. assert (Hc : In c (x :: r)) by (eapply Permutation_in; [exact P|left; auto]).
    destruct Hc as [->|Hc].
    + apply lreord_perm. symmetry. eapply Permutation_cons_inv, P.
    + apply in_split in Hc as (r1 & r2 & ->).
      apply lreord_trans with (c :: r1 ++ r2); [apply lreord_perm; symmetry; apply Permutation_middle|].
      apply lreord_trans with (x :: r1 ++ r2); [apply lreord_cons; [apply reord_sym, Hx|apply lreord_refl]|].
      apply lreord_perm. symmetry. apply Permutation_cons_inv with c. rewrite P.
      rewrite <- Permutation_middle. apply perm_swap.
  - exfalso. rewrite list_remove_none in R. specialize (R c). rewrite keq_refl in R. assert (true = false); [|discriminate].
    apply R. apply in_or_app; right; left; auto.
Qed.
Lemma occs_comm_in offset k bts cts n f : In (n, f) (occs_below offset (Comm k bts cts)) <->
  exists i c, nth_error cts i = Some c /\
    ((n, f) = (c, fun x => Comm k bts (remove_eq c cts ++ [x]))
     \/ exists g, In (n, g) (occs_below offset c) /\ f = fun x => Comm k bts (set_nth i cts (g x))).
Proof.
  cbn [occs_below]. rewrite in_concat.
  assert (Hc : forall ls i c os, In (i, (c, os)) (combine (seq 0 (length cts)) (map (fun c => (c, occs_below offset c)) ls)) -> length ls = length cts ->
             nth_error ls i = Some c /\ os = occs_below offset c).
  { intros ls i c os H L.
    assert (G : forall s m, In (i, (c, os)) (combine (seq s (length m)) (map (fun c => (c, occs_below offset c)) m)) ->
                (s <= i)%nat /\ nth_error m (i - s) = Some c /\ os = occs_below offset c).
    { intros s m; revert s; induction m as [|y m IH]; intros s Hi; [destruct Hi|]. cbn in Hi. destruct Hi as [[= <- <- <-]|Hi].
      - rewrite Nat.sub_diag. auto.
      - apply IH in Hi as (Hs & Hn & Ho). split; [lia|]. split; [|exact Ho]. replace (i - s)%nat with (S (i - S s)) by lia. exact Hn. }
    rewrite <- L in H. apply G in H as (_ & H & Ho). rewrite Nat.sub_0_r in H. auto. }
  split.
  - intros (os & Ho & H). apply in_map_iff in Ho as ([i [c o]] & <- & Hi). apply Hc in Hi as [Hi ->]; [|reflexivity].
    exists i, c. split; [exact Hi|]. cbn [fst snd] in H. destruct H as [H|H]; [left; symmetry; exact H|right].
    apply in_map_iff in H as ([n' g] & [= <- <-] & H). eauto.
  - intros (i & c & Hi & H).
    assert (Hin : In (i, (c, occs_below offset c)) (combine (seq 0 (length cts)) (map (fun c => (c, occs_below offset c)) cts))).
    { assert (G : forall s m j, nth_error m j = Some c ->
        In ((s + j)%nat, (c, occs_below offset c)) (combine (seq s (length m)) (map (fun c => (c, occs_below offset c)) m))).
      { intros s m; revert s; induction m as [|y m IH]; intros s j Hj; [destruct j; discriminate|]. destruct j as [|j]; cbn.
        - injection Hj as ->. left. f_equal. lia.
        - right. replace (s + S j)%nat with (S s + j)%nat by lia. apply IH, Hj. }
      apply (G 0%nat cts i Hi). }
    eexists. split; [apply in_map, Hin|]. cbn [fst snd]. destruct H as [H|(g & H & ->)]; [left; symmetry; exact H|right].
    apply in_map_iff. exists (n, g). auto.
Qed.
Definition branch_occs offset (mkb : kex -> kex) (mkleaf : kex -> kex) (br : branch) : list (kex * (kex -> kex)) :=
  match br with
  | inl b => [(mkl offset KSum [b] [], mkleaf)]
  | inr x => (x, mkb) :: map (fun xf => (fst xf, fun n => mkb (snd xf n))) (occs_below offset x)
  end.
Lemma occs_change offset o l r : occs_below offset (Change o l r)
  = branch_occs offset (fun n => Change o (inr n) r) (fun n => Change o l (inr n)) l
    ++ branch_occs offset (fun n => Change o l (inr n)) (fun n => Change o l (inr n)) r.
Proof. reflexivity. Qed.

(** What is known of a context. *)
Definition ctx_ok (e : kex) (p : addr) (n : kex) (f : kex -> kex) : Prop :=
  at_addr e p = Some n /\ forall new, exists t, replace_addr e (target e p) new = Some t /\ reord (f new) t /\ (wf e -> wf new -> wf (f new)).
Lemma ctx_ok_comm_here k bts cts i c : nth_error cts i = Some c ->
  ctx_ok (Comm k bts cts) [i] c (fun x => Comm k bts (remove_eq c cts ++ [x])).
Proof.
  intros H. split; [cbn [at_addr child]; rewrite H; reflexivity|]. intros new.
  cbn [target child]. rewrite H. cbn [target replace_addr child]. rewrite H. eexists. split; [reflexivity|]. split.
  2:{ intros W Wn. apply wf_comm in W as [Wb Wc]. apply wf_comm. split; [exact Wb|]. intros x Hx. apply in_app_iff in Hx as [Hx|[<-|[]]]; [|exact Wn].
      apply Wc. unfold remove_eq in Hx. destruct (list_remove (fun y => keq y c) cts) as [l|] eqn:R; [|exact Hx].
      destruct (list_remove_perm _ _ _ R) as (y & _ & _ & Py). eapply Permutation_in; [symmetry; exact Py|right; exact Hx]. }
  apply reord_comm_iff. split; [intros x; reflexivity|].
  apply lreord_trans with ((firstn i cts ++ skipn (S i) cts) ++ [new]).
  - apply lreord_app; [apply remove_eq_lreord, H|apply lreord_refl].
  - apply lreord_perm. rewrite <- app_assoc. apply Permutation_app_head. symmetry. apply Permutation_cons_append.
Qed.
Lemma ctx_ok_comm k bts cts i c q n g : nth_error cts i = Some c -> ctx_ok c q n g ->
  ctx_ok (Comm k bts cts) (i :: q) n (fun x => Comm k bts (set_nth i cts (g x))).
Proof.
  intros H [Ha Hr]. split; [cbn [at_addr child]; rewrite H; exact Ha|]. intros new. destruct (Hr new) as (t & Ht & R & HW).
  cbn [target child]. rewrite H. cbn [replace_addr child]. rewrite H, Ht. eexists. split; [reflexivity|]. split.
  2:{ intros W Wn. apply wf_comm in W as [Wb Wc]. apply wf_comm. split; [exact Wb|]. intros x Hx. unfold set_nth in Hx.
      apply in_set_nth in Hx as [->|Hx]; [|auto]. apply HW; [apply Wc; eapply nth_error_In, H|exact Wn]. }
  apply reord_comm_iff. split; [intros x; reflexivity|]. unfold set_nth. apply lreord_app; [apply lreord_refl|]. apply lreord_cons; [exact R|apply lreord_refl].
Qed.
Lemma ctx_ok_left o x r q n g : ctx_ok x q n g -> ctx_ok (Change o (inr x) r) (0%nat :: q) n (fun a => Change o (inr (g a)) r).
Proof.
  intros [Ha Hr]. split; [exact Ha|]. intros new. destruct (Hr new) as (t & Ht & R & HW). cbn [target child replace_addr]. rewrite Ht.
  eexists. split; [reflexivity|]. split.
  2:{ intros W Wn. rewrite wf_change in W. apply wf_change. intros y [[= <-]|Hy]; [apply HW; auto|auto]. }
  constructor; [constructor; exact R|]. destruct r; constructor; apply reord_refl.
Qed.
Lemma ctx_ok_right o x l q n g : ctx_ok x q n g -> ctx_ok (Change o l (inr x)) (1%nat :: q) n (fun a => Change o l (inr (g a))).
Proof.
  intros [Ha Hr]. split; [exact Ha|]. intros new. destruct (Hr new) as (t & Ht & R & HW).
  exists (Change o l (inr t)). split.
  - destruct l; cbn [target child replace_addr]; rewrite Ht; reflexivity.
  - split; [constructor; [destruct l; constructor; apply reord_refl|constructor; exact R]|].
    intros W Wn. rewrite wf_change in W. apply wf_change. intros y [Hy|[= <-]]; [auto|apply HW; auto].
Qed.
Lemma ctx_ok_here e : ctx_ok e [] e (fun n => n).
Proof. split; [reflexivity|]. intros new. exists new. split; [reflexivity|]. split; [apply reord_refl|auto]. Qed.
Lemma ctx_ok_leaf_left o b r : ctx_ok (Change o (inl b) r) [0%nat] (Comm KSum [(b, 1)] []) (fun n => Change o (inl b) (inr n)).
Proof.
  split; [reflexivity|]. intros new. exists (Change o (inl b) (inr new)). split; [destruct r; reflexivity|].
  split; [apply reord_refl|]. intros W Wn. apply wf_change. intros y [E|[= <-]]; [discriminate|exact Wn].
Qed.
Lemma ctx_ok_leaf_right o l b : ctx_ok (Change o l (inl b)) [1%nat] (Comm KSum [(b, 1)] []) (fun n => Change o l (inr n)).
Proof. split; [reflexivity|]. intros new. exists (Change o l (inr new)). split; [destruct l; reflexivity|].
  split; [apply reord_refl|]. intros W Wn. rewrite wf_change in W. apply wf_change. intros y [E|[= <-]]; [auto|exact Wn]. Qed.

Section Occs.
  Variable offset : bool.
  Lemma occs_below_sound e : forall n f, In (n, f) (occs_below offset e) -> exists p, ctx_ok e p n f.
  Proof.
    induction e as [k bts cts IH|o l r IHl IHr] using kex_ind'; intros n f H.
    - apply occs_comm_in in H as (i & c & Hi & [[= -> ->]|(g & Hg & ->)]).
      + exists [i]. apply ctx_ok_comm_here, Hi.
      + destruct (IH c (nth_error_In _ _ Hi) n g Hg) as (q & Hq). exists (i :: q). eapply ctx_ok_comm; eauto.
    - rewrite occs_change in H. apply in_app_iff in H as [H|H].
      + destruct l as [b|x]; cbn [branch_occs] in H.
        * destruct H as [[= <- <-]|[]]. rewrite mkl_leaf. exists [0%nat]. apply ctx_ok_leaf_left.
        * destruct H as [[= <- <-]|H].
          -- exists [0%nat]. exact (ctx_ok_left o x r [] x (fun n => n) (ctx_ok_here x)).
          -- apply in_map_iff in H as ([n' g] & [= <- <-] & H). destruct (IHl x eq_refl n' g H) as (q & Hq).
             exists (0%nat :: q). apply ctx_ok_left, Hq.
      + destruct r as [b|x]; cbn [branch_occs] in H.
        * destruct H as [[= <- <-]|[]]. rewrite mkl_leaf. exists [1%nat]. apply ctx_ok_leaf_right.
        * destruct H as [[= <- <-]|H].
          -- exists [1%nat]. exact (ctx_ok_right o x l [] x (fun n => n) (ctx_ok_here x)).
          -- apply in_map_iff in H as ([n' g] & [= <- <-] & H). destruct (IHr x eq_refl n' g H) as (q & Hq).
             exists (1%nat :: q). apply ctx_ok_right, Hq.
  Qed.
  Lemma occs_sound e n f : In (n, f) (occs offset e) -> exists p, ctx_ok e p n f.
  Proof. intros [[= <- <-]|H]; [exists []; apply ctx_ok_here|apply occs_below_sound, H]. Qed.
  Lemma occs_below_complete e : forall i q n, at_addr e (i :: q) = Some n -> exists f, In (n, f) (occs_below offset e) /\ ctx_ok e (i :: q) n f.
  Proof.
    induction e as [k bts cts IH|o l r IHl IHr] using kex_ind'; intros i q n H.
    - cbn [at_addr child] in H. destruct (nth_error cts i) as [c|] eqn:Hi; [|discriminate]. destruct q as [|j q].
      + injection H as ->. eexists. split; [apply occs_comm_in; exists i, n; split; [exact Hi|left; reflexivity]|]. apply ctx_ok_comm_here, Hi.
      + destruct (IH c (nth_error_In _ _ Hi) j q n H) as (g & Hg & Hok). eexists. split.
        * apply occs_comm_in. exists i, c. split; [exact Hi|]. right. exists g. split; [exact Hg|reflexivity].
        * eapply ctx_ok_comm; eauto.
    - rewrite occs_change. destruct i as [|[|i]]; [| |discriminate].
      + destruct l as [b|x]; cbn [at_addr child] in H.
        * destruct q as [|j q]; [|cbn in H; destruct j; discriminate]. injection H as <-.
          eexists. split; [apply in_or_app; left; cbn [branch_occs]; rewrite mkl_leaf; left; reflexivity|]. apply ctx_ok_leaf_left.
        * destruct q as [|j q].
          -- injection H as ->. eexists. split; [apply in_or_app; left; left; reflexivity|].
             exact (ctx_ok_left o n r [] n (fun n => n) (ctx_ok_here n)).
          -- destruct (IHl x eq_refl j q n H) as (g & Hg & Hok). eexists. split.
             ++ apply in_or_app; left; right. apply in_map_iff. exists (n, g). split; [reflexivity|exact Hg].
             ++ apply ctx_ok_left, Hok.
      + destruct r as [b|x]; cbn [at_addr child] in H.
        * destruct q as [|j q]; [|cbn in H; destruct j; discriminate]. injection H as <-.
          eexists. split; [apply in_or_app; right; cbn [branch_occs]; rewrite mkl_leaf; left; reflexivity|]. apply ctx_ok_leaf_right.
        * destruct q as [|j q].
          -- injection H as ->. eexists. split; [apply in_or_app; right; left; reflexivity|].
             exact (ctx_ok_right o n l [] n (fun n => n) (ctx_ok_here n)).
          -- destruct (IHr x eq_refl j q n H) as (g & Hg & Hok). eexists. split.
             ++ apply in_or_app; right; right. apply in_map_iff. exists (n, g). split; [reflexivity|exact Hg].
             ++ apply ctx_ok_right, Hok.
  Qed.
  Lemma occs_complete e p n : at_addr e p = Some n -> exists f, In (n, f) (occs offset e) /\ ctx_ok e p n f.
  Proof.
    destruct p as [|i q]; intros H.
    - injection H as ->. exists (fun x => x). split; [left; reflexivity|apply ctx_ok_here].
    - destruct (occs_below_complete e i q n H) as (f & Hf & Hok). exists f. split; [right; exact Hf|exact Hok].
  Qed.
End Occs.

(** Replacement preserves well-formedness and respects equality up to reordering. *)
Lemma wf_leaf b : wf (Comm KSum [(b, 1)] []).
Proof. apply wf_comm. split; [|intros ? []]. split; [repeat constructor; intros []|]. intros ? ? [[= <- <-]|[]]. lia. Qed.
Lemma child_wf e i c : wf e -> child e i = Some c -> wf c.
Proof.
  intros W. destruct e as [k b cts|o l r]; cbn [child].
  - intros H. apply nth_error_In in H. eapply wf_child; eauto.
  - rewrite wf_change in W. destruct i as [|[|i]]; [destruct l as [b|x]|destruct r as [b|x]|discriminate]; intros [= <-]; auto using wf_leaf.
Qed.
Lemma at_addr_wf p : forall e n, wf e -> at_addr e p = Some n -> wf n.
Proof.
  induction p as [|i q IH]; intros e n W H; cbn [at_addr] in H; [injection H as <-; exact W|].
  destruct (child e i) as [c|] eqn:E; [|discriminate]. eapply IH; [|exact H]. eapply child_wf; eauto.
Qed.
Lemma replace_wf p : forall e new t, wf e -> wf new -> replace_addr e p new = Some t -> wf t.
Proof.
  induction p as [|i q IH]; intros e new t W Wn H; cbn [replace_addr] in H; [injection H as <-; exact Wn|].
  destruct (child e i) as [c|] eqn:E; [|discriminate]. destruct (replace_addr c q new) as [c'|] eqn:R; [|discriminate].
  assert (Wc : wf c') by (eapply IH; [|exact Wn|exact R]; eapply child_wf; [exact W|exact E]).
  destruct e as [k b cts|o l r].
  - injection H as <-. apply wf_comm in W as [Wb Wk]. apply wf_comm. split; [exact Wb|]. intros x Hx.
    apply in_set_nth in Hx as [->|Hx]; auto.
  - rewrite wf_change in W. destruct i; injection H as <-; apply wf_change; intros x.
    + intros [[= <-]|Hx]; auto.
    + intros [Hx|[= <-]]; auto.
Qed.
Lemma replace_reord p : forall e a b ta tb, reord a b -> replace_addr e p a = Some ta -> replace_addr e p b = Some tb -> reord ta tb.
Proof.
  induction p as [|i q IH]; intros e a b ta tb R Ha Hb; cbn [replace_addr] in *; [injection Ha as <-; injection Hb as <-; exact R|].
  destruct (child e i) as [c|] eqn:E; [|discriminate].
  destruct (replace_addr c q a) as [ca|] eqn:Ra; [|discriminate]. destruct (replace_addr c q b) as [cb|] eqn:Rb; [|discriminate].
  assert (Rc : reord ca cb) by (eapply IH; eauto). destruct e as [k bts cts|o l r].
  - injection Ha as <-. injection Hb as <-. apply reord_comm_iff. split; [intros x; reflexivity|].
    apply lreord_app; [apply lreord_refl|]. apply lreord_cons; [exact Rc|apply lreord_refl].
  - assert (Rl : reord_branch l l) by (destruct l; constructor; apply reord_refl).
    assert (Rr : reord_branch r r) by (destruct r; constructor; apply reord_refl).
    destruct i; injection Ha as <-; injection Hb as <-; constructor; auto; constructor; exact Rc.
Qed.

(** ** expand *)
Lemma in_expand_node rules n new : In new (expand_node rules n) -> produced rules n new.
Proof.
  intros H. apply (unique_in keq keq_trans) in H. apply in_concat in H as (g & Hg & Hn). apply in_concat in Hg as (gs & Hgs & Hg).
  apply in_map_iff in Hgs as (r & <- & Hr). exists r, g. auto.
Qed.
Lemma expand_node_covers rules n new : produced rules n new -> exists y, In y (expand_node rules n) /\ keq y new = true.
Proof.
  intros (r & g & Hr & Hg & Hn). apply (unique_covers keq keq_refl).
  apply in_concat. exists g. split; [|exact Hn]. apply in_concat. exists (r n). split; [|exact Hg]. apply in_map_iff. exists r. auto.
Qed.
Section Expand.
  Variable offset : bool.
  Variable rules : list rule.
  Variable e : kex.
  Hypothesis We : wf e.
  Hypothesis Wr : wf_rules rules.

  Lemma expand_sound x : In x (expand offset rules e) ->
    exists p n new t, at_addr e p = Some n /\ produced rules n new /\ wf new /\ replace_addr e (target e p) new = Some t
      /\ wf t /\ reord x (standardise offset t) /\ wf x.
  Proof.
    intros H. unfold expand in H. apply (unique_in keq keq_trans) in H. apply in_map_iff in H as (y & <- & H).
    apply in_concat in H as (l & Hl & Hy). apply in_map_iff in Hl as ([n f] & <- & Hnf). cbn [fst snd] in Hy.
    apply in_map_iff in Hy as (new & <- & Hnew). apply in_expand_node in Hnew.
    destruct (occs_sound offset e n f Hnf) as (p & Ha & Hr). destruct (Hr new) as (t & Ht & R & HW).
    assert (Wn : wf new) by (eapply Wr; [|exact Hnew]; eapply at_addr_wf; eauto).
    assert (Wt : wf t) by (eapply replace_wf; [exact We|exact Wn|exact Ht]). specialize (HW We Wn).
    exists p, n, new, t. repeat (split; [assumption|]). split; [apply standardise_reord; assumption|apply standardise_wf, HW].
  Qed.
  Lemma expand_covers p n new : at_addr e p = Some n -> produced rules n new ->
    exists x t, In x (expand offset rules e) /\ replace_addr e (target e p) new = Some t /\ reord x (standardise offset t).
  Proof.
    intros Ha Hp. destruct (occs_complete offset e p n Ha) as (f & Hf & _ & Hr).
    destruct (expand_node_covers rules n new Hp) as (new' & Hin & Hk). apply keq_spec in Hk.
    destruct (Hr new') as (t' & Ht' & R' & HW'). destruct (Hr new) as (t & Ht & R & HW).
    assert (Wa : wf n) by (eapply at_addr_wf; eauto).
    assert (Wn : wf new) by (eapply Wr; eauto).
    assert (Wn' : wf new') by (eapply Wr; [exact Wa|apply in_expand_node, Hin]).
    destruct (unique_covers keq keq_refl (map (standardise offset)
      (concat (map (fun nf => map (snd nf) (expand_node rules (fst nf))) (occs offset e)))) (standardise offset (f new'))) as (x & Hx & Ex).
    { apply in_map, in_concat. exists (map f (expand_node rules n)). split; [|apply in_map, Hin].
      apply in_map_iff. exists (n, f). auto. }
    apply keq_spec in Ex. exists x, t. split; [exact Hx|]. split; [exact Ht|]. eapply reord_trans; [exact Ex|].
    assert (Wt : wf t) by (eapply replace_wf; [exact We|exact Wn|exact Ht]).
    apply standardise_reord; auto. eapply reord_trans; [exact R'|]. eapply replace_reord; [exact Hk|exact Ht'|exact Ht].
  Qed.
End Expand.

Lemma expand_different offset rules e : pairwise_different (expand offset rules e).
Proof.
  unfold expand. set (l := map _ _). pose proof (unique_distinct keq l) as D.
  generalize dependent (unique keq l). clear. intros l D.
  assert (G : forall i j x y, (i < j)%nat -> nth_error l i = Some x -> nth_error l j = Some y -> keq x y = false).
  { induction D as [|a l Ha D IH]; intros i j x y Hij Hi Hj; [destruct i; discriminate|].
    destruct j as [|j]; [lia|]. destruct i as [|i].
    - injection Hi as ->. rewrite Forall_forall in Ha. apply Ha. eapply nth_error_In, Hj.
    - eapply (IH i j); eauto. lia. }
  intros i j x y Hne Hi Hj. destruct (Nat.lt_total i j) as [H|[H|H]]; [eapply G; eauto|contradiction|].
  rewrite keq_sym. eapply G; eauto.
Qed.

(** C16 *)
Lemma produced_perm offset G bases bases' noC noC' n new : In G (groups offset) ->
  Permutation bases bases' -> Permutation noC noC' -> produced (G bases noC) n new -> produced (G bases' noC') n new.
Proof.
  intros HG Pb Pc (r & g & Hr & Hg & Hn). assert (Hm : forall (F : base -> list kex) l l', Permutation l l' -> In g (map F l) -> In g (map F l')).
  { intros F l l' P H. eapply Permutation_in; [apply Permutation_map, P|exact H]. }
  unfold produced.
  assert (Q : forall r1 r2 : rule, r = r1 -> In r2 (G bases' noC') -> (In g (r1 n) -> In g (r2 n)) ->
     exists r0 group, In r0 (G bases' noC') /\ In group (r0 n) /\ In new group).
  { intros r1 r2 -> H2 H12. exists r2, g. auto. }
  cbn [groups In] in HG.
  destruct HG as [<-|[<-|[<-|[<-|[]]]]]; cbn [rules_all rules_default rules_original rules_minimal In] in *;
    repeat (destruct Hr as [<-|Hr]); try destruct Hr.
  all: first
    [ refine (Q _ (plus_base offset bases') eq_refl _ _); [tauto|unfold plus_base; apply Hm; assumption]
    | refine (Q _ (times_base offset noC') eq_refl _ _); [tauto|unfold times_base; apply Hm; assumption]
    | refine (Q _ (replace_base offset bases') eq_refl _ _); [tauto|unfold replace_base; apply Hm; assumption]
    | refine (Q _ (change_new_base offset noC') eq_refl _ _); [tauto|unfold change_new_base; apply Hm; assumption]
    | refine (Q _ (times_shifted_base offset noC') eq_refl _ _); [tauto|unfold times_shifted_base; apply Hm; assumption]
    | refine (Q _ (replace_with_singleton offset bases') eq_refl _ _); [tauto|unfold replace_with_singleton; apply Hm; assumption]
    | refine (Q _ (change_same offset) eq_refl _ _); [tauto|exact (fun H => H)]
    | refine (Q _ (change_point_linear offset) eq_refl _ _); [tauto|exact (fun H => H)]
    | refine (Q _ (change_window_constant offset) eq_refl _ _); [tauto|exact (fun H => H)]
    | refine (Q _ (change_window_linear offset) eq_refl _ _); [tauto|exact (fun H => H)]
    | refine (Q _ (remove_some_term offset) eq_refl _ _); [tauto|exact (fun H => H)]
    | refine (Q _ (try_higher_curves offset) eq_refl _ _); [tauto|exact (fun H => H)] ].
Qed.
Lemma expand_incl offset e G bases bases' noC noC' : wf e -> In G (groups offset) ->
  Permutation bases bases' -> Permutation noC noC' ->
  forall x, In x (expand offset (G bases noC) e) -> exists y, In y (expand offset (G bases' noC') e) /\ keq x y = true.
Proof.
  intros W HG Pb Pc x Hx. destruct (expand_sound offset (G bases noC) e W (groups_wf offset G bases noC HG) x Hx)
    as (p & n & new & t & Ha & Hp & Wn & Ht & Wt & R & _).
  destruct (expand_covers offset (G bases' noC') e W (groups_wf offset G bases' noC' HG) p n new Ha) as (y & t' & Hy & Ht' & R').
  { eapply produced_perm; eauto. }
  exists y. split; [exact Hy|]. apply keq_spec. rewrite Ht in Ht'. injection Ht' as <-. eapply reord_trans; [exact R|apply reord_sym, R'].
Qed.
Lemma expand_order offset e G bases bases' noC noC' : wf e -> In G (groups offset) ->
  Permutation bases bases' -> Permutation noC noC' ->
  same_up_to_eq (expand offset (G bases noC) e) (expand offset (G bases' noC') e).
Proof.
  intros W HG Pb Pc. split.
  - eapply expand_incl; eauto.
  - intros y Hy. destruct (expand_incl offset e G bases' bases noC' noC W HG (Permutation_sym Pb) (Permutation_sym Pc) y Hy) as (x & Hx & E).
    exists x. split; [exact Hx|]. rewrite keq_sym. exact E.
Qed.

(** C17 *)
Lemma expand_actual offset rules e : wf e -> wf_rules rules ->
  (forall x, In x (expand offset rules e) -> exists p n new t,
     at_addr e p = Some n /\ produced rules n new /\ replace_addr e (target e p) new = Some t /\ keq x (standardise offset t) = true)
  /\ (forall p n new, at_addr e p = Some n -> produced rules n new -> exists x t,
     In x (expand offset rules e) /\ replace_addr e (target e p) new = Some t /\ keq x (standardise offset t) = true).
Proof.
  intros W Wr. split.
  - intros x Hx. destruct (expand_sound offset rules e W Wr x Hx) as (p & n & new & t & Ha & Hp & _ & Ht & _ & R & _).
    exists p, n, new, t. rewrite keq_spec. auto.
  - intros p n new Ha Hp. destruct (expand_covers offset rules e W Wr p n new Ha Hp) as (x & t & Hx & Ht & R).
    exists x, t. rewrite keq_spec. auto.
Qed.
Lemma child_node e i c : child e i = Some c -> node c e \/ exists b, c = Comm KSum [(b, 1)] [].
Proof.
  destruct e as [k b cts|o l r]; cbn [child].
  - intros H. apply nth_error_In in H. left. eapply node_comm; [exact H|constructor].
  - destruct i as [|[|i]]; [destruct l as [b|x]|destruct r as [b|x]|discriminate]; intros [= <-]; eauto.
    + left. apply node_left. constructor.
    + left. apply node_right. constructor.
Qed.
Lemma no_left_child e i c : no_left_string e -> child e i = Some c -> no_left_string c.
Proof.
  intros H Hc o b r Hn. apply child_node in Hc as [Hc|(b' & ->)].
  - eapply H. eapply node_trans; eauto.
  - apply node_comm_inv in Hn as [E|(x & [] & _)]. discriminate.
Qed.
Lemma target_id p : forall e, no_left_string e -> target e p = p.
Proof.
  induction p as [|i q IH]; intros e H; [reflexivity|].
  assert (G : match child e i with Some c => i :: target c q | None => i :: q end = i :: q).
  { destruct (child e i) as [c|] eqn:E; [|reflexivity]. f_equal. apply IH. eapply no_left_child; eauto. }
  destruct e as [k b cts|o [b|x] r]; cbn [target]; try exact G.
  exfalso. eapply H. constructor.
Qed.
Lemma expand_only_node offset rules e : wf e -> wf_rules rules -> no_left_string e ->
  (forall x, In x (expand offset rules e) -> exists p n new t,
     at_addr e p = Some n /\ produced rules n new /\ replace_addr e p new = Some t /\ keq x (standardise offset t) = true)
  /\ (forall p n new, at_addr e p = Some n -> produced rules n new -> exists x t,
     In x (expand offset rules e) /\ replace_addr e p new = Some t /\ keq x (standardise offset t) = true).
Proof.
  intros W Wr Hl. destruct (expand_actual offset rules e W Wr) as [S C]. split.
  - intros x Hx. destruct (S x Hx) as (p & n & new & t & Ha & Hp & Ht & E). rewrite target_id in Ht by exact Hl. eauto 8.
  - intros p n new Ha Hp. destruct (C p n new Ha Hp) as (x & t & Hx & Ht & E). rewrite target_id in Ht by exact Hl. eauto.
Qed.

(** C18 *)
Section Normal.
  Variable offset : bool.
  Lemma composite_singleton_single e : composite_singleton e -> singleton e.
  Proof. intros (k & c & ->). exists k, [], [c]. auto. Qed.
  Lemma simp_node_normal k bts cts : wf_counter bts ->
    (forall c, In c cts -> normal offset c /\ ~ composite_singleton c) -> normal offset (simp_node offset k bts cts).
  Proof.
    intros W H. destruct (simp_node_spec offset k bts cts) as (ns & _ & _ & E). cbv zeta in E. rewrite E. clear E.
    set (hb := absorb_bts offset k bts (filter (is_kind k) cts) ns).
    assert (Wb : wf_counter hb) by (apply absorb_bts_wf, W).
    apply normal_iff. split; [|split].
    - apply simp_base_wf, simp_base_nodup, cupdate_list_nodup, wf_nodup, Wb.
    - apply simp_base_card; [apply simp_base_nodup, cupdate_list_nodup, wf_nodup, Wb|apply simp_base_nonneg, cupdate_list_nodup, wf_nodup, Wb].
    - intros c Hc. apply kexs_of_in in Hc. apply in_map_iff in Hc as (x & Ex & Hx).
      destruct (raised_normal offset k cts x (fun c Hc => proj1 (H c Hc)) Hx) as [Nx Kx].
      assert (NS : ~ composite_singleton x).
      { unfold raised in Hx. apply in_app_iff in Hx as [Hx|Hx].
        - apply filter_In in Hx as [Hx _]. apply H, Hx.
        - apply in_concat in Hx as (l & Hl & Hx). apply in_map_iff in Hl as (h & <- & Hh). apply filter_In in Hh as [Hh _].
          intros HS. apply composite_singleton_single in HS. destruct (H h Hh) as [Nh _]. destruct h as [k' b' c'|]; [|destruct Hx].
          apply normal_iff in Nh as (_ & _ & Nh). apply (Nh x Hx); assumption. }
      destruct x as [k' b' c'|o l r]; [|injection Ex as <-; repeat split; auto; apply not_singleton_change].
      destruct (extract_spec k' b' c' (normal_wf_top offset _ Nx)) as [(b & -> & -> & E')|[(y & -> & -> & E')|(T & E')]]; rewrite E' in Ex.
      + discriminate.
      + exfalso. apply NS. exists k', y. reflexivity.
      + injection Ex as <-. repeat split; auto. rewrite singleton_comm. exact T.
  Qed.
  Lemma child_normal e i c : normal offset e -> child e i = Some c -> normal offset c.
  Proof.
    intros N H. destruct (child_node e i c H) as [Hn|(b & ->)]; [eapply normal_node_of; eauto|].
    apply normal_iff. split; [exact (proj1 (proj1 (wf_comm _ _ _) (wf_leaf b)))|]. split; [|intros ? []].
    cbn [cardinality length]. rewrite !cget_cons. change (forall x, cget [] x = 0) with (forall x, cget [] x = 0). unfold cget; cbn [dict_get].
    destruct b; cbn [base_eqb]; lia.
  Qed.
  Lemma replace_normal p : forall e new t, normal offset e -> pnf offset new -> replace_addr e p new = Some t ->
    no_lone_composite offset t p -> normal offset (simplify offset t).
  Proof.
    induction p as [|i q IH]; intros e new t N Pn H HC; cbn [replace_addr] in H; [injection H as <-; apply pnf_simplify, Pn|].
    destruct (child e i) as [c|] eqn:E; [|discriminate]. destruct (replace_addr c q new) as [c'|] eqn:R; [|discriminate].
    assert (Hc' : child t i = Some c').
    { destruct e as [k b cts|o l r]; cbn [child] in E.
      - injection H as <-. cbn [child]. rewrite nth_error_app2 by (rewrite firstn_length; lia).
        assert (i < length cts)%nat by (apply nth_error_Some; congruence).
        rewrite firstn_length, Nat.min_l, Nat.sub_diag by lia. reflexivity.
      - destruct i as [|[|i]]; [| |discriminate]; injection H as <-; reflexivity. }
    assert (Nc : normal offset (simplify offset c')).
    { eapply IH; [eapply child_normal; eauto|exact Pn|exact R|]. intros q1 r1 s Eq Hne Hs. apply (HC (i :: q1) r1 s).
      - rewrite Eq. reflexivity.
      - discriminate.
      - cbn [at_addr]. rewrite Hc'. exact Hs. }
    assert (NCc : ~ composite_singleton (simplify offset c')).
    { apply (HC [i] q c'); [reflexivity|discriminate|]. cbn [at_addr]. rewrite Hc'. reflexivity. }
    apply normal_iff in N. destruct e as [k b cts|o l r].
    - injection H as <-. destruct N as (W & _ & Hk). cbn [simplify]. apply simp_node_normal; [exact W|].
      intros x Hx. apply in_map_iff in Hx as (y & <- & Hy). apply in_set_nth in Hy as [->|Hy]; [auto|].
      destruct (Hk y Hy) as (Ny & NSy & _). rewrite (normal_fix offset y Ny). split; [exact Ny|].
      intros HS. apply NSy, composite_singleton_single, HS.
    - assert (Hb : forall x, l = inr x \/ r = inr x -> normal offset (simplify offset x)).
      { intros x Hx. destruct (N x Hx) as [Nx _]. rewrite normal_fix; exact Nx. }
      assert (G : pnf offset (simplify offset t)).
      { destruct i; injection H as <-; apply pnf_change; intros x Ex; try (injection Ex as <-; exact Nc); auto. }
      destruct i; injection H as <-; apply normal_iff; exact G.
  Qed.
  Lemma leaf_normal b : normal offset (Comm KSum [(b, 1)] []).
  Proof. apply (child_normal (Change CP (inl b) (inl b)) 0); [|reflexivity]. apply normal_iff. intros x [E|E]; discriminate. Qed.
  Lemma standardise_normal t : wf t -> normal offset (simplify offset t) -> normal offset (standardise offset t).
  Proof.
    intros W N. rewrite (standardise_unfold offset t W). destruct (simplify offset t) as [k b c|o l r]; [|exact N].
    destruct (extract (Comm k b c)) as [x|x] eqn:E; [rewrite mkl_leaf; apply leaf_normal|].
    destruct (is_singleton b c) eqn:S; [|exact N].
    pose proof N as N'. apply normal_iff in N' as (Wb & _ & Hk). pose proof (extract_single k b c x Wb E S) as ->.
    destruct (Hk x (or_introl eq_refl)) as (Nx & NSx & _).
    rewrite (standardise_unfold offset x (normal_wf offset x Nx)), (normal_fix offset x Nx).
    destruct x as [k' b' c'|]; [|exact Nx].
    destruct (extract_spec k' b' c' (normal_wf_top offset _ Nx)) as [(y & -> & -> & E')|[(y & -> & -> & E')|(T & E')]].
    - exfalso. apply NSx. exists k', [(y, 1)], []. split; [reflexivity|]. rewrite terms_bsum, bsum_expand, !cget_cons. destruct y; reflexivity.
    - exfalso. apply NSx. exists k', [], [y]. auto.
    - rewrite E'. destruct (is_singleton b' c') eqn:S'; [|exact Nx]. apply is_singleton_spec in S'; [tauto|apply (normal_wf_top offset _ Nx)].
  Qed.
  Lemma singleton_reord x y : singleton x -> reord x y -> singleton y.
  Proof.
    intros (k & b & c & -> & T) R. destruct y as [k' b' c'|]; [|inversion R]. assert (k' = k) as -> by (inversion R; auto).
    apply reord_comm_iff in R as [Hb Hl]. exists k, b', c'. split; [reflexivity|].
    rewrite terms_bsum, bsum_expand in *. rewrite <- !Hb, <- (lreord_length _ _ Hl). exact T.
  Qed.
  Lemma lreord_in_r l m y : lreord l m -> In y m -> exists x, In x l /\ reord x y.
  Proof. intros H Hy. apply lreord_sym in H. destruct (lreord_in m l y H Hy) as (x & Hx & R). exists x. split; [exact Hx|apply reord_sym, R]. Qed.
  Lemma cardinality_ceq k a b n : ceq a b -> cardinality offset k a n -> cardinality offset k b n.
  Proof.
    intros H C. destruct k; cbn [cardinality] in *; rewrite <- !H; [exact C|].
    destruct C as (H1 & H2 & H3 & H4). repeat split; try apply H1; try assumption; try apply H4; auto.
    intros x Hx Hs. rewrite <- H. apply H4; assumption.
  Qed.
  Lemma normal_reord a : forall b, normal offset a -> wf b -> reord a b -> normal offset b.
  Proof.
    induction a as [k bts cts IH|o l r IHl IHr] using kex_ind'; intros b N W R; apply normal_iff in N; apply normal_iff.
    - destruct b as [k' b' c'|]; [|inversion R]. assert (k' = k) as -> by (inversion R; auto).
      apply reord_comm_iff in R as [Hb Hl]. destruct N as (Wa & Ca & Ka). apply wf_comm in W as [Wb Wc].
      split; [exact Wb|]. split; [rewrite <- (lreord_length _ _ Hl); eapply cardinality_ceq; eauto|].
      intros y Hy. destruct (lreord_in_r cts c' y Hl Hy) as (x & Hx & Rx). destruct (Ka x Hx) as (Nx & Sx & Kx).
      split; [eapply IH; eauto|]. split; [|rewrite <- (reord_kind x y k Rx); exact Kx].
      intros Sy. apply Sx. eapply singleton_reord; [exact Sy|apply reord_sym, Rx].
    - destruct b as [|o' l' r']; [inversion R|]. apply reord_change_inv in R as (l2 & r2 & [= -> -> ->] & Rl & Rr).
      rewrite wf_change in W. intros y Hy. destruct Hy as [->| ->].
      + apply reord_branch_cases in Rl as [(x & _ & E)|(x & y' & -> & [= ->] & Rx)]; [discriminate|].
        destruct (N x (or_introl eq_refl)) as [Nx Sx]. split; [eapply IHl; eauto|].
        intros Sy. apply Sx. eapply singleton_reord; [exact Sy|apply reord_sym, Rx].
      + apply reord_branch_cases in Rr as [(x & _ & E)|(x & y' & -> & [= ->] & Rx)]; [discriminate|].
        destruct (N x (or_intror eq_refl)) as [Nx Sx]. split; [eapply IHr; eauto|].
        intros Sy. apply Sx. eapply singleton_reord; [exact Sy|apply reord_sym, Rx].
  Qed.
  Lemma at_addr_normal p : forall e n, normal offset e -> at_addr e p = Some n -> normal offset n.
  Proof.
    induction p as [|i q IH]; intros e n N H; cbn [at_addr] in H; [injection H as <-; exact N|].
    destruct (child e i) as [c|] eqn:E; [|discriminate]. eapply IH; [|exact H]. eapply child_normal; eauto.
  Qed.
  Lemma expand_normal G bases noC e x : In G (groups offset) -> normal offset e -> In x (expand offset (G bases noC) e) ->
    exists p n new t, at_addr e p = Some n /\ produced (G bases noC) n new /\ replace_addr e (target e p) new = Some t
      /\ keq x (standardise offset t) = true /\ (no_lone_composite offset t (target e p) -> normal offset x).
  Proof.
    intros HG N Hx. pose proof (normal_wf offset e N) as W.
    destruct (expand_sound offset (G bases noC) e W (groups_wf offset G bases noC HG) x Hx)
      as (p & n & new & t & Ha & Hp & Wn & Ht & Wt & R & Wx).
    exists p, n, new, t. rewrite keq_spec. repeat (split; [assumption|]). intros HC.
    eapply normal_reord; [|exact Wx|apply reord_sym, R]. apply standardise_normal; [exact Wt|].
    eapply replace_normal; [exact N| |exact Ht|exact HC]. destruct Hp as (r & g & Hr & Hg & Hn).
    eapply rules_all_pnf; [eapply groups_incl; eauto| |exact Hg|exact Hn]. apply normal_pnf. eapply at_addr_normal; eauto.
  Qed.
End Normal.

(** ** Start kernels (C20) *)
Lemma base_of_name_spec s b : base_of_name s = Some b <-> In (s, b) names.
Proof.
  unfold base_of_name, names.
  destruct (String.eqb_spec s "WN") as [->|H1]; [split; [intros [= <-]; simpl; auto|simpl; intuition congruence]|].
  destruct (String.eqb_spec s "C") as [->|H2]; [split; [intros [= <-]; simpl; auto|simpl; intuition congruence]|].
  destruct (String.eqb_spec s "LIN") as [->|H3]; [split; [intros [= <-]; simpl; auto|simpl; intuition congruence]|].
  destruct (String.eqb_spec s "SE") as [->|H4]; [split; [intros [= <-]; simpl; auto 6|simpl; intuition congruence]|].
  destruct (String.eqb_spec s "PER") as [->|H5]; [split; [intros [= <-]; simpl; auto 7|simpl; intuition congruence]|].
  split; [discriminate|]. simpl. intuition congruence.
Qed.
Lemma pseudo_ok offset p : recognised p -> exists e, meant p e /\ pseudo_to_real_kex offset p = Ok e.
Proof.
  destruct p as [s|e]; cbn [recognised meant pseudo_to_real_kex]; [|eauto]. intros (b & Hb).
  exists (Comm KSum [(b, 1)] []). split; [eauto|]. apply base_of_name_spec in Hb. rewrite Hb, mkl_leaf. reflexivity.
Qed.
Lemma pseudo_bad offset p : ~ recognised p -> pseudo_to_real_kex offset p = Raise EValueError.
Proof.
  destruct p as [s|e]; cbn [recognised pseudo_to_real_kex]; [|tauto]. intros H.
  destruct (base_of_name s) as [b|] eqn:E; [|reflexivity]. apply base_of_name_spec in E. exfalso; eauto.
Qed.
Lemma recognised_dec p : recognised p \/ ~ recognised p.
Proof.
  destruct p as [s|e]; cbn [recognised]; [|auto]. destruct (base_of_name s) as [b|] eqn:E.
  - left. exists b. apply base_of_name_spec, E.
  - right. intros (b & H). apply base_of_name_spec in H. congruence.
Qed.
Lemma make_simple_kexs_ok offset ps : (forall p, In p ps -> recognised p) ->
  exists l, make_simple_kexs offset ps = Ok l /\ Forall2 (fun p x => exists e, meant p e /\ x = initialise offset e) ps l.
Proof.
  unfold make_simple_kexs. induction ps as [|p ps IH]; intros H; [exists []; auto|].
  destruct (pseudo_ok offset p (H p (or_introl eq_refl))) as (e & He & E).
  destruct (IH (fun q Hq => H q (or_intror Hq))) as (l & El & F).
  exists (initialise offset e :: l). cbn [mapM]. rewrite E. cbn [rmap bind]. rewrite El. split; [reflexivity|]. constructor; eauto.
Qed.
Lemma make_simple_kexs_bad offset ps p : In p ps -> ~ recognised p -> make_simple_kexs offset ps = Raise EValueError.
Proof.
  unfold make_simple_kexs. induction ps as [|q ps IH]; [intros []|]. intros Hp Hr. cbn [mapM].
  destruct (recognised_dec q) as [Hq|Hq].
  - destruct (pseudo_ok offset q Hq) as (e & _ & E). rewrite E. cbn [rmap bind].
    destruct Hp as [->|Hp]; [contradiction|]. rewrite (IH Hp Hr). reflexivity.
  - rewrite (pseudo_bad offset q Hq). reflexivity.
Qed.
Lemma make_simple_kexs_normal offset ps l : (forall e, In (inr e) ps -> built offset e) -> make_simple_kexs offset ps = Ok l ->
  forall x, In x l -> normal offset x.
Proof.
  intros HB. assert (HR : forall p, In p ps -> recognised p \/ ~ recognised p) by (intros; apply recognised_dec).
  unfold make_simple_kexs. revert l. induction ps as [|p ps IH]; cbn [mapM]; intros l E x Hx; [injection E as <-; destruct Hx|].
  destruct (recognised_dec p) as [Hp|Hp]; [|rewrite (pseudo_bad offset p Hp) in E; discriminate].
  destruct (pseudo_ok offset p Hp) as (e & He & Ee). rewrite Ee in E. cbn [rmap bind] in E.
  destruct (mapM _ ps) as [l'|]; [|discriminate]. injection E as <-. destruct Hx as [<-|Hx].
  - apply initialise_normal. destruct p as [s|e']; cbn [meant] in He.
    + destruct He as (b & _ & ->). rewrite <- (mkl_leaf offset b). apply built_list. intros ? [].
    + subst. apply HB. left; auto.
  - apply (IH (fun e H => HB e (or_intror H)) (fun q H => HR q (or_intror H)) l' eq_refl x Hx).
Qed.
Lemma mapM_app {A B} (f : A -> res B) l1 l2 : mapM f (l1 ++ l2) = do a <- mapM f l1; do b <- mapM f l2; Ok (a ++ b).
Proof.
  induction l1 as [|x l1 IH]; cbn [mapM app bind]; [destruct (mapM f l2); reflexivity|].
  destruct (f x); [|reflexivity]. cbn [bind]. rewrite IH. destruct (mapM f l1); [|reflexivity]. cbn [bind]. destruct (mapM f l2); reflexivity.
Qed.
Lemma mapM_perm {A B} (f : A -> res B) l1 l2 : Permutation l1 l2 -> forall m1, mapM f l1 = Ok m1 -> exists m2, mapM f l2 = Ok m2 /\ Permutation m1 m2.
Proof.
  induction 1 as [|x l1 l2 P IH|x y l|l1 l2 l3 P1 IH1 P2 IH2]; intros m1 E.
  - exists m1. auto.
  - cbn [mapM] in *. destruct (f x); [|discriminate]. cbn [bind] in *. destruct (mapM f l1) as [m|]; [|discriminate]. injection E as <-.
    destruct (IH m eq_refl) as (m2 & -> & P2). exists (a :: m2). split; [reflexivity|auto].
  - cbn [mapM] in *. destruct (f x) as [a|], (f y) as [b|]; cbn [bind] in *; try discriminate.
    destruct (mapM f l) as [m|]; [|discriminate]. cbn [bind] in *. injection E as <-. eexists. split; [reflexivity|apply perm_swap].
  - destruct (IH1 m1 E) as (m2 & E2 & Q1). destruct (IH2 m2 E2) as (m3 & E3 & Q2). exists m3. split; [exact E3|etransitivity; eauto].
Qed.
Lemma pairwise_perm l m : Permutation l m -> pairwise_different l -> pairwise_different m.
Proof.
  intros P H i j x y Hne Hi Hj. apply Permutation_nth_error in P as (_ & f & Hf & E). rewrite E in Hi, Hj.
  apply (H (f i) (f j)); auto.
Qed.
Fixpoint all_different (l : list kex) : bool :=
  match l with [] => true | x :: t => forallb (fun y => negb (keq x y)) t && all_different t end.
Lemma all_different_spec l : all_different l = true -> pairwise_different l.
Proof.
  intros H.
  assert (G : forall i j x y, (i < j)%nat -> nth_error l i = Some x -> nth_error l j = Some y -> keq x y = false).
  { induction l as [|a l IH]; intros i j x y Hij Hi Hj; [destruct i; discriminate|].
    cbn [all_different] in H. apply andb_true_iff in H as [Ha Hl]. destruct j as [|j]; [lia|]. destruct i as [|i].
    - injection Hi as ->. rewrite forallb_forall in Ha. apply negb_true_iff, Ha. eapply nth_error_In, Hj.
    - eapply (IH Hl i j); eauto. lia. }
  intros i j x y Hne Hi Hj. destruct (Nat.lt_total i j) as [H1|[H1|H1]]; [eapply G; eauto|contradiction|].
  rewrite keq_sym. eapply G; eauto.
Qed.
Lemma built_leaf offset b : built offset (Comm KSum [(b, 1)] []).
Proof. rewrite <- (mkl_leaf offset b). apply built_list. intros ? []. Qed.
Lemma start_list_ok offset names0 names extra l0 :
  Permutation names0 names -> (forall e, In (inr e) extra -> built offset e) ->
  with_lin_c offset (make_simple_kexs offset (map inl names0 ++ extra)) = Ok l0 -> all_different l0 = true ->
  exists l, with_lin_c offset (make_simple_kexs offset (map inl names ++ extra)) = Ok l
            /\ pairwise_different l /\ forall x, In x l -> normal offset x.
Proof.
  intros P HB E D.
  assert (Pm : Permutation (map inl names0 ++ extra) (map (@inl string kex) names ++ extra)) by (apply Permutation_app_tail, Permutation_map, P).
  assert (HB' : forall e, In (inr e) (map (@inl string kex) names ++ extra) -> built offset e).
  { intros e He. apply in_app_iff in He as [He|He]; [apply in_map_iff in He as (? & ? & _); discriminate|auto]. }
  assert (HB2 : forall e : kex, In (inr e) [@inr string kex (mkl offset KSum [bLIN; bC] [])] -> built offset e).
  { intros e [[= <-]|[]]. apply built_list. intros ? []. }
  unfold with_lin_c in *. destruct offset.
  - destruct (mapM_perm _ _ _ Pm l0 E) as (l & El & Pl). exists l. split; [exact El|].
    split; [eapply pairwise_perm; [exact Pl|apply all_different_spec, D]|]. exact (make_simple_kexs_normal true _ l HB' El).
  - destruct (make_simple_kexs false (map inl names0 ++ extra)) as [a|] eqn:Ea; [|discriminate]. cbn [bind] in E.
    destruct (make_simple_kexs false [inr (mkl false KSum [bLIN; bC] [])]) as [b|] eqn:Eb; [|discriminate]. injection E as <-.
    destruct (mapM_perm _ _ _ Pm a Ea) as (l & El & Pl). fold (make_simple_kexs false (map inl names ++ extra)) in El.
    exists (l ++ b). rewrite El. split; [reflexivity|].
    split; [eapply pairwise_perm; [apply Permutation_app_tail, Pl|apply all_different_spec, D]|].
    intros x Hx. apply in_app_iff in Hx as [Hx|Hx];
      [exact (make_simple_kexs_normal false _ l HB' El x Hx)|exact (make_simple_kexs_normal false _ b HB2 Eb x Hx)].
Qed.
Definition default_names : list string := ["WN"; "C"; "LIN"; "PER"]%string.
Lemma start_extra_built offset e : In (inr e) (start_extra offset) -> built offset e.
Proof. intros [[= <-]|[[= <-]|[[= <-]|[]]]]; apply built_list; intros ? []. Qed.
Lemma lin_changes_built offset e : In e (both_changes offset (inl bLIN) None) -> built offset e.
Proof. intros [<-|[<-|[]]]; apply built_change; intros x [E|E]; discriminate. Qed.
Lemma start_default_ok offset names : Permutation default_names names ->
  exists l, start_default offset names = Ok l /\ pairwise_different l /\ forall x, In x l -> normal offset x.
Proof.
  intros P. unfold start_default.
  assert (HB : forall e, In (inr e) (start_extra offset ++ map inr (both_changes offset (inl bLIN) None)) -> built offset e).
  { intros e He. apply in_app_iff in He as [He|He]; [apply start_extra_built, He|].
    apply in_map_iff in He as (y & [= ->] & He). apply lin_changes_built, He. }
  destruct offset; (eapply start_list_ok; [exact P|exact HB|vm_compute; reflexivity|vm_compute; reflexivity]).
Qed.
Lemma start_extended_ok offset names : Permutation default_names names ->
  exists l, start_extended offset names = Ok l /\ pairwise_different l /\ forall x, In x l -> normal offset x.
Proof.
  intros P. unfold start_extended.
  assert (HB : forall e, In (inr e) (start_extra offset ++ map (fun ck => inr (mkl offset KSum [bC] [ck])) (both_changes offset (inl bLIN) None)) -> built offset e).
  { intros e He. apply in_app_iff in He as [He|He]; [apply start_extra_built, He|].
    apply in_map_iff in He as (y & [= <-] & He). apply built_list. intros c [<-|[]]. apply lin_changes_built, He. }
  destruct offset; (eapply start_list_ok; [exact P|exact HB|vm_compute; reflexivity|vm_compute; reflexivity]).
Qed.
Lemma start_original_ok offset :
  exists l, start_original offset = Ok l /\ pairwise_different l /\ forall x, In x l -> normal offset x.
Proof.
  assert (HB : forall e : kex, In (@inr string kex e) [] -> built offset e) by (intros e []).
  assert (P : Permutation ["WN"%string] ["WN"%string]) by auto.
  unfold start_original. change [inl "WN"%string] with (map (@inl string kex) ["WN"%string] ++ []).
  destruct offset; (eapply start_list_ok; [exact P|exact HB|vm_compute; reflexivity|vm_compute; reflexivity]).
Qed.

(** ** Counterexamples *)
Lemma swap_base_adds : exists k bts cts B x, wf (Comm k bts cts) /\ In x (swap_base true (Comm k bts cts) B)
  /\ forall bt c', replace_one bts c' bt B -> keq x (mk true k c' cts) = false.
Proof.
  exists KSum, [(bLIN, 1); (bPER, 1)], [], bLIN, (Comm KSum [(bLIN, 2); (bPER, 1)] []).
  split; [|split].
  - apply wf_comm. split; [|intros ? []]. split; [repeat constructor; simpl; intuition discriminate|].
    intros b n [[= <- <-]|[[= <- <-]|[]]]; reflexivity.
  - left. reflexivity.
  - intros bt c' [W H]. destruct (keq _ _) eqn:E; [|reflexivity]. exfalso. apply keq_spec in E.
    assert (Nc : nodup c') by (apply wf_nodup, W). assert (Pc : nonneg c') by (apply wf_nn, W).
    change (mk true KSum c' []) with (Comm KSum (simp_base true KSum (simp_base true KSum c' 0) 0) []) in E.
    apply reord_comm_iff in E as [E _]. pose proof (E bLIN) as E1. pose proof (E bPER) as E2.
    pose proof (wf_nonneg c' bt W) as Hn. rewrite H in Hn.
    rewrite !cget_simp_sum, H in E1, E2 by (try apply simp_base_nodup; try apply simp_base_nonneg; assumption).
    destruct bt; vm_compute in E1, E2, Hn; congruence || (apply Hn; reflexivity).
Qed.
Lemma expand_left_leaf : exists rules e x, wf e /\ wf_rules rules /\ In x (expand true rules e)
  /\ forall p n new t, at_addr e p = Some n -> produced rules n new -> replace_addr e p new = Some t -> keq x (standardise true t) = false.
Proof.
  exists [plus_base true [bPER]], (Change CP (inl bWN) (inl bLIN)), (Change CP (inl bWN) (inr (Comm KSum [(bWN, 1); (bPER, 1)] []))).
  split; [intros ? ? ? H; apply node_change_inv in H as [H|[(x & H & _)|(x & H & _)]]; discriminate|].
  split; [|split; [vm_compute; auto|]].
  - intros n new W (r & g & [<-|[]] & Hg & Hn). apply (rules_all_wf true [bPER] [bPER] (plus_base true [bPER]) n g new); auto. left; reflexivity.
  - intros p n new t Hp (r & g & [<-|[]] & [<-|[]] & Hn) Ht.
    destruct p as [|[|[|i]] q]; cbn in Hp.
    + injection Hp as <-. destruct Hn as [<-|[]]. injection Ht as <-. reflexivity.
    + destruct q as [|j q]; cbn in Hp; [|destruct j; discriminate]. injection Hp as <-. destruct Hn as [<-|[]]. injection Ht as <-. reflexivity.
    + destruct q as [|j q]; cbn in Hp; [|destruct j; discriminate]. injection Hp as <-. destruct Hn as [<-|[]]. injection Ht as <-. reflexivity.
    + discriminate.
Qed.
Definition ex_lone := Comm KProd [(bPER, 1)] [Comm KSum [(bWN, 1)] [Comm KProd [(bLIN, 1); (bPER, 1)] []]].
Lemma ex_lone_built : built true ex_lone.
Proof.
  change ex_lone with (mkl true KProd [bPER] [mkl true KSum [bWN] [mkl true KProd [bLIN; bPER] []]]).
  apply built_list. intros c [<-|[]]. apply built_list. intros c [<-|[]]. apply built_list. intros c [].
Qed.
Lemma expand_not_normal : exists bases noC e x, built true e /\ e = initialise true e /\ normal true e
  /\ In x (expand true (rules_default true bases noC) e) /\ ~ normal true x.
Proof.
  exists [bPER; bWN; bC; bLIN], [bPER; bWN; bLIN], ex_lone, (Comm KProd [(bPER, 1)] [Comm KProd [(bLIN, 1); (bPER, 1)] []]).
  split; [exact ex_lone_built|split; [reflexivity|split; [|split]]].
  - change ex_lone with (initialise true ex_lone). apply initialise_normal, ex_lone_built.
  - apply (nth_error_In _ 37). vm_compute. reflexivity.
  - intros H. specialize (H _ (node_self _)) as (_ & _ & H). destruct (H _ (or_introl eq_refl)) as [_ H2]. discriminate.
Qed.
Lemma swap_base_same offset k bts cts B : wf_counter bts -> 0 < cget bts B ->
  exists c', wf_counter c' /\ (forall x, cget c' x = cget bts x + delta B x) /\ In (mk offset k c' cts) (swap_base offset (Comm k bts cts) B).
Proof.
  intros W H. exists (cadd (cpos bts) (swap_counter B B)). 
  assert (E : swap_counter B B = [(B, 1)]) by (destruct B; reflexivity).
  assert (N : nodup bts) by (apply wf_nodup, W). rewrite E.
  split; [apply cadd_wf; [apply cpos_nodup, N|apply nodup_single]|split].
  - intros x. rewrite cget_cadd; [|apply cpos_nodup, N|apply nodup_single]. rewrite (wf_cpos bts W).
    unfold delta. pose proof (wf_nonneg bts x W). unfold cget at 2. cbn. destruct (base_eqb B x); lia.
  - cbn [swap_base]. apply (in_map (fun c => mk offset k c cts)). unfold swap_args. apply in_map_iff. exists B. rewrite E. split; [reflexivity|].
    apply (proj2 (distinct_cpos bts W)), H.
Qed.

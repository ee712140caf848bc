(** The built-in production rules do what is documented (C81). *)
From Coq Require Import List Bool Arith ZArith Lia Permutation.
From Verif Require Import Py KexModel KexSpec KexProofs KexSimp KexMore KexCong OpsModel OpsSpec OpsProofs SemOps ReachProofs ReachCong GramSpec.
Import ListNotations.
Local Open Scope list_scope.
Local Open Scope Z_scope.
Notation length := Datatypes.length.

(** A rule gives this for the node. *)
Definition gives (r : rule) (n new : kex) : Prop := exists g, In g (r n) /\ In new g.
Definition faithful (offset : bool) (bases : list base) (r : rule) (d : rewriting) : Prop := forall n, wf n ->
  (forall new, gives r n new -> documented offset bases d n new) /\ (forall x, documented offset bases d n x -> exists new, gives r n new /\ reord new x).

Lemma delta_single B x : cget [(B, 1)] x = delta B x.
Proof. destruct B, x; reflexivity. Qed.
Lemma add_one bts B : wf_counter bts -> plus_one bts (cadd (cpos bts) (counter_of [B])) B.
Proof.
  intro W. split; [apply cpos_add_wf; [exact W|apply counter_of_nodup]|]. intro x.
  rewrite cget_cadd by first [apply counter_of_nodup | apply cpos_nodup, wf_nodup, W]. rewrite (wf_cpos _ W), cget_counter1, delta_single.
  pose proof (wf_nonneg bts x W). unfold delta. destruct (base_eqb B x); lia.
Qed.
Lemma sub_one bts B : wf_counter bts -> 0 < cget bts B -> minus_one bts (csub (cpos bts) (counter_of [B])) B.
Proof.
  intros W P. pose proof (counter_of_wf [B]) as WB. split; [apply cpos_sub_wf; [exact W|apply counter_of_nodup]|]. intro x.
  rewrite cget_csub; [|apply cpos_nodup, wf_nodup, W|apply counter_of_nodup|intro y; apply wf_nonneg, WB].
  rewrite (wf_cpos _ W), cget_counter1, delta_single. pose proof (wf_nonneg bts x W). unfold delta. destruct (base_eqb B x) eqn:E; [|lia]. apply base_eqb_spec in E. subst x. lia.
Qed.
Lemma minus_has bts c' b : minus_one bts c' b -> 0 < cget bts b.
Proof. intros [W G]. specialize (G b). pose proof (wf_nonneg c' b W). unfold delta in G. rewrite (proj2 (base_eqb_spec b b) eq_refl) in G. lia. Qed.
Lemma replace_has bts c' b B : b <> B -> replace_one bts c' b B -> 0 < cget bts b.
Proof.
  intros N [W G]. specialize (G b). pose proof (wf_nonneg c' b W). unfold delta in G. rewrite (proj2 (base_eqb_spec b b) eq_refl) in G.
  destruct (base_eqb B b) eqn:E; [apply base_eqb_spec in E; congruence|lia].
Qed.
Lemma lrefl (l : list kex) : lreord l l. Proof. apply lreord_refl. Qed.
Lemma rrefl (x : kex) : reord x x. Proof. apply keq_spec, keq_refl. Qed.

Section Gram.
  Context (offset : bool) (bases noC : list base) (HC : without_C bases noC).
  Lemma mk_same k a b cts : wf_counter a -> wf_counter b -> (forall x, cget a x = cget b x) -> (forall x, In x cts -> wf x) -> reord (mk offset k a cts) (mk offset k b cts).
  Proof. intros Wa Wb E H. apply mk_cong; auto. apply lrefl. Qed.
  Lemma mkl_wf k l : wf (mkl offset k l []).
  Proof. apply mk_wf; [apply counter_of_wf|intros ? []]. Qed.
  Lemma snoc_wf cts x : (forall c, In c cts -> wf c) -> wf x -> forall c, In c (cts ++ [x]) -> wf c.
  Proof. intros H Hx c I. apply in_app_iff in I as [I|[<-|[]]]; auto. Qed.
  Lemma shifted B : exists b, mkl offset KSum [B; bC] [] = Comm KSum b [].
  Proof. destruct offset, B; eexists; reflexivity. Qed.

  Lemma plus_faithful : faithful offset bases (plus_base offset bases) PlusBase.
  Proof.
    intros n W. unfold gives, plus_base. split.
    - intros new (g & Hg & Hn). apply in_map_iff in Hg as (B & <- & HB). destruct n as [[|] bts cts|o l r]; cbn [add_nested add] in Hn.
      + destruct Hn as [<-|[]]. apply plus_sum with B; [exact HB|]. apply add_one. apply wf_comm in W. apply W.
      + destruct Hn as [<-|Hn]; [apply plus_other; [exact HB|reflexivity]|]. apply in_map_iff in Hn as (f & <- & Hf).
        apply wf_comm in W as [W _]. apply in_celements in Hf; [|apply wf_nodup, W]. apply plus_factor; [exact HB|]. apply sub_one; assumption.
      + destruct Hn as [<-|[]]. apply plus_other; [exact HB|reflexivity].
    - intros x D. inversion D as [B bts cts c' HB P|B S HB K|B f bts cts c' HB P| | | | | | | | | | | | | | | | | | | | | | | | | | | | ]; subst.
      + exists (mk offset KSum (cadd (cpos bts) (counter_of [B])) cts). apply wf_comm in W as [W Wc]. destruct (add_one bts B W) as [W1 G1]. destruct P as [W2 G2].
        split; [eexists; split; [apply in_map, HB|left; reflexivity]|]. apply mk_same; auto. intro y. rewrite G1, G2. reflexivity.
      + exists (mkl offset KSum [B] [n]). split; [|apply rrefl]. eexists. split; [apply in_map, HB|]. destruct n as [[|] bts cts|o l r]; [discriminate|left; reflexivity|left; reflexivity].
      + apply wf_comm in W as [W Wc]. pose proof (minus_has _ _ _ P) as Hf. destruct (sub_one bts f W Hf) as [W1 G1]. destruct P as [W2 G2].
        exists (mk offset KProd (csub (cpos bts) (counter_of [f])) (cts ++ [mkl offset KSum [B; f] []])).
        split. { eexists. split; [apply in_map, HB|]. right. apply (in_map (fun bt => mk offset KProd (csub (cpos bts) (counter_of [bt])) (cts ++ [mkl offset KSum [B; bt] []]))). apply in_celements; [apply wf_nodup, W|exact Hf]. }
        apply mk_same; auto; [intro y; rewrite G1, G2; reflexivity|]. apply snoc_wf; [exact Wc|apply mkl_wf].
  Qed.
  Lemma times_faithful : faithful offset bases (times_base offset noC) TimesBase.
  Proof.
    intros n W. unfold gives, times_base. split.
    - intros new (g & Hg & Hn). apply in_map_iff in Hg as (B & <- & HB). apply HC in HB as [HB NB]. destruct n as [[|] bts cts|o l r]; cbn [multiply_nested multiply] in Hn.
      + destruct Hn as [<-|Hn]; [apply times_other; [exact HB|exact NB|reflexivity]|]. apply in_map_iff in Hn as (f & <- & Hf).
        apply wf_comm in W as [W _]. apply in_celements in Hf; [|apply wf_nodup, W]. apply times_term; [exact HB|exact NB|]. apply sub_one; assumption.
      + destruct Hn as [<-|[]]. apply times_prod with B; [exact HB|exact NB|]. apply add_one. apply wf_comm in W. apply W.
      + destruct Hn as [<-|[]]. apply times_other; [exact HB|exact NB|reflexivity].
    - intros x D. inversion D as [| | |B bts cts c' HB NB P|B S HB NB K|B f bts cts c' HB NB P| | | | | | | | | | | | | | | | | | | | | | | | | ]; subst;
        assert (HN : In B noC) by (apply HC; auto).
      + exists (mk offset KProd (cadd (cpos bts) (counter_of [B])) cts). apply wf_comm in W as [W Wc]. destruct (add_one bts B W) as [W1 G1]. destruct P as [W2 G2].
        split; [eexists; split; [apply in_map, HN|left; reflexivity]|]. apply mk_same; auto. intro y. rewrite G1, G2. reflexivity.
      + exists (mkl offset KProd [B] [n]). split; [|apply rrefl]. eexists. split; [apply in_map, HN|]. destruct n as [[|] bts cts|o l r]; [left; reflexivity|discriminate|left; reflexivity].
      + apply wf_comm in W as [W Wc]. pose proof (minus_has _ _ _ P) as Hf. destruct (sub_one bts f W Hf) as [W1 G1]. destruct P as [W2 G2].
        exists (mk offset KSum (csub (cpos bts) (counter_of [f])) (cts ++ [mkl offset KProd [B; f] []])).
        split. { eexists. split; [apply in_map, HN|]. right. apply (in_map (fun bt => mk offset KSum (csub (cpos bts) (counter_of [bt])) (cts ++ [mkl offset KProd [B; bt] []]))). apply in_celements; [apply wf_nodup, W|exact Hf]. }
        apply mk_same; auto; [intro y; rewrite G1, G2; reflexivity|]. apply snoc_wf; [exact Wc|apply mkl_wf].
  Qed.
  Lemma swap_same bts B : wf_counter bts -> plus_one bts (cadd (cpos bts) (swap_counter B B)) B.
  Proof. intro W. replace (swap_counter B B) with (counter_of [B]) by (destruct B; reflexivity). apply add_one, W. Qed.
  Lemma base_dec (a b : base) : a = b \/ a <> b.
  Proof. destruct (base_eqb a b) eqn:E; [left; apply base_eqb_spec, E|right; apply base_eqb_false, E]. Qed.
  Lemma replace_faithful : faithful offset bases (replace_base offset bases) OtherBase.
  Proof.
    intros n W. unfold gives, replace_base. split.
    - intros new (g & Hg & Hn). apply in_map_iff in Hg as (B & <- & HB). destruct n as [k bts cts|o l r].
      + cbn [swap_base] in Hn. unfold swap_args in Hn. rewrite map_map in Hn. apply in_map_iff in Hn as (b & <- & Hb). apply wf_comm in W as [W _].
        apply (proj2 (distinct_cpos bts W)) in Hb. destruct (base_dec b B) as [->|N].
        * apply same_base with B; auto. apply swap_same, W.
        * apply other_base with B b; auto. eapply swap_args_spec; eauto.
      + apply swap_base_change in Hn as [(b & -> & N & ->)|(b & -> & N & ->)]; [apply other_left | apply other_right]; assumption.
    - intros x D. inversion D as [| | | | | |k B b bts cts c' HB N P|k B bts cts c' HB Hp P|o b r B HB N|o l b B HB N| | | | | | | | | | | | | | | | | | | | | ]; subst.
      + apply wf_comm in W as [W Wc]. pose proof (replace_has _ _ _ _ N P) as Hp. destruct (swap_args_spec bts B b _ W N Hp eq_refl) as [W1 G1]. destruct P as [W2 G2].
        exists (mk offset k (cadd (cpos bts) (swap_counter b B)) cts). split; [|apply mk_same; auto; intro y; rewrite G1, G2; reflexivity].
        eexists. split; [apply in_map, HB|]. cbn [swap_base]. apply (in_map (fun c => mk offset k c cts)). unfold swap_args. apply (in_map (fun bt => cadd (cpos bts) (swap_counter bt B))).
        apply (proj2 (distinct_cpos bts W)), Hp.
      + apply wf_comm in W as [W Wc]. destruct (swap_same bts B W) as [W1 G1]. destruct P as [W2 G2].
        exists (mk offset k (cadd (cpos bts) (swap_counter B B)) cts). split; [|apply mk_same; auto; intro y; rewrite G1, G2; reflexivity].
        eexists. split; [apply in_map, HB|]. cbn [swap_base]. apply (in_map (fun c => mk offset k c cts)). unfold swap_args. apply (in_map (fun bt => cadd (cpos bts) (swap_counter bt B))).
        apply (proj2 (distinct_cpos bts W)), Hp.
      + exists (mk_change offset o (inl B) r). split; [|apply rrefl]. eexists. split; [apply in_map, HB|]. apply swap_base_change. left. eauto.
      + exists (mk_change offset o l (inl B)). split; [|apply rrefl]. eexists. split; [apply in_map, HB|]. apply swap_base_change. right. eauto.
  Qed.
  Lemma new_faithful : faithful offset bases (change_new_base offset noC) ChangeNew.
  Proof.
    intros n W. unfold gives, change_new_base. split.
    - intros new (g & Hg & Hn). apply in_map_iff in Hg as (B & <- & HB). apply HC in HB as [HB NB].
      destruct Hn as [<-|[<-|[<-|[<-|[]]]]]; first [apply new_right; assumption | apply new_left; assumption].
    - intros x D. inversion D as [| | | | | | | | | |o B S HB N|o B S HB N| | | | | | | | | | | | | | | | | | | ]; subst; (assert (HN : In B noC) by (apply HC; auto)); (eexists; split; [|apply rrefl]);
        (eexists; split; [apply (in_map (fun B => both_changes offset (inr n) (Some (inl B))) noC B HN)|]); destruct o; cbn; auto.
  Qed.
  Lemma same_faithful : faithful offset bases (change_same offset) ChangeSame.
  Proof.
    intros n W. unfold gives, change_same. split.
    - intros new (g & [<-|[]] & Hn). destruct Hn as [<-|[<-|[]]]; apply same_both.
    - intros x D. inversion D; subst. exists (mk_change offset o (inr n) (inr n)). split; [|apply rrefl]. eexists. split; [left; reflexivity|]. destruct o; cbn; auto.
  Qed.
  Lemma point_faithful : faithful offset bases (change_point_linear offset) PointLin.
  Proof.
    intros n W. unfold gives, change_point_linear. split.
    - intros new (g & [<-|[]] & Hn). destruct Hn as [<-|[<-|[]]]; constructor.
    - intros x D. inversion D; subst; (eexists; split; [|apply rrefl]); eexists; (split; [left; reflexivity|]); cbn; auto.
  Qed.
  Lemma constant_faithful : faithful offset bases (change_window_constant offset) WindowC.
  Proof.
    intros n W. unfold gives, change_window_constant. split.
    - intros new (g & [<-|[]] & Hn). destruct Hn as [<-|[<-|[]]]; constructor.
    - intros x D. inversion D; subst; (eexists; split; [|apply rrefl]); eexists; (split; [left; reflexivity|]); cbn; auto.
  Qed.
  Lemma window_faithful : faithful offset bases (change_window_linear offset) WindowLin.
  Proof.
    intros n W. unfold gives, change_window_linear. split.
    - intros new (g & [<-|[]] & Hn). destruct Hn as [<-|[<-|[]]]; constructor.
    - intros x D. inversion D; subst; (eexists; split; [|apply rrefl]); eexists; (split; [left; reflexivity|]); cbn; auto.
  Qed.
  Lemma shifted_faithful : faithful offset bases (times_shifted_base offset noC) TimesShifted.
  Proof.
    intros n W. unfold gives, times_shifted_base. split.
    - intros new (g & Hg & Hn). apply in_map_iff in Hg as (B & <- & HB). apply HC in HB as [HB NB]. destruct (shifted B) as [b E].
      destruct n as [[|] bts cts|o l r]; rewrite E in Hn; cbn [multiply_nested multiply] in Hn; destruct Hn as [<-|[]]; rewrite <- E.
      + apply shifted_other; auto.
      + apply wf_comm in W as [W _]. rewrite (wf_cpos _ W). apply shifted_prod; auto.
      + apply shifted_other; auto.
    - intros x D. inversion D as [| | | | | | | | | | | | | | | | | | |B bts cts HB N|B S HB N K| | | | | | | | | | ]; subst; destruct (shifted B) as [b E];
        (assert (HN : In B noC) by (apply HC; auto)); (eexists; split; [|apply rrefl]); (eexists; split; [apply (in_map (fun B => multiply_nested offset (inr _) (inr (mkl offset KSum [B; bC] []))) noC B HN)|]); rewrite E.
      + apply wf_comm in W as [W _]. cbn [multiply_nested multiply]. rewrite (wf_cpos _ W). left. reflexivity.
      + destruct n as [[|] bts cts|o l r]; [left; reflexivity|discriminate|left; reflexivity].
  Qed.
  Lemma single_faithful : faithful offset bases (replace_with_singleton offset bases) ToBase.
  Proof.
    intros n W. unfold gives, replace_with_singleton. split.
    - intros new (g & Hg & Hn). apply in_map_iff in Hg as (B & <- & HB). cbn [replace_node] in Hn. destruct Hn as [<-|[]]. rewrite mkl_leaf. apply to_base, HB.
    - intros x D. inversion D; subst. eexists. split; [|apply rrefl]. eexists. split; [apply in_map; eassumption|]. left. apply mkl_leaf.
  Qed.
  Lemma drop_faithful : faithful offset bases (remove_some_term offset) DropTerm.
  Proof.
    intros n W. unfold gives, remove_some_term. split.
    - intros new (g & [<-|[]] & Hn). destruct n as [k bts cts|o l r].
      + apply wf_comm in W as [W Wc]. destruct (Z_lt_le_dec 1 (terms bts cts)) as [T|T]; [|rewrite (remove_a_term_single offset k bts cts W T) in Hn; destruct Hn].
        destruct (remove_a_term_comm offset k bts cts W T) as (bs & DB & L & Hb & Hc). apply In_nth_error in Hn as [i Hi].
        destruct (Nat.lt_ge_cases i (length bs)) as [Hl|Hl].
        * destruct (nth_error bs i) as [b|] eqn:Eb; [|apply nth_error_None in Eb; lia]. destruct (Hb i b Eb) as (c' & P & E). rewrite E in Hi. injection Hi as <-. apply drop_base with b; assumption.
        * assert (Hi2 : (i < length bs + length cts)%nat) by (rewrite <- L; apply nth_error_Some; congruence).
          destruct (nth_error cts (i - length bs)) as [c|] eqn:Ec; [|apply nth_error_None in Ec; lia]. destruct (nth_error_split _ _ Ec) as (l1 & l2 & E & El).
          specialize (Hc _ l1 c l2 E El). replace (length bs + (i - length bs))%nat with i in Hc by lia. rewrite Hc in Hi. injection Hi as <-. subst cts. apply drop_composite. exact T.
      + rewrite remove_a_term_change in Hn. destruct Hn as [<-|[<-|[]]]; [apply drop_right | apply drop_left].
    - intros x D. inversion D as [| | | | | | | | | | | | | | | | | | | | | |k b bts cts c' T P|k bts l1 c l2 T|o l r|o l r| | | | | ]; subst.
      + apply wf_comm in W as [W Wc]. destruct (remove_a_term_comm offset k bts cts W T) as (bs & DB & L & Hb & _).
        assert (I : In b bs) by (apply DB; eapply minus_has; exact P). apply In_nth_error in I as [i I]. destruct (Hb i b I) as (c2 & [W2 G2] & E). destruct P as [W1 G1].
        exists (mk offset k c2 cts). split; [eexists; split; [left; reflexivity|eapply nth_error_In, E]|]. apply mk_same; auto. intro y. rewrite G1, G2. reflexivity.
      + apply wf_comm in W as [W Wc]. destruct (remove_a_term_comm offset k bts _ W T) as (bs & DB & L & _ & Hc).
        exists (mk offset k bts (l1 ++ l2)). split; [|apply rrefl]. eexists. split; [left; reflexivity|]. eapply nth_error_In, (Hc _ l1 c l2 eq_refl eq_refl).
      + eexists. split; [|apply rrefl]. eexists. split; [left; reflexivity|]. rewrite remove_a_term_change. right. left. reflexivity.
      + eexists. split; [|apply rrefl]. eexists. split; [left; reflexivity|]. rewrite remove_a_term_change. left. reflexivity.
  Qed.
  Lemma add_some bts n B : wf_counter bts -> 0 <= n -> plus_some bts (cadd (cpos bts) [(B, n)]) n B.
  Proof.
    intros W N. split; [apply cpos_add_wf; [exact W|apply nodup_single]|]. intro x. rewrite cget_cadd by first [apply nodup_single | apply cpos_nodup, wf_nodup, W].
    rewrite (wf_cpos _ W). pose proof (wf_nonneg bts x W). unfold delta. rewrite cget_cons. change (cget [] x) with 0. destruct (base_eqb B x); lia.
  Qed.
  Lemma has_SE bts : wf_counter bts -> chas (cpos bts) bSE = (0 <? cget bts bSE).
  Proof.
    intro W. rewrite (wf_cpos _ W). pose proof (wf_has bts bSE W) as H. destruct (Z.ltb_spec 0 (cget bts bSE)) as [P|P]; [apply H, P|].
    destruct (chas bts bSE); [|reflexivity]. assert (0 < cget bts bSE) by (apply H; reflexivity). lia.
  Qed.
  Lemma has_PER bts : wf_counter bts -> chas (cpos bts) bPER = (0 <? cget bts bPER).
  Proof.
    intro W. rewrite (wf_cpos _ W). pose proof (wf_has bts bPER W) as H. destruct (Z.ltb_spec 0 (cget bts bPER)) as [P|P]; [apply H, P|].
    destruct (chas bts bPER); [|reflexivity]. assert (0 < cget bts bPER) by (apply H; reflexivity). lia.
  Qed.
  Lemma mk_comm k b c : exists b' c', mk offset k b c = Comm k b' c'.
  Proof. unfold mk. cbn [simplify]. unfold simp_node. eauto. Qed.
  (** The results of [higher_curves] are [del_se]ed if there is an SE. *)
  Lemma discourage_in bts (l : list kex) y : wf_counter bts -> (forall x, In x l -> exists k b c, x = Comm k b c) ->
    In y (if chas (cpos bts) bSE then map del_se l else l) <-> exists x, In x l /\ discourage_SE bts x y.
  Proof.
    intros W H. rewrite (has_SE bts W). unfold discourage_SE. destruct (Z.ltb_spec 0 (cget bts bSE)) as [P|P].
    - rewrite in_map_iff. split.
      + intros (x & <- & I). exists x. split; [exact I|]. right. split; [exact P|]. destruct (H x I) as (k & b & c & ->). exists k, b, c. auto.
      + intros (x & I & [[Q _]|(_ & k & b & c & -> & ->)]); [lia|]. exists (Comm k b c). auto.
    - split; [intro I; exists y; auto|]. intros (x & I & [[_ ->]|[Q _]]); [exact I|lia].
  Qed.
  Lemma discourage_reord bts x x' y : wf x -> wf x' -> reord x x' -> discourage_SE bts x y -> (exists k b c, x' = Comm k b c) -> exists y', discourage_SE bts x' y' /\ reord y' y.
  Proof.
    intros Wx Wx' R [[P ->]|(P & k & b & c & -> & ->)] (k' & b' & c' & ->).
    - exists (Comm k' b' c'). split; [left; auto|]. apply reord_sym, R.
    - exists (del_se (Comm k' b' c')). split; [right; split; [exact P|]; exists k', b', c'; auto|]. apply reord_sym. apply (del_se_reord _ _ Wx Wx' R).
  Qed.
  Lemma higher_faithful : faithful offset bases (try_higher_curves offset) HigherCurves.
  Proof.
    intros n W. unfold gives, try_higher_curves. split.
    - intros new (g & [<-|[]] & Hn). destruct n as [[|] bts cts|o l r]; cbn [higher_curves] in Hn.
      + apply wf_comm in W as [W Wc]. apply discourage_in in Hn; [|exact W|intros x I; apply in_map_iff in I as (ct & <- & _); destruct (mk_comm KSum (cpos bts) (cts ++ [ct])) as (b & c & ->); eauto].
        destruct Hn as (x & I & D). cbn [map higher_kers] in I. rewrite (wf_cpos _ W) in I. destruct I as [<-|[<-|[]]]; [apply (higher_sum _ _ 2%nat) | apply (higher_sum _ _ 3%nat)]; auto.
      + apply wf_comm in W as [W Wc]. apply discourage_in in Hn; [|exact W|intros x I; apply in_map_iff in I as (ct & <- & _); destruct (mk_comm KProd (cadd (cpos bts) ct) cts) as (b & c & ->); eauto].
        destruct Hn as (x & I & D). cbn [map] in I. destruct I as [<-|[<-|[<-|[]]]].
        * apply (higher_prod _ _ 2 _ _ (cadd (cpos bts) [(bLIN, 2)])); auto. apply add_some; [exact W|lia].
        * apply (higher_prod _ _ 3 _ _ (cadd (cpos bts) [(bLIN, 3)])); auto. apply add_some; [exact W|lia].
        * rewrite (has_PER bts W) in D. apply (higher_per _ _ _ _ (cadd (cpos bts) (if 0 <? cget bts bPER then [(bPER, 1)] else [(bPER, 2)]))); auto.
          destruct (0 <? cget bts bPER); apply add_some; (exact W || lia).
      + apply in_app_iff in Hn as [Hn|Hn]; [destruct l as [b|]; [|destruct Hn] | destruct r as [b|]; [|destruct Hn]]; destruct Hn as [<-|[<-|[]]].
        * exact (higher_left offset bases o b r 2 (or_introl eq_refl)).
        * exact (higher_left offset bases o b r 3 (or_intror eq_refl)).
        * exact (higher_right offset bases o l b 2 (or_introl eq_refl)).
        * exact (higher_right offset bases o l b 3 (or_intror eq_refl)).
    - intros x D. inversion D as [| | | | | | | | | | | | | | | | | | | | | | | | | |m bts cts y Hm HD|m bts cts c' y Hm P HD|bts cts c' y P HD|o b r m Hm|o l b m Hm]; subst.
      + apply wf_comm in W as [W Wc]. exists x. split; [|apply rrefl]. eexists. split; [left; reflexivity|]. cbn [higher_curves].
        apply discourage_in; [exact W|intros z I; apply in_map_iff in I as (ct & <- & _); destruct (mk_comm KSum (cpos bts) (cts ++ [ct])) as (b & c & ->); eauto|].
        eexists. split; [|exact HD]. rewrite (wf_cpos _ W). destruct Hm as [-> | ->]; [left | right; left]; reflexivity.
      + apply wf_comm in W as [W Wc]. destruct P as [W2 G2].
        destruct (add_some bts m bLIN W) as [W1 G1]; [destruct Hm; lia|].
        assert (R0 : reord (mk offset KProd c' cts) (mk offset KProd (cadd (cpos bts) [(bLIN, m)]) cts)) by (apply mk_same; auto; intro z; rewrite G1, G2; reflexivity).
        destruct (discourage_reord bts _ _ _ (mk_wf offset KProd c' cts W2 Wc) (mk_wf offset KProd _ cts W1 Wc) R0 HD) as (y' & HD' & R).
        { destruct (mk_comm KProd (cadd (cpos bts) [(bLIN, m)]) cts) as (b & c & ->). eauto. }
        exists y'. split; [|exact R]. eexists. split; [left; reflexivity|]. cbn [higher_curves].
        apply discourage_in; [exact W|intros z I; apply in_map_iff in I as (ct & <- & _); destruct (mk_comm KProd (cadd (cpos bts) ct) cts) as (b & c & ->); eauto|].
        eexists. split; [|exact HD']. destruct Hm as [-> | ->]; [left | right; left]; reflexivity.
      + apply wf_comm in W as [W Wc]. destruct P as [W2 G2]. set (m := if 0 <? cget bts bPER then 1 else 2) in *.
        destruct (add_some bts m bPER W) as [W1 G1]; [unfold m; destruct (0 <? cget bts bPER); lia|].
        assert (R0 : reord (mk offset KProd c' cts) (mk offset KProd (cadd (cpos bts) [(bPER, m)]) cts)) by (apply mk_same; auto; intro z; rewrite G1, G2; reflexivity).
        destruct (discourage_reord bts _ _ _ (mk_wf offset KProd c' cts W2 Wc) (mk_wf offset KProd _ cts W1 Wc) R0 HD) as (y' & HD' & R).
        { destruct (mk_comm KProd (cadd (cpos bts) [(bPER, m)]) cts) as (b & c & ->). eauto. }
        exists y'. split; [|exact R]. eexists. split; [left; reflexivity|]. cbn [higher_curves].
        apply discourage_in; [exact W|intros z I; apply in_map_iff in I as (ct & <- & _); destruct (mk_comm KProd (cadd (cpos bts) ct) cts) as (b & c & ->); eauto|].
        eexists. split; [|exact HD']. right. right. left. rewrite (has_PER bts W). unfold m. destruct (0 <? cget bts bPER); reflexivity.
      + eexists. split; [|apply rrefl]. eexists. split; [left; reflexivity|]. cbn [higher_curves]. apply in_app_iff. left. apply in_map_iff. exists (lin_power offset m). split; [reflexivity|]. destruct Hm as [-> | ->]; [left | right; left]; reflexivity.
      + eexists. split; [|apply rrefl]. eexists. split; [left; reflexivity|]. cbn [higher_curves]. apply in_app_iff. right. apply in_map_iff. exists (lin_power offset m). split; [reflexivity|]. destruct Hm as [-> | ->]; [left | right; left]; reflexivity.
  Qed.
  (** The groups. *)
  Lemma group_faithful rules ds : Forall2 (faithful offset bases) rules ds -> forall n, wf n ->
    (forall new, produced rules n new -> exists d, In d ds /\ documented offset bases d n new) /\
    (forall d x, In d ds -> documented offset bases d n x -> exists new, produced rules n new /\ keq new x = true).
  Proof.
    intros F n W. split.
    - intros new (r & g & Hr & Hg & Hn). assert (X : exists d, In d ds /\ faithful offset bases r d).
      { clear - F Hr. induction F as [|r0 d0 rs ds H F IH]; [destruct Hr|]. destruct Hr as [->|Hr]; [exists d0; split; [left; reflexivity|exact H]|]. destruct (IH Hr) as (d & I & J). exists d. split; [right; exact I|exact J]. }
      destruct X as (d & I & H). exists d. split; [exact I|]. apply (H n W). exists g. auto.
    - intros d x Hd D. assert (X : exists r, In r rules /\ faithful offset bases r d).
      { clear - F Hd. induction F as [|r0 d0 rs ds H F IH]; [destruct Hd|]. destruct Hd as [->|Hd]; [exists r0; split; [left; reflexivity|exact H]|]. destruct (IH Hd) as (r & I & J). exists r. split; [right; exact I|exact J]. }
      destruct X as (r & I & H). destruct (proj2 (H n W) x D) as (new & (g & Hg & Hn) & R). exists new. split; [exists r, g; auto|]. apply keq_spec, R.
  Qed.
End Gram.
Definition documented_groups (offset : bool) : list ((list base -> list base -> list rule) * list rewriting) :=
  [(rules_all offset, all_rewritings); (rules_default offset, default_rewritings); (rules_original offset, original_rewritings); (rules_minimal offset, minimal_rewritings)].
Theorem groups_documented offset G ds bases noC n : In (G, ds) (documented_groups offset) -> without_C bases noC -> wf n ->
  (forall new, produced (G bases noC) n new -> exists d, In d ds /\ documented offset bases d n new) /\
  (forall d x, In d ds -> documented offset bases d n x -> exists new, produced (G bases noC) n new /\ keq new x = true).
Proof.
  intros I HC W. apply group_faithful; [|exact W].
  pose proof (plus_faithful offset bases). pose proof (times_faithful offset bases noC HC). pose proof (replace_faithful offset bases). pose proof (new_faithful offset bases noC HC).
  pose proof (same_faithful offset bases). pose proof (point_faithful offset bases). pose proof (constant_faithful offset bases). pose proof (window_faithful offset bases).
  pose proof (shifted_faithful offset bases noC HC). pose proof (single_faithful offset bases). pose proof (drop_faithful offset bases). pose proof (higher_faithful offset bases).
  destruct I as [I|[I|[I|[I|[]]]]]; injection I as <- <-; repeat (constructor; [assumption|]); constructor.
Qed.
Lemma replace_some p : forall e a ta b, replace_addr e p a = Some ta -> exists tb, replace_addr e p b = Some tb.
Proof.
  induction p as [|i q IH]; intros e a ta b H; cbn [replace_addr] in *; [eauto|]. destruct (child e i) as [c|]; [|discriminate].
  destruct (replace_addr c q a) as [c1|] eqn:E; [|discriminate]. destruct (IH c a c1 b E) as [c2 ->]. destruct e; [eauto|]. destruct i; eauto.
Qed.
Lemma del_wf k b c : wf (Comm k b c) -> wf (Comm k (filter (fun kv => negb (base_eqb (fst kv) bSE)) b) c).
Proof. intro W. exact (del_se_wf (Comm k b c) W). Qed.
Lemma discourage_wf bts x y : wf x -> discourage_SE bts x y -> wf y.
Proof. intros W [[_ ->]|(_ & k & b & c & -> & ->)]; [exact W|]. apply del_wf, W. Qed.
Lemma lin_power_wf offset n : wf (lin_power offset n).
Proof. apply mkl_wf. Qed.
Lemma documented_wf offset bases d n x : wf n -> documented offset bases d n x -> wf x.
Proof.
  intros W D. inversion D; subst; clear D; try (apply wf_comm in W as [W Wc]);
    repeat match goal with H : plus_one _ _ _ |- _ => destruct H | H : minus_one _ _ _ |- _ => destruct H | H : replace_one _ _ _ _ |- _ => destruct H | H : plus_some _ _ _ _ |- _ => destruct H end.
  all: try (eapply discourage_wf; [|eassumption]).
  all: try (apply mk_wf; [assumption|]; first [assumption | apply snoc_wf; [assumption|first [apply mkl_wf | apply lin_power_wf]]]).
  all: try (apply mk_wf; [apply wf_nil || apply counter_of_wf|]; intros c Hc; repeat (destruct Hc as [<-|Hc]; [first [assumption | apply mkl_wf]|]); destruct Hc).
  all: try (apply mk_change_wf; intros y [E|E]; try discriminate E; try (injection E as <-; first [assumption | apply lin_power_wf]); try (apply (proj1 (wf_change _ _ _) W); auto)).
  all: try (apply wf_comm; split; [apply wf_single|intros ? []]).
  - apply mk_wf; [exact W|]. intros y Hy. apply Wc. apply in_app_iff in Hy as [Hy|Hy]; apply in_app_iff; cbn; auto.
  - destruct r as [b|y]; [apply wf_comm; split; [apply wf_single|intros ? []]|]. apply (proj1 (wf_change _ _ _) W). auto.
  - destruct l as [b|y]; [apply wf_comm; split; [apply wf_single|intros ? []]|]. apply (proj1 (wf_change _ _ _) W). auto.
Qed.
Theorem expansion_documented offset G ds bases noC e : In (G, ds) (documented_groups offset) -> without_C bases noC -> wf e ->
  (forall x, In x (expand offset (G bases noC) e) -> exists p n d new t,
     at_addr e p = Some n /\ In d ds /\ documented offset bases d n new /\ replace_addr e (target e p) new = Some t /\ keq x (standardise offset t) = true) /\
  (forall p n d new, at_addr e p = Some n -> In d ds -> documented offset bases d n new -> exists x t,
     In x (expand offset (G bases noC) e) /\ replace_addr e (target e p) new = Some t /\ keq x (standardise offset t) = true).
Proof.
  intros I HC W. assert (HG : In G (groups offset)).
  { destruct I as [I|[I|[I|[I|[]]]]]; injection I as <- <-; cbn [groups In]; auto. }
  destruct (expand_actual offset (G bases noC) e W (groups_wf offset G bases noC HG)) as [S C]. split.
  - intros x Hx. destruct (S x Hx) as (p & n & new & t & Ha & Hp & Ht & E). pose proof (at_addr_wf p e n W Ha) as Wn.
    destruct (proj1 (groups_documented offset G ds bases noC n I HC Wn) new Hp) as (d & Hd & D). exists p, n, d, new, t. auto.
  - intros p n d new Ha Hd D. pose proof (at_addr_wf p e n W Ha) as Wn. destruct (proj2 (groups_documented offset G ds bases noC n I HC Wn) d new Hd D) as (new' & Hp & E').
    destruct (C p n new' Ha Hp) as (x & t' & Hx & Ht' & E). destruct (replace_some _ _ _ _ new Ht') as [t Ht]. exists x, t. split; [exact Hx|]. split; [exact Ht|].
    apply keq_trans with (1 := E). apply keq_spec. apply standardise_reord; [eapply replace_wf; [exact W| |exact Ht'] | eapply replace_wf; [exact W| |exact Ht] | eapply replace_reord; [|exact Ht'|exact Ht]; apply keq_spec, E'].
    + apply (groups_wf offset G bases noC HG n); assumption.
    + eapply documented_wf; eassumption.
Qed.

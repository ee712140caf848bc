(** Proofs about kernel expressions: counters, equality, simplification, normal forms. *)
From Coq Require Import List Bool Arith ZArith Lia Permutation.
From Verif Require Import Py UtilModel UtilSpec UtilProofs KexModel KexSpec.
Import ListNotations.
Local Open Scope Z_scope.

(** ** Induction over expressions *)
Section Ind.
  Variable P : kex -> Prop.
  Hypothesis HC : forall k bts cts, (forall c, In c cts -> P c) -> P (Comm k bts cts).
  Hypothesis HX : forall c l r, (forall x, l = inr x -> P x) -> (forall x, r = inr x -> P x) -> P (Change c l r).
  Fixpoint kex_ind' (e : kex) : P e.
  Proof.
    destruct e as [k bts cts|c l r].
    - apply HC. induction cts as [|c cts IH]; intros x Hx; [destruct Hx|].
      destruct Hx as [<-|Hx]; [apply kex_ind'|apply IH; exact Hx].
    - apply HX; intros x E.
      + destruct l as [b|x']; [discriminate|]. injection E as <-. apply kex_ind'.
      + destruct r as [b|x']; [discriminate|]. injection E as <-. apply kex_ind'.
  Defined.
End Ind.

(** ** Small facts *)
Lemma base_eqb_spec a b : base_eqb a b = true <-> a = b.
Proof. destruct a, b; simpl; split; intros H; (reflexivity || discriminate). Qed.
Lemma base_eqb_refl a : base_eqb a a = true.
Proof. destruct a; reflexivity. Qed.
Lemma base_eqb_false a b : base_eqb a b = false <-> a <> b.
Proof. rewrite <- (base_eqb_spec a b). destruct (base_eqb a b); split; congruence. Qed.
Lemma base_eq_dec (a b : base) : {a = b} + {a <> b}.
Proof. decide equality. Qed.
Lemma all_bases_in b : In b all_bases.
Proof. destruct b; simpl; tauto. Qed.
Lemma all_bases_nodup : NoDup all_bases.
Proof. unfold all_bases; repeat (constructor; [simpl; intuition discriminate|]). constructor. Qed.
Lemma kind_eqb_spec a b : kind_eqb a b = true <-> a = b.
Proof. destruct a, b; simpl; split; intros H; (reflexivity || discriminate). Qed.
Lemma cpcw_eqb_spec a b : cpcw_eqb a b = true <-> a = b.
Proof. destruct a, b; simpl; split; intros H; (reflexivity || discriminate). Qed.

Lemma node_comm_inv n k bts cts : node n (Comm k bts cts) -> n = Comm k bts cts \/ exists c, In c cts /\ node n c.
Proof. inversion 1; subst; eauto. Qed.
Lemma node_change_inv n c l r : node n (Change c l r) ->
  n = Change c l r \/ (exists x, l = inr x /\ node n x) \/ (exists x, r = inr x /\ node n x).
Proof. inversion 1; subst; eauto. Qed.
Lemma node_trans a b c : node a b -> node b c -> node a c.
Proof. intros H1 H2; induction H2; auto; econstructor; eauto. Qed.

(** ** Counters *)
Definition nodup (c : counter) : Prop := NoDup (map fst c).

Lemma cget_cset c b n b' : cget (cset c b n) b' = if base_eqb b b' then n else cget c b'.
Proof. unfold cget, cset. rewrite (dict_get_set _ base_eqb_spec). destruct (base_eqb b b'); reflexivity. Qed.
Lemma cset_nodup c b n : nodup c -> nodup (cset c b n).
Proof. apply dict_set_nodup; exact base_eqb_spec. Qed.
Lemma cget_cons b n c b' : cget ((b, n) :: c) b' = if base_eqb b b' then n else cget c b'.
Proof. unfold cget; simpl. destruct (base_eqb b b'); reflexivity. Qed.
Lemma cget_notin c b : ~ In b (map fst c) -> cget c b = 0.
Proof. intros H. unfold cget. rewrite (proj2 (dict_get_none _ base_eqb_spec c b) H). reflexivity. Qed.
Lemma cget_in c b n : nodup c -> In (b, n) c -> cget c b = n.
Proof. intros N H. unfold cget. rewrite (dict_in_get _ base_eqb_spec c b n N H). reflexivity. Qed.
Lemma cget_nonzero_in c b : cget c b <> 0 -> In (b, cget c b) c.
Proof.
  unfold cget. destruct (dict_get base_eqb c b) eqn:E; [|tauto]. intros _. apply (dict_get_in _ base_eqb_spec); exact E.
Qed.
Lemma nodup_filter c p : nodup c -> nodup (filter p c).
Proof.
  unfold nodup. induction c as [|[b n] t IH]; simpl; intros H; [constructor|]. inversion H; subst.
  destruct (p (b, n)); simpl; auto. constructor; auto. intros C. apply H2.
  apply in_map_iff in C as ([b' n'] & E & Hin). apply filter_In in Hin as [Hin _]. simpl in E; subst.
  apply in_map_iff. exists (b, n'); auto.
Qed.
Lemma cget_filter c p b : nodup c ->
  cget (filter p c) b = if p (b, cget c b) then cget c b else 0.
Proof.
  induction c as [|[b0 n0] t IH]; intros N.
  - simpl. destruct (p _); reflexivity.
  - inversion N as [|? ? Hn N']; subst. specialize (IH N'). cbn [filter]. rewrite cget_cons.
    destruct (base_eqb b0 b) eqn:E.
    + apply base_eqb_spec in E; subst b0. destruct (p (b, n0)) eqn:Ep.
      * rewrite cget_cons, base_eqb_refl. reflexivity.
      * apply cget_notin. intros C. apply Hn. apply in_map_iff in C as ([b' n'] & Eb & Hin).
        apply filter_In in Hin as [Hin _]. simpl in Eb; subst. apply in_map_iff. exists (b, n'); auto.
    + destruct (p (b0, n0)); [rewrite cget_cons, E|]; exact IH.
Qed.
Lemma cget_cpos c b : nodup c -> cget (cpos c) b = Z.max 0 (cget c b).
Proof. intros N. unfold cpos. rewrite cget_filter by exact N. simpl. destruct (Z.ltb_spec 0 (cget c b)); lia. Qed.
Lemma cpos_nodup c : nodup c -> nodup (cpos c).
Proof. apply nodup_filter. Qed.
Lemma cpos_wf c : nodup c -> wf_counter (cpos c).
Proof.
  intros N. split; [apply cpos_nodup; exact N|]. intros b n H. apply filter_In in H as [_ H]. simpl in H. lia.
Qed.
Lemma wf_cpos c : wf_counter c -> cpos c = c.
Proof.
  intros [_ H]. unfold cpos. induction c as [|[b n] t IH]; simpl; [reflexivity|].
  assert (0 < n) by (apply (H b); left; auto). destruct (Z.ltb_spec 0 n); [|lia]. f_equal. apply IH.
  intros; apply (H b0); right; auto.
Qed.
Lemma wf_nonneg c b : wf_counter c -> 0 <= cget c b.
Proof.
  intros [N H]. destruct (Z.eq_dec (cget c b) 0) as [E|E]; [lia|]. apply cget_nonzero_in in E. apply H in E. lia.
Qed.
Lemma wf_has c b : wf_counter c -> (chas c b = true <-> 0 < cget c b).
Proof.
  intros W. unfold chas, dict_has, cget. destruct (dict_get base_eqb c b) eqn:E; [|split; [discriminate|lia]].
  split; [|reflexivity]. intros _. apply (dict_get_in _ base_eqb_spec) in E. destruct W as [_ W]. eapply W; eauto.
Qed.
Lemma cupdate_nodup c d : nodup c -> nodup (cupdate c d).
Proof.
  unfold cupdate. revert c; induction d as [|kv t IH]; intros c N; simpl; [exact N|]. apply IH, cset_nodup, N.
Qed.
Lemma cget_cupdate c d b : nodup d -> cget (cupdate c d) b = cget c b + cget d b.
Proof.
  unfold cupdate. revert c; induction d as [|[b0 n0] t IH]; intros c N; simpl; [change (cget [] b) with 0; lia|].
  inversion N as [|? ? Hn N']; subst. rewrite IH by exact N'. rewrite cget_cset, cget_cons.
  destruct (base_eqb b0 b) eqn:E; [|reflexivity]. apply base_eqb_spec in E; subst.
  rewrite (cget_notin t b Hn). lia.
Qed.
Lemma cupdate_list_nodup c l : nodup c -> nodup (cupdate_list c l).
Proof.
  unfold cupdate_list. revert c; induction l as [|x t IH]; intros c N; simpl; [exact N|]. apply IH, cset_nodup, N.
Qed.
Lemma cget_cupdate_list c l b : cget (cupdate_list c l) b = cget c b + Z.of_nat (count_occ base_eq_dec l b).
Proof.
  unfold cupdate_list. revert c; induction l as [|x t IH]; intros c; simpl; [lia|]. rewrite IH, cget_cset.
  destruct (base_eqb x b) eqn:E.
  - apply base_eqb_spec in E; subst. destruct (base_eq_dec b b); [lia|congruence].
  - apply base_eqb_false in E. destruct (base_eq_dec x b); [congruence|lia].
Qed.
Lemma cupdate_list_pos c l b n :
  (forall b n, In (b, n) c -> 0 < n) -> In (b, n) (cupdate_list c l) -> 0 < n.
Proof.
  unfold cupdate_list. revert c; induction l as [|x t IH]; intros c H Hin; simpl in *; [eauto|].
  eapply IH; [|exact Hin]. intros b' n' H'.
  assert (Hpos : 0 <= cget c x).
  { destruct (Z.eq_dec (cget c x) 0); [lia|]. pose proof (H _ _ (cget_nonzero_in c x n0)). lia. }
  assert (G : In (b', n') c \/ n' = cget c x + 1).
  { clear - H'. revert H'. generalize (cget c x + 1) as v. unfold cset. induction c as [|[k v0] c' IHc]; simpl; intros v.
    - intros [[= <- <-]|[]]; auto.
    - destruct (base_eqb k x); simpl.
      + intros [[= <- <-]|Hc]; auto.
      + intros [[= <- <-]|Hc]; auto. destruct (IHc _ Hc); auto. }
  destruct G as [G|G]; [eauto|lia].
Qed.
Lemma counter_of_wf l : wf_counter (counter_of l).
Proof.
  split; [apply cupdate_list_nodup; constructor|]. intros b n. apply cupdate_list_pos. intros ? ? [].
Qed.
Lemma cget_counter_of l b : cget (counter_of l) b = Z.of_nat (count_occ base_eq_dec l b).
Proof. unfold counter_of. rewrite cget_cupdate_list. reflexivity. Qed.

(** sums of counters *)
Lemma csum_acc c a : fold_left (fun acc (kv : base * Z) => acc + snd kv) c a = a + csum c.
Proof.
  unfold csum. revert a; induction c as [|kv t IH]; intros a; simpl; [lia|]. rewrite IH, (IH (snd kv)). lia.
Qed.
Lemma csum_cons kv c : csum (kv :: c) = snd kv + csum c.
Proof. unfold csum at 1. simpl. rewrite csum_acc. lia. Qed.
Lemma csum_nil : csum [] = 0.
Proof. reflexivity. Qed.

Definition bsum (f : base -> Z) : Z := fold_right (fun b s => f b + s) 0 all_bases.
Lemma bsum_expand f : bsum f = f bWN + f bC + f bLIN + f bSE + f bPER + f bS + f bSr + f bSI + f bSIr.
Proof. unfold bsum, all_bases; simpl; lia. Qed.
Lemma csum_bsum c : nodup c -> csum c = bsum (cget c).
Proof.
  induction c as [|[b n] t IH]; intros N.
  - reflexivity.
  - inversion N as [|? ? Hn N']; subst. rewrite csum_cons, (IH N'). rewrite !bsum_expand. simpl snd.
    rewrite !cget_cons. pose proof (cget_notin t b Hn) as Z0. destruct b; simpl base_eqb; cbv iota; lia.
Qed.
Lemma terms_csum bts cts : nodup bts -> terms bts cts = csum bts + Z.of_nat (length cts).
Proof. intros N. rewrite (csum_bsum _ N). reflexivity. Qed.
Lemma terms_bsum bts cts : terms bts cts = bsum (cget bts) + Z.of_nat (length cts).
Proof. reflexivity. Qed.

(** elements *)
Lemma count_repeat b n x : count_occ base_eq_dec (repeat b n) x = if base_eqb b x then n else 0%nat.
Proof.
  induction n; simpl; [destruct (base_eqb b x); reflexivity|]. rewrite IHn.
  destruct (base_eq_dec b x) as [->|E]; [rewrite base_eqb_refl; reflexivity|].
  apply base_eqb_false in E; rewrite E; reflexivity.
Qed.
Lemma celements_cons kv c : celements (kv :: c) = repeat (fst kv) (Z.to_nat (snd kv)) ++ celements c.
Proof. reflexivity. Qed.
Lemma count_celements c b : nodup c -> Z.of_nat (count_occ base_eq_dec (celements c) b) = Z.max 0 (cget c b).
Proof.
  induction c as [|[k n] t IH]; intros N; [reflexivity|]. inversion N as [|? ? Hn N']; subst.
  rewrite celements_cons, count_occ_app, count_repeat, Nat2Z.inj_add, (IH N'). simpl. rewrite cget_cons.
  destruct (base_eqb k b) eqn:E; [|lia]. apply base_eqb_spec in E; subst. rewrite (cget_notin t b Hn). lia.
Qed.
Lemma in_celements c b : nodup c -> (In b (celements c) <-> 0 < cget c b).
Proof.
  intros N. rewrite (count_occ_In base_eq_dec). pose proof (count_celements c b N). lia.
Qed.
Lemma celements_length c : (forall b n, In (b, n) c -> 0 <= n) -> Z.of_nat (length (celements c)) = csum c.
Proof.
  induction c as [|[b n] t IH]; intros H; [reflexivity|].
  rewrite celements_cons, csum_cons, app_length, repeat_length, Nat2Z.inj_add, IH.
  - simpl. specialize (H b n (or_introl eq_refl)). lia.
  - intros; eapply H; right; eauto.
Qed.

(** equality of counters *)
Lemma ceqb_spec a b : ceqb a b = true <-> forall x, cget a x = cget b x.
Proof.
  unfold ceqb. rewrite forallb_forall. split.
  - intros H x. destruct (in_dec base_eq_dec x (map fst a ++ map fst b)) as [I|I].
    + apply Z.eqb_eq, H, I.
    + rewrite (cget_notin a), (cget_notin b); [reflexivity| |]; intros C; apply I, in_or_app; auto.
  - intros H x _. apply Z.eqb_eq, H.
Qed.

(** ** Equality of expressions (C01) *)
Scheme reord_mind := Minimality for reord Sort Prop
with reord_list_mind := Minimality for reord_list Sort Prop
with reord_branch_mind := Minimality for reord_branch Sort Prop.
Combined Scheme reord_mutind from reord_mind, reord_list_mind, reord_branch_mind.

Lemma reord_list_Forall2 l m : reord_list l m <-> Forall2 reord l m.
Proof. split; induction 1; constructor; auto. Qed.
Lemma reord_branch_inv l m : reord_branch l m <->
  match l, m with inl x, inl y => x = y | inr x, inr y => reord x y | _, _ => False end.
Proof.
  split; [destruct 1; auto|]. destruct l, m; intros H; try contradiction; [subst|]; constructor; auto.
Qed.
Lemma reord_comm_inv k b1 c1 e : reord (Comm k b1 c1) e <->
  exists b2 c2 c2', e = Comm k b2 c2 /\ (forall b, cget b1 b = cget b2 b) /\ Permutation c2 c2' /\ Forall2 reord c1 c2'.
Proof.
  split.
  - inversion 1; subst. exists b2, c2, c2'. rewrite <- reord_list_Forall2. auto.
  - intros (b2 & c2 & c2' & -> & H & P & F). apply reord_list_Forall2 in F. econstructor; eauto.
Qed.
Lemma reord_change_inv c l r e : reord (Change c l r) e <->
  exists l' r', e = Change c l' r' /\ reord_branch l l' /\ reord_branch r r'.
Proof.
  split; [inversion 1; subst; eauto|]. intros (l' & r' & -> & H1 & H2). constructor; auto.
Qed.

Lemma reord_refl e : reord e e.
Proof.
  induction e using kex_ind'.
  - apply reord_comm_inv. exists bts, cts, cts. repeat split; auto. clear bts.
    induction cts; constructor; [apply H; left; auto|]. apply IHcts. intros; apply H; right; auto.
  - constructor; apply reord_branch_inv; [destruct l|destruct r]; auto.
Qed.
Lemma Forall2_sym_in {A} (R S : A -> A -> Prop) l m : Forall2 R l m -> (forall x y, In x l -> In y m -> R x y -> S y x) -> Forall2 S m l.
Proof.
  induction 1; intros H'; constructor; [apply H'; simpl; auto|]. apply IHForall2. intros; apply H'; simpl; auto.
Qed.
Lemma reord_sym a b : reord a b -> reord b a.
Proof.
  revert b; induction a using kex_ind'; intros e R.
  - apply reord_comm_inv in R as (b2 & c2 & c2' & -> & E & P & F).
    apply Permutation_sym in P.
    assert (F' : Forall2 (fun y x => reord y x) c2' cts)
      by (eapply Forall2_sym_in; [exact F|]; intros; apply H; auto).
    destruct (Forall2_perm_r (fun x y => reord y x) cts c2' c2) as (cts' & P' & F'').
    { eapply Forall2_sym_in; [exact F'|]. auto. }
    { exact P. }
    apply reord_comm_inv. exists bts, cts, cts'. repeat split; auto.
    eapply Forall2_sym_in; [exact F''|]. auto.
  - apply reord_change_inv in R as (l' & r' & -> & R1 & R2). apply reord_branch_inv in R1, R2.
    constructor; apply reord_branch_inv; [destruct l, l'|destruct r, r']; try contradiction; auto.
Qed.
Lemma Forall2_trans_in {A} (R S T : A -> A -> Prop) l m n :
  Forall2 R l m -> Forall2 S m n -> (forall x y z, In x l -> R x y -> S y z -> T x z) -> Forall2 T l n.
Proof.
  intros H; revert n; induction H; intros n H2 HT; inversion H2; subst; constructor.
  - eapply HT; simpl; eauto.
  - apply IHForall2; auto. intros; eapply HT; simpl; eauto.
Qed.
Lemma Forall2_perm_l {B C} (R : B -> C -> Prop) (xs xs' : list B) ys :
  Forall2 R xs ys -> Permutation xs xs' -> exists ys', Permutation ys ys' /\ Forall2 R xs' ys'.
Proof.
  intros F P.
  assert (F' : Forall2 (fun y x => R x y) ys xs) by (clear P; induction F; constructor; auto).
  destruct (Forall2_perm_r _ _ _ _ F' P) as (ys' & P' & F'').
  exists ys'; split; auto. clear - F''. induction F''; constructor; auto.
Qed.
Lemma reord_trans a b c : reord a b -> reord b c -> reord a c.
Proof.
  revert b c; induction a using kex_ind'; intros e f R1 R2.
  - apply reord_comm_inv in R1 as (b2 & c2 & c2' & -> & E & P & F).
    apply reord_comm_inv in R2 as (b3 & c3 & c3' & -> & E' & P' & F').
    destruct (Forall2_perm_l reord c2 c2' c3' F' P) as (c3'' & P'' & F'').
    apply reord_comm_inv. exists b3, c3, c3''. repeat split; auto.
    + intros; rewrite E; auto.
    + etransitivity; eauto.
    + eapply Forall2_trans_in; eauto.
  - apply reord_change_inv in R1 as (l1 & r1 & -> & R1 & R1').
    apply reord_change_inv in R2 as (l2 & r2 & -> & R2 & R2').
    apply reord_branch_inv in R1, R1', R2, R2'.
    constructor; apply reord_branch_inv.
    + destruct l, l1; try contradiction; destruct l2; try contradiction; [congruence|eauto].
    + destruct r, r1; try contradiction; destruct r2; try contradiction; [congruence|eauto].
Qed.

(** The greedy removal algorithms decide matching, because == is an equivalence. *)
Lemma eq_elems_xs_spec (xs cys : list kex) (f : kex -> kex -> bool) :
  (forall x, In x xs -> forall y, f x y = true <-> reord x y) ->
  (eq_elems_xs (map f xs) cys = true <-> exists cys', Permutation cys cys' /\ Forall2 reord xs cys').
Proof.
  intros Hf. revert cys. induction xs as [|x t IH]; intros cys; simpl.
  - split.
    + destruct cys; [|discriminate]. exists []; auto.
    + intros (c' & P & F). inversion F; subst. symmetry in P; apply Permutation_nil in P; subst; reflexivity.
  - assert (IH' := IH (fun x' H => Hf x' (or_intror H))).
    destruct (list_remove (f x) cys) as [r|] eqn:R.
    + destruct (list_remove_perm _ _ _ R) as (y & Ey & _ & Py).
      assert (Rxy : reord x y) by (apply (Hf x); [left; auto|exact Ey]).
      rewrite IH'. split.
      * intros (c' & P & F). exists (y :: c'). split; [rewrite Py; constructor; exact P|constructor; assumption].
      * intros (c' & P & F). inversion F as [|? y0 ? t' R0 F']; subst.
        assert (P' : Permutation (y :: r) (y0 :: t')) by (rewrite <- Py; exact P).
        assert (Hin : In y (y0 :: t')) by (eapply Permutation_in; [exact P'|left; auto]).
        destruct Hin as [<-|Hin].
        { exists t'. split; [apply Permutation_cons_inv with y0; exact P'|exact F']. }
        apply in_split in Hin as (l1 & l2 & ->).
        exists (l1 ++ y0 :: l2). split.
        { apply Permutation_cons_inv with y. rewrite P'. rewrite <- !Permutation_middle. apply perm_swap. }
        apply Forall2_app_inv_r in F' as (t1 & t2 & F1 & F2 & ->).
        apply Forall2_app; [exact F1|]. inversion F2; subst. constructor; auto.
        eapply reord_trans; [eassumption|]. eapply reord_trans; [apply reord_sym; exact Rxy|exact R0].
    + split; [discriminate|]. intros (c' & P & F). exfalso. inversion F as [|? y0 ? t' R0 F']; subst.
      rewrite list_remove_none in R.
      assert (f x y0 = true) by (apply Hf; [left; auto|exact R0]).
      rewrite (R y0) in H; [discriminate|]. eapply Permutation_in; [symmetry; exact P|left; auto].
Qed.
Lemma eq_elems_cys_spec (xs cys : list kex) (f : kex -> kex -> bool) :
  (forall y, In y cys -> forall x, f y x = true <-> reord y x) ->
  (eq_elems_cys xs (map f cys) = true <-> exists cys', Permutation cys cys' /\ Forall2 reord xs cys').
Proof.
  revert cys. induction xs as [|x t IH]; intros cys Hf; simpl.
  - split.
    + destruct cys; [|discriminate]. exists []; auto.
    + intros (c' & P & F). inversion F; subst. symmetry in P; apply Permutation_nil in P; subst; reflexivity.
  - assert (Hlr : forall l, list_remove (fun g => g x) (map f l) = option_map (map f) (list_remove (fun y => f y x) l)).
    { induction l as [|y l IHl]; simpl; [reflexivity|]. destruct (f y x); [reflexivity|]. rewrite IHl.
      destruct (list_remove (fun y => f y x) l); reflexivity. }
    rewrite Hlr. destruct (list_remove (fun y => f y x) cys) as [r|] eqn:R; simpl.
    + destruct (list_remove_perm _ _ _ R) as (y & Ey & Hy & Py).
      assert (Rxy : reord y x) by (apply Hf; [exact Hy|exact Ey]). apply reord_sym in Rxy.
      rewrite IH.
      2:{ intros y' Hy'. apply Hf. eapply Permutation_in; [symmetry; exact Py|right; exact Hy']. }
      split.
      * intros (c' & P & F). exists (y :: c'). split; [rewrite Py; constructor; exact P|constructor; assumption].
      * intros (c' & P & F). inversion F as [|? y0 ? t' R0 F']; subst.
        assert (P' : Permutation (y :: r) (y0 :: t')) by (rewrite <- Py; exact P).
        assert (Hin : In y (y0 :: t')) by (eapply Permutation_in; [exact P'|left; auto]).
        destruct Hin as [<-|Hin].
        { exists t'. split; [apply Permutation_cons_inv with y0; exact P'|exact F']. }
        apply in_split in Hin as (l1 & l2 & ->).
        exists (l1 ++ y0 :: l2). split.
        { apply Permutation_cons_inv with y. rewrite P'. rewrite <- !Permutation_middle. apply perm_swap. }
        apply Forall2_app_inv_r in F' as (t1 & t2 & F1 & F2 & ->).
        apply Forall2_app; [exact F1|]. inversion F2; subst. constructor; auto.
        eapply reord_trans; [eassumption|]. eapply reord_trans; [apply reord_sym; exact Rxy|exact R0].
    + split; [discriminate|]. intros (c' & P & F). exfalso. inversion F as [|? y0 ? t' R0 F']; subst.
      rewrite list_remove_none in R.
      assert (Hin : In y0 cys) by (eapply Permutation_in; [symmetry; exact P|left; auto]).
      assert (f y0 x = true) by (apply Hf; [exact Hin|apply reord_sym; exact R0]).
      rewrite (R y0 Hin) in H. discriminate.
Qed.

Lemma eq_dir_spec a : forall d b, eq_dir d a b = true <-> reord a b.
Proof.
  induction a using kex_ind'; intros d b.
  - destruct b as [k' bts' cts'|]; [|split; [discriminate|intros R; inversion R]].
    cbn [eq_dir]. rewrite !andb_true_iff, kind_eqb_spec, reord_comm_inv.
    assert (Hb : (if d then ceqb bts bts' else ceqb bts' bts) = true <-> forall x, cget bts x = cget bts' x).
    { destruct d; rewrite ceqb_spec; [tauto|]. split; intros E x; symmetry; apply E. }
    rewrite Hb.
    assert (Hc : (if d then eq_elems_xs (map (eq_dir (negb d)) cts) cts' else eq_elems_cys cts' (map (eq_dir (negb d)) cts)) = true
                 <-> exists c2', Permutation cts' c2' /\ Forall2 reord cts c2').
    { destruct d; simpl.
      - apply eq_elems_xs_spec. intros x Hx y. apply H; exact Hx.
      - rewrite eq_elems_cys_spec by (intros y Hy x; apply H; exact Hy). split.
        + intros (c' & P & F). apply Permutation_sym in P.
          destruct (Forall2_perm_r reord _ _ _ F P) as (x' & P' & F').
          exists x'; split; auto. eapply Forall2_sym_in; [exact F'|]. intros; apply reord_sym; auto.
        + intros (c' & P & F).
          assert (F0 : Forall2 reord c' cts) by (eapply Forall2_sym_in; [exact F|]; intros; apply reord_sym; auto).
          destruct (Forall2_perm_l reord c' cts' cts F0 (Permutation_sym P)) as (y' & P' & F').
          exists y'; auto. }
    rewrite Hc. split.
    + intros ((-> & E) & c2' & P & F). exists bts', cts', c2'; auto.
    + intros (b2 & c2 & c2' & [= -> -> ->] & E & P & F). repeat split; auto. exists c2'; auto.
  - destruct b as [|c' l' r']; [split; [discriminate|intros R; inversion R]|].
    cbn [eq_dir]. rewrite !andb_true_iff, cpcw_eqb_spec, reord_change_inv.
    assert (HB : forall (l l' : branch), (forall x, l = inr x -> forall d b, eq_dir d x b = true <-> reord x b) ->
       (match l, l' with inl x, inl y => base_eqb x y | inr x, inr y => eq_dir d x y | _, _ => false end = true
        <-> reord_branch l l')).
    { intros x y Hx. rewrite reord_branch_inv. destruct x, y; try (split; [discriminate|tauto]).
      - apply base_eqb_spec.
      - apply Hx; reflexivity. }
    rewrite (HB l l' H), (HB r r' H0). split.
    + intros ((-> & R1) & R2). exists l', r'; auto.
    + intros (l1 & r1 & [= -> -> ->] & R1 & R2). auto.
Qed.
Lemma keq_spec a b : keq a b = true <-> reord a b.
Proof. apply eq_dir_spec. Qed.
Lemma keq_refl a : keq a a = true.
Proof. apply keq_spec, reord_refl. Qed.
Lemma keq_sym a b : keq a b = keq b a.
Proof.
  destruct (keq a b) eqn:E.
  - symmetry. apply keq_spec, reord_sym, keq_spec, E.
  - destruct (keq b a) eqn:E'; [|reflexivity]. apply keq_spec, reord_sym, keq_spec in E'. congruence.
Qed.
Lemma keq_trans a b c : keq a b = true -> keq b c = true -> keq a c = true.
Proof. rewrite !keq_spec. apply reord_trans. Qed.
Lemma keq_equivalence : equivalence keq.
Proof. repeat split; [apply keq_refl|apply keq_sym|apply keq_trans]. Qed.

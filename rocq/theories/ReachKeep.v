(** The minimal rules never remove the last change operator (C76). *)
From Coq Require Import List Bool Arith ZArith Lia Permutation.
From Verif Require Import Py UtilModel KexModel KexSpec KexProofs KexSimp KexCong KexMore OpsModel OpsSpec OpsProofs CountSpec CountProofs ReachSpec.
Import ListNotations.
Local Open Scope list_scope.

(** The number of change operators. *)
Fixpoint nc (e : kex) : nat :=
  match e with
  | Comm _ _ cts => total_of nc cts
  | Change _ l r => S (match l with inl _ => 0 | inr x => nc x end + match r with inl _ => 0 | inr x => nc x end)
  end.
Definition ncr (b : branch) : nat := match b with inl _ => 0 | inr x => nc x end.
Definition ncs (l : list kex) : nat := total_of nc l.
Lemma ncs_cons x l : ncs (x :: l) = nc x + ncs l. Proof. reflexivity. Qed.
Lemma ncs_app l m : ncs (l ++ m) = ncs l + ncs m.
Proof. induction l as [|x l IH]; [reflexivity|]. cbn [app]. rewrite !ncs_cons, IH. lia. Qed.
Lemma ncs_pos l : 0 < ncs l -> exists x, In x l /\ 0 < nc x.
Proof.
  induction l as [|x l IH]; [cbn; lia|]. rewrite ncs_cons. intros H. destruct (nc x) eqn:E.
  - destruct (IH H) as (y & Hy & P). exists y. split; [right; exact Hy|exact P].
  - exists x. split; [left; reflexivity|lia].
Qed.
Lemma ncs_in x l : In x l -> nc x <= ncs l.
Proof. induction l as [|y l IH]; [intros []|]. rewrite ncs_cons. intros [->|H]; [lia|]. specialize (IH H). lia. Qed.
Lemma nc_node e : 0 < nc e <-> exists o l r, node (Change o l r) e.
Proof.
  split.
  - induction e as [k b c IH|o l r IHl IHr] using kex_ind'; intros H; [|exists o, l, r; constructor].
    apply ncs_pos in H as (x & Hx & P). destruct (IH x Hx P) as (o & l & r & Hn). exists o, l, r. eapply node_comm; eauto.
  - intros (o & l & r & Hn). remember (Change o l r) as n eqn:En. induction Hn; subst; cbn [nc]; try lia.
    pose proof (ncs_in _ _ H). specialize (IHHn eq_refl). unfold ncs in *. lia.
Qed.
Lemma nc_free e : change_free e <-> nc e = 0.
Proof.
  split.
  - intros H. destruct (nc e) eqn:E; [reflexivity|]. exfalso. destruct (proj1 (nc_node e)) as (o & l & r & Hn); [lia|]. apply (H o l r Hn).
  - intros H o l r Hn. assert (0 < nc e) by (apply nc_node; eauto). lia.
Qed.
Lemma ncs_perm l m : Permutation l m -> ncs l = ncs m.
Proof. apply total_of_perm. Qed.
Lemma nc_reord a : forall b, reord a b -> nc a = nc b.
Proof.
  induction a as [k bts cts IH|o l r IHl IHr] using kex_ind'; intros b R.
  - apply reord_comm_inv in R as (b2 & c2 & c2' & -> & Hc & P & F). cbn [nc]. fold (ncs cts) (ncs c2). rewrite (ncs_perm _ _ P).
    clear - F IH. induction F as [|x y l m R F IHF]; [reflexivity|].
    rewrite !ncs_cons. rewrite (IH x (or_introl eq_refl) y R). f_equal. apply IHF. intros c' Hc'; apply IH; right; exact Hc'.
  - apply reord_change_inv in R as (l2 & r2 & -> & Rl & Rr). apply reord_branch_inv in Rl, Rr. cbn [nc]. f_equal. f_equal.
    + destruct l as [|y], l2 as [|y']; try contradiction; [reflexivity|exact (IHl y eq_refl y' Rl)].
    + destruct r as [|y], r2 as [|y']; try contradiction; [reflexivity|exact (IHr y eq_refl y' Rr)].
Qed.
Section Simplify.
  Context (offset : bool).
  Lemma nc_extract e : ncr (extract e) = nc e.
  Proof.
    destruct e as [k b c|o l r]; [|reflexivity]. cbn [extract]. destruct ((csum b =? 1)%Z && (length c =? 0)%nat) eqn:E1.
    - apply andb_true_iff in E1 as [_ E1]. apply Nat.eqb_eq in E1. destruct c; [|discriminate E1]. destruct (celements b); reflexivity.
    - destruct ((csum b =? 0)%Z && (length c =? 1)%nat) eqn:E2; [|reflexivity]. apply andb_true_iff in E2 as [_ E2]. apply Nat.eqb_eq in E2.
      destruct c as [|x [|y c]]; try discriminate E2. cbn [ncr nc total_of fold_right]. unfold total_of. cbn [fold_right]. lia.
  Qed.
  Lemma nc_extracts l : ncs (kexs_of (map extract l)) = ncs l.
  Proof.
    induction l as [|x l IH]; [reflexivity|]. pose proof (nc_extract x) as H. unfold kexs_of in *. cbn [map concat]. rewrite ncs_app, ncs_cons, IH.
    destruct (extract x) as [b|y]; cbn [ncr] in H; [rewrite <- H; reflexivity|]. rewrite ncs_cons, H. cbn. lia.
  Qed.
  Lemma nc_raised k l : ncs (raised k l) = ncs l.
  Proof.
    unfold raised. rewrite ncs_app. induction l as [|x l IH]; [reflexivity|]. rewrite ncs_cons. cbn [filter].
    destruct (is_kind k x) eqn:E; cbn [negb map concat]; rewrite ?ncs_app, ?ncs_cons; [|lia].
    assert (ncs (kids x) = nc x) by (destruct x; [reflexivity|discriminate E]). lia.
  Qed.
  Lemma nc_simp_node k b c : nc (simp_node offset k b c) = ncs c.
  Proof.
    destruct (simp_node_spec offset k b c) as (ns & _ & _ & E). cbv zeta in E. rewrite E. cbn [nc]. change (ncs (kexs_of (map extract (raised k c))) = ncs c).
    rewrite nc_extracts, nc_raised. reflexivity.
  Qed.
  Lemma nc_simplify e : nc (simplify offset e) = nc e.
  Proof.
    induction e as [k b c IH|o l r IHl IHr] using kex_ind'.
    - cbn [simplify]. rewrite nc_simp_node. cbn [nc]. change (ncs (map (simplify offset) c) = ncs c). induction c as [|x c IHc]; [reflexivity|].
      cbn [map]. rewrite !ncs_cons, (IH x (or_introl eq_refl)), IHc; [reflexivity|]. intros y Hy. apply IH. right. exact Hy.
    - cbn [simplify]. assert (HB : forall br : branch, (forall x, br = inr x -> nc (simplify offset x) = nc x) ->
        ncr (match br with inl b => inl b | inr x => extract (simplify offset x) end) = ncr br).
      { intros [b|x] Hx; [reflexivity|]. rewrite nc_extract. apply Hx. reflexivity. }
      change (S (ncr (match l with inl b => inl b | inr x => extract (simplify offset x) end) + ncr (match r with inl b => inl b | inr x => extract (simplify offset x) end))
        = S (ncr l + ncr r)). rewrite (HB l IHl), (HB r IHr). reflexivity.
  Qed.
  Lemma nc_standardise e : wf e -> nc (standardise offset e) = nc e.
  Proof.
    remember (size e) as n eqn:En. revert e En. induction n as [n IH] using lt_wf_ind. intros e En W.
    pose proof (simplify_size offset e) as Hs. pose proof (simplify_wf offset e W) as Ws. pose proof (nc_simplify e) as Os. rewrite (standardise_unfold offset e W).
    destruct (simplify offset e) as [k bts cts|o l r] eqn:E; [|exact Os]. apply wf_comm in Ws as [Wb Wc].
    pose proof (nc_extract (Comm k bts cts)) as X. destruct (extract (Comm k bts cts)) as [b|x] eqn:Ex.
    - rewrite mkl_leaf. cbn [ncr] in X. rewrite <- Os, <- X. reflexivity.
    - destruct (is_singleton bts cts) eqn:S; [|exact Os]. pose proof (extract_single k bts cts x Wb Ex S) as ->.
      rewrite <- Os, <- X. cbn [ncr]. eapply IH; [|reflexivity|apply Wc; left; auto]. rewrite size_comm in Hs. unfold sizes in Hs; simpl in Hs. lia.
  Qed.
  Lemma nc_mk k b c : nc (mk offset k b c) = ncs c. Proof. unfold mk. rewrite nc_simplify. reflexivity. Qed.
  Lemma nc_mk_change o l r : nc (mk_change offset o l r) = S (ncr l + ncr r). Proof. unfold mk_change. rewrite nc_simplify. reflexivity. Qed.

  (** ** The rules *)
  Definition keeps (n m : kex) : Prop := nc n <= nc m.
  Lemma keeps_nested k k' b c B m : In m (map (fun bt => mk offset k (csub (cpos b) (counter_of [bt])) (c ++ [mkl offset k' [B; bt] []])) (celements b)) -> keeps (Comm k b c) m.
  Proof. intros H. apply in_map_iff in H as (x & <- & _). unfold keeps. rewrite nc_mk, ncs_app. cbn [nc]. fold (ncs c). lia. Qed.
  Lemma keeps_one k b n m : m = mkl offset k b [n] -> keeps n m.
  Proof. intros ->. unfold keeps, mkl. rewrite nc_mk, ncs_cons. lia. Qed.
  Lemma keeps_mk k b b' c m : m = mk offset k b' c -> keeps (Comm k b c) m.
  Proof. intros ->. unfold keeps. rewrite nc_mk. reflexivity. Qed.
  Lemma keeps_add n B m : In m (add_nested offset (inr n) (inl B)) -> keeps n m.
  Proof.
    destruct n as [[|] b c|o l r]; cbn [add_nested add].
    - intros [<-|[]]. eapply keeps_mk. reflexivity.
    - intros [<-|H]; [eapply keeps_one; reflexivity|eapply keeps_nested; exact H].
    - intros [<-|[]]. eapply keeps_one; reflexivity.
  Qed.
  Lemma keeps_multiply n B m : In m (multiply_nested offset (inr n) (inl B)) -> keeps n m.
  Proof.
    destruct n as [[|] b c|o l r]; cbn [multiply_nested multiply].
    - intros [<-|H]; [eapply keeps_one; reflexivity|eapply keeps_nested; exact H].
    - intros [<-|[]]. eapply keeps_mk. reflexivity.
    - intros [<-|[]]. eapply keeps_one; reflexivity.
  Qed.
  Lemma keeps_swap n B m : In m (swap_base offset n B) -> keeps n m.
  Proof.
    destruct n as [k b c|o l r]; cbn [swap_base].
    - intros H. apply in_map_iff in H as (d & <- & _). eapply keeps_mk. reflexivity.
    - intros H. unfold keeps. apply in_app_iff in H as [H|H].
      + destruct l as [b|x]; [|destruct H]. destruct (base_eqb b B); [destruct H|]. destruct H as [<-|[]]. rewrite nc_mk_change. cbn [nc ncr]. destruct r; cbn; lia.
      + destruct r as [b|x]; [|destruct H]. destruct (base_eqb b B); [destruct H|]. destruct H as [<-|[]]. rewrite nc_mk_change. cbn [nc ncr]. destruct l; cbn; lia.
  Qed.
  Lemma keeps_same n m : In m (both_changes offset (inr n) None) -> keeps n m.
  Proof. unfold both_changes. cbn [map concat app In]. intros [<-|[<-|[]]]; unfold keeps; rewrite nc_mk_change; cbn [ncr]; lia. Qed.
  Lemma keeps_minimal bases noC n m : produced (rules_minimal offset bases noC) n m -> keeps n m.
  Proof.
    intros (r & g & Hr & Hg & Hm). cbn [rules_minimal In] in Hr. destruct Hr as [<-|[<-|[<-|[<-|[]]]]].
    - apply in_map_iff in Hg as (B & <- & _). eapply keeps_add, Hm.
    - apply in_map_iff in Hg as (B & <- & _). eapply keeps_multiply, Hm.
    - apply in_map_iff in Hg as (B & <- & _). eapply keeps_swap, Hm.
    - destruct Hg as [<-|[]]. eapply keeps_same, Hm.
  Qed.
  Lemma ncs_set i l (c c' : kex) : nth_error l i = Some c -> ncs (firstn i l ++ c' :: skipn (S i) l) + nc c = ncs l + nc c'.
  Proof.
    intros H. pose proof (nth_error_split l i H) as (l1 & l2 & E & L). subst l i. rewrite ncs_app, ncs_cons.
    rewrite firstn_app, Nat.sub_diag, firstn_all, app_nil_r.
    replace (skipn (S (length l1)) (l1 ++ c :: l2)) with l2; [rewrite ncs_app, ncs_cons; lia|].
    replace (l1 ++ c :: l2) with ((l1 ++ [c]) ++ l2) by (rewrite <- app_assoc; reflexivity).
    rewrite skipn_app, skipn_all2 by (rewrite app_length; cbn; lia). rewrite app_length. cbn [length app]. replace (S (length l1) - (length l1 + 1)) with 0 by lia. reflexivity.
  Qed.
  Lemma replace_keeps p : forall e n m t, at_addr e p = Some n -> replace_addr e (target e p) m = Some t -> nc n <= nc m -> 0 < nc e -> 0 < nc t.
  Proof.
    induction p as [|i q IH]; intros e n m t Ha Hr K P; cbn [at_addr target replace_addr] in *.
    - injection Ha as <-. injection Hr as <-. lia.
    - destruct (child e i) as [c|] eqn:E; [|discriminate]. destruct e as [k b cts|o l r].
      + cbn [replace_addr] in Hr. rewrite E in Hr. destruct (replace_addr c (target c q) m) as [c'|] eqn:R; [|discriminate].
        assert (Et : t = Comm k b (firstn i cts ++ c' :: skipn (S i) cts)) by congruence. subst t. cbn [child] in E. pose proof (ncs_set i cts c c' E) as HZ.
        cbn [nc] in P |- *. fold (ncs cts) in P. fold (ncs (firstn i cts ++ c' :: skipn (S i) cts)).
        destruct (nc c) eqn:Ec; [lia|]. pose proof (IH c n m c' Ha R K ltac:(lia)).
        assert (nc c' <= ncs (firstn i cts ++ c' :: skipn (S i) cts)) by (apply ncs_in, in_app_iff; right; left; reflexivity). lia.
      + assert (Ht : exists o' l' r', t = Change o' l' r'); [|destruct Ht as (o' & l' & r' & ->); cbn [nc]; lia].
        destruct i as [|[|i]]; [| |discriminate E].
        * destruct l as [b|x]; cbn [child] in E.
          -- cbn [replace_addr child] in Hr. destruct r; injection Hr as <-; eauto.
          -- injection E as <-. cbn [child replace_addr] in Hr. destruct (replace_addr x (target x q) m); [|discriminate]. injection Hr as <-. eauto.
        * assert (Hr2 : replace_addr (Change o l r) (1 :: target c q) m = Some t) by (destruct l, r; cbn [child] in E, Hr; injection E as <-; exact Hr).
          cbn [replace_addr] in Hr2. rewrite E in Hr2. destruct (replace_addr c (target c q) m); [|discriminate]. injection Hr2 as <-. eauto.
  Qed.
  Lemma expand_keeps bases noC e x : wf e -> 0 < nc e -> In x (expand offset (rules_minimal offset bases noC) e) -> 0 < nc x /\ wf x.
  Proof.
    intros W P Hx. destruct (expand_sound offset _ e W (groups_wf offset (rules_minimal offset) bases noC ltac:(cbn; tauto)) x Hx)
      as (p & n & new & t & Ha & Hp & _ & Hr & Wt & R & Wx). split; [|exact Wx].
    rewrite (nc_reord _ _ R), nc_standardise by exact Wt. eapply replace_keeps; [exact Ha|exact Hr|eapply keeps_minimal, Hp|exact P].
  Qed.
  Lemma reach_keeps bases noC e x : wf e -> 0 < nc e -> reaches offset (rules_minimal offset bases noC) e x -> 0 < nc x /\ wf x.
  Proof. intros W P H. induction H as [|x y _ [IH Wx] Hy]; [split; assumption|]. eapply expand_keeps; eauto. Qed.
  Lemma change_stays bases noC e x : wf e -> (exists o l r, node (Change o l r) e) -> reaches offset (rules_minimal offset bases noC) e x ->
    exists o l r, node (Change o l r) x.
  Proof. intros W H Hx. apply nc_node. eapply reach_keeps; [exact W| |exact Hx]. apply nc_node, H. Qed.
End Simplify.

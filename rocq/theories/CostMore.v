(** The number of expansions, and the size of the models of a search. *)
From Coq Require Import String List Bool Arith ZArith Lia Permutation.
From Verif Require Import Py UtilModel UtilSpec UtilProofs KexModel KexSpec KexProofs KexSimp KexCong KexMore OpsModel OpsSpec OpsProofs SemSpec SemProofs SemOps CountSpec CountProofs
  SearchModel SearchSpec SearchProofs ReachSpec ReachProofs ReachCong ReachSearch ReachOver CostSpec CostProofs.
Import ListNotations.
Local Open Scope list_scope.
Local Open Scope Z_scope.

Section Size.
  Variable offset : bool.
  Lemma leaf_zs b : zs (Comm KSum [(b, 1)] []) = 2.
  Proof. destruct b; reflexivity. Qed.
  (** What the rules give for the node that stands for a bare branch of a change. *)
  Lemma leaf_rules bases noC b g m : In g (concat (map (fun r : rule => r (Comm KSum [(b, 1)] [])) (rules_default offset bases noC ++ [change_same offset]))) -> In m g -> zs m <= 5.
  Proof.
    assert (F : forall (f : base -> list kex) l, (forall B, forallb (fun m => (symbols m <=? 5)%nat) (f B) = true) -> In g (map f l) -> In m g -> zs m <= 5).
    { intros f l H Hg Hm. apply in_map_iff in Hg as (B & <- & _). specialize (H B). rewrite forallb_forall in H. specialize (H m Hm). apply Nat.leb_le in H. unfold zs. lia. }
    assert (F1 : forall l, forallb (fun m => (symbols m <=? 5)%nat) l = true -> In g [l] -> In m g -> zs m <= 5).
    { intros l H Hg. apply (F (fun _ => l) [bC]); [intros; exact H|exact Hg]. }
    intros Hg. apply in_concat in Hg as (gs & Hgs & Hg). apply in_map_iff in Hgs as (r & <- & Hr).
    cbn [rules_default app In] in Hr. repeat (destruct Hr as [<-|Hr]); [..|destruct Hr]; revert Hg.
    - apply F. intros B. destruct offset, b, B; vm_compute; reflexivity.
    - apply F. intros B. destruct offset, b, B; vm_compute; reflexivity.
    - apply F. intros B. destruct offset, b, B; vm_compute; reflexivity.
    - apply F1. destruct offset, b; vm_compute; reflexivity.
    - apply F1. destruct offset, b; vm_compute; reflexivity.
    - apply F. intros B. destruct offset, b, B; vm_compute; reflexivity.
    - apply F. intros B. destruct offset, b, B; vm_compute; reflexivity.
    - apply F1. destruct offset, b; vm_compute; reflexivity.
    - apply F1. destruct offset, b; vm_compute; reflexivity.
  Qed.
  (** All rules but the one that duplicates. *)
  Definition others (bases noC : list base) : list rule :=
    [plus_base offset bases; times_base offset noC; replace_base offset bases; change_new_base offset noC; change_point_linear offset; change_window_constant offset;
     change_window_linear offset; times_shifted_base offset noC; replace_with_singleton offset bases; remove_some_term offset; try_higher_curves offset].
  Lemma all_others bases noC r : In r (rules_all offset bases noC) -> r = change_same offset \/ In r (others bases noC).
  Proof. unfold rules_all, others. cbn [In]. intuition auto. Qed.
  Lemma default_others bases noC r : In r (rules_default offset bases noC) -> In r (others bases noC).
  Proof. unfold rules_default, others. cbn [In]. intuition auto. Qed.
  Lemma others_size bases noC r n g m : wf n -> In r (others bases noC) -> In g (r n) -> In m g -> zs m <= zs n + 4.
  Proof.
    intros W Hr Hg Hm. pose proof (zs_pos n) as Hp. cbn [others In] in Hr.
    repeat (destruct Hr as [<-|Hr]); [..|destruct Hr];
      try (apply in_map_iff in Hg as (B & <- & HB)); try (destruct Hg as [<-|[]]).
    - pose proof (add_nested_size offset n B W m Hm). lia.
    - pose proof (multiply_nested_size offset n B W m Hm). lia.
    - pose proof (swap_base_size offset n B W m Hm). lia.
    - pose proof (both_changes_size offset n B W m Hm). lia.
    - pose proof (one_change_size offset n _ _ W m Hm). lia.
    - pose proof (one_change_size offset n _ _ W m Hm). lia.
    - pose proof (one_change_size offset n _ _ W m Hm). lia.
    - pose proof (multiply_expr_size offset n _ W (mkl_wf offset KSum [B; bC] [] (none_all wf)) m Hm) as H.
      pose proof (zs_mkl offset KSum [B; bC] [] (none_all wf)) as H2. rewrite zss_nil in H2. cbn [length] in H2. lia.
    - cbn [replace_node] in Hm. destruct Hm as [<-|[]]. rewrite mkl_leaf, leaf_zs. lia.
    - pose proof (remove_size offset n W m Hm). lia.
    - pose proof (higher_curves_size offset n W m Hm). lia.
  Qed.
  Lemma zss_set i c x y : nth_error c i = Some x -> zss (firstn i c ++ y :: skipn (S i) c) = zss c - zs x + zs y.
  Proof.
    intros H. apply nth_error_split in H as (l1 & l2 & -> & <-).
    rewrite firstn_app, Nat.sub_diag, firstn_O, firstn_all, app_nil_r, skipn_app, skipn_all2 by lia.
    replace (S (Datatypes.length l1) - Datatypes.length l1)%nat with 1%nat by lia. cbn [skipn app]. rewrite !zss_app, !zss_cons. lia.
  Qed.
  Lemma replace_size p : forall e n m t, wf e -> at_addr e p = Some n -> replace_addr e (target e p) m = Some t ->
    zs t <= zs e - zs n + zs m \/ ((exists b, n = Comm KSum [(b, 1)] []) /\ 3 <= zs e /\ zs t <= zs e - 1 + zs m).
  Proof.
    induction p as [|i q IH]; intros e n m t W Ha Hr; cbn [at_addr target replace_addr] in *.
    - injection Ha as <-. injection Hr as <-. left. lia.
    - destruct (child e i) as [c|] eqn:E; [|discriminate]. pose proof (child_wf _ _ _ W E) as Wc. destruct e as [k b cts|o l r].
      + cbn [replace_addr] in Hr. rewrite E in Hr. destruct (replace_addr c (target c q) m) as [c'|] eqn:R; [|discriminate].
        assert (Et : t = Comm k b (firstn i cts ++ c' :: skipn (S i) cts)) by congruence. clear Hr. subst t. apply wf_comm in W as [Wb _]. cbn [child] in E. pose proof (zss_set i cts c c' E) as HZ. rewrite !zs_comm by (apply wf_nn, Wb). rewrite HZ.
        assert (zs c <= zss cts).
        { apply nth_error_split in E as (l1 & l2 & -> & _). rewrite zss_app, zss_cons. pose proof (zss_nonneg l1). pose proof (zss_nonneg l2). lia. }
        pose proof (zn_nonneg b (wf_nn _ Wb)).
        destruct (IH c n m c' Wc Ha R) as [H1|(H1 & H2 & H3)]; [left; lia|right; split; [exact H1|lia]].
      + pose proof (zsr_pos l) as Pl. pose proof (zsr_pos r) as Pr.
        destruct i as [|[|i]]; [| |discriminate E].
        * destruct l as [b|x]; cbn [child] in E.
          -- injection E as <-. cbn [replace_addr child] in Hr.
             assert (Et : t = Change o (inl b) (inr m)) by (destruct r; injection Hr as <-; reflexivity). subst t. rewrite !zs_change. cbn [zsr] in *.
             destruct q as [|j q]; [injection Ha as <-; right; split; [eexists; reflexivity|lia]|]. cbn [at_addr child] in Ha. destruct j; discriminate Ha.
          -- injection E as <-. cbn [child replace_addr] in Hr. destruct (replace_addr x (target x q) m) as [c'|] eqn:R; [|discriminate]. injection Hr as <-.
             rewrite !zs_change. cbn [zsr] in *. destruct (IH x n m c' Wc Ha R) as [H1|(H1 & H2 & H3)]; [left; lia|right; split; [exact H1|lia]].
        * assert (Hr' : exists c', replace_addr c (target c q) m = Some c' /\ t = Change o l (inr c')).
          { assert (Hr2 : replace_addr (Change o l r) (1%nat :: target c q) m = Some t) by (destruct l, r; cbn [child] in E, Hr; injection E as <-; exact Hr).
            cbn [replace_addr] in Hr2. rewrite E in Hr2. destruct (replace_addr c (target c q) m) as [c'|]; [|discriminate]. injection Hr2 as <-. eexists; split; reflexivity. }
          clear Hr. destruct Hr' as (c' & R & ->). cbn [child] in E. destruct r as [b|x].
          -- injection E as <-. destruct q as [|j q]; [|cbn [at_addr child] in Ha; destruct j; discriminate Ha].
             injection Ha as <-. cbn [target replace_addr] in R. injection R as <-. rewrite !zs_change. cbn [zsr] in *. right. split; [eexists; reflexivity|lia].
          -- injection E as <-. rewrite !zs_change. cbn [zsr] in *. destruct (IH x n m c' Wc Ha R) as [H1|(H1 & H2 & H3)]; [left; lia|right; split; [exact H1|lia]].
  Qed.
  Lemma at_size p : forall e n, wf e -> at_addr e p = Some n -> zs n <= zs e.
  Proof.
    induction p as [|i q IH]; intros e n W Ha; cbn [at_addr] in Ha; [injection Ha as <-; lia|].
    destruct (child e i) as [c|] eqn:E; [|discriminate]. pose proof (child_wf _ _ _ W E) as Wc. specialize (IH c n Wc Ha).
    assert (zs c <= zs e); [|lia]. destruct e as [k b cts|o l r]; cbn [child] in E.
    - apply wf_comm in W as [Wb _]. rewrite zs_comm by (apply wf_nn, Wb). pose proof (zn_nonneg b (wf_nn _ Wb)).
      apply nth_error_split in E as (l1 & l2 & -> & _). rewrite zss_app, zss_cons. pose proof (zss_nonneg l1). pose proof (zss_nonneg l2). lia.
    - rewrite zs_change. pose proof (zsr_pos l). pose proof (zsr_pos r).
      destruct i as [|[|i]]; [destruct l; injection E as <-|destruct r; injection E as <-|discriminate E]; rewrite ?leaf_zs; cbn [zsr] in *; lia.
  Qed.
  Lemma expand_default_size bases noC e x : wf e -> In x (expand offset (rules_default offset bases noC) e) -> (symbols x <= symbols e + 4)%nat.
  Proof.
    intros W Hx. assert (HG : In (rules_default offset) (groups offset)) by (cbn; auto).
    destruct (expand_sound offset _ e W (groups_wf offset _ bases noC HG) x Hx) as (p & n & new & t & Ha & (r & g & Hr & Hg & Hn) & Wn & Ht & Wt & R & Wx).
    pose proof (at_addr_wf _ _ _ W Ha) as Wa. assert (zs x <= zs t) by (rewrite (zs_reord _ _ R); apply zs_standardise, Wt).
    assert (zs x <= zs e + 4); [|unfold zs in *; lia].
    pose proof (others_size bases noC r n g new Wa (default_others bases noC r Hr) Hg Hn).
    destruct (replace_size p e n new t W Ha Ht) as [H1|((b & ->) & H1 & H2)]; [lia|].
    assert (zs new <= 5); [|lia]. apply (leaf_rules bases noC b g new); [|exact Hn]. apply in_concat. eexists. split; [|exact Hg].
    apply in_map_iff. exists r. split; [reflexivity|apply in_app_iff; left; exact Hr].
  Qed.
  Lemma expand_size G bases noC e x : In G (groups offset) -> wf e -> In x (expand offset (G bases noC) e) -> (symbols x <= 2 * symbols e + 3)%nat.
  Proof.
    intros HG W Hx.
    destruct (expand_sound offset _ e W (groups_wf offset _ bases noC HG) x Hx) as (p & n & new & t & Ha & (r & g & Hr & Hg & Hn) & Wn & Ht & Wt & R & Wx).
    pose proof (at_addr_wf _ _ _ W Ha) as Wa. assert (zs x <= zs t) by (rewrite (zs_reord _ _ R); apply zs_standardise, Wt). pose proof (at_size _ _ _ W Ha) as Hle. pose proof (zs_pos e).
    assert (zs x <= 2 * zs e + 3); [|unfold zs in *; lia].
    apply (groups_incl offset G bases noC r HG), all_others in Hr as [->|Hr].
    - destruct Hg as [<-|[]]. pose proof (same_size offset n Wa new Hn). destruct (replace_size p e n new t W Ha Ht) as [Ht1|((b & ->) & Ht1 & Ht2)]; [lia|].
      rewrite leaf_zs in *. lia.
    - pose proof (others_size bases noC r n g new Wa Hr Hg Hn). destruct (replace_size p e n new t W Ha Ht) as [Ht1|((b & ->) & Ht1 & Ht2)]; [lia|].
      rewrite leaf_zs in *. lia.
  Qed.
  Lemma reaches_default_size bases noC e n x : wf e -> reaches_in offset (rules_default offset bases noC) e n x -> wf x /\ (symbols x <= symbols e + 4 * n)%nat.
  Proof.
    intros W H. induction H as [|n x y _ [Wx IH] Hy]; [split; [exact W|lia]|].
    assert (HG : In (rules_default offset) (groups offset)) by (cbn; auto).
    destruct (expand_sound offset _ x Wx (groups_wf offset _ bases noC HG) y Hy) as (? & ? & ? & ? & _ & _ & _ & _ & _ & _ & Wy). split; [exact Wy|].
    pose proof (expand_default_size bases noC x y Wx Hy). lia.
  Qed.
  Lemma reaches_size G bases noC e n x : In G (groups offset) -> wf e -> reaches_in offset (G bases noC) e n x -> wf x /\ (symbols x + 3 <= 2 ^ n * (symbols e + 3))%nat.
  Proof.
    intros HG W H. induction H as [|n x y _ [Wx IH] Hy]; [split; [exact W|cbn; lia]|].
    destruct (expand_sound offset _ x Wx (groups_wf offset _ bases noC HG) y Hy) as (? & ? & ? & ? & _ & _ & _ & _ & _ & _ & Wy). split; [exact Wy|].
    pose proof (expand_size G bases noC x y HG Wx Hy). rewrite Nat.pow_succ_r'. lia.
  Qed.
  (** Nothing better than exponential holds for the groups that can duplicate. *)
  Lemma extract_keeps e : wf e -> ~ singleton e -> extract e = inr e.
  Proof.
    intros W NS. destruct e as [k b c|]; [|reflexivity]. apply wf_comm in W as [Wb _]. destruct (extract_spec k b c Wb) as [(x & -> & -> & _)|[(x & -> & -> & _)|(_ & E)]]; [exfalso; apply NS; exists k, [(x, 1)], []; split; [reflexivity|destruct x; reflexivity]|exfalso; apply NS; exists k, [], [x]; split; reflexivity|exact E].
  Qed.
  Lemma double_step G bases noC e : In G (doubling_groups offset) -> normal offset e -> ~ singleton e ->
    exists x, In x (expand offset (G bases noC) e) /\ normal offset x /\ ~ singleton x /\ (symbols x = 2 * symbols e + 1)%nat.
  Proof.
    intros HG N NS. assert (HG' : In G (groups offset)) by (cbn in *; intuition auto). pose proof (normal_wf offset e N) as W.
    set (t := mk_change offset CP (inr e) (inr e)).
    assert (Hp : produced (G bases noC) e t).
    { exists (change_same offset), (both_changes offset (inr e) None). split; [cbn in HG; destruct HG as [<-|[<-|[<-|[]]]]; cbn; auto 8|]. split; left; reflexivity. }
    destruct (expand_covers offset (G bases noC) e W (groups_wf offset G bases noC HG') [] e t eq_refl Hp) as (x & t' & Hx & Ht & R).
    assert (t' = t) as -> by (cbn [target replace_addr] in Ht; congruence). clear Ht.
    assert (Et : t = Change CP (inr e) (inr e)).
    { unfold t, mk_change. cbn [simplify]. rewrite (normal_fix offset e N), (extract_keeps e W NS). reflexivity. }
    assert (Nt : normal offset (Change CP (inr e) (inr e))).
    { apply normal_iff. intros y [[= <-]|[= <-]]; auto. }
    assert (Est : standardise offset t = Change CP (inr e) (inr e)).
    { rewrite Et. rewrite (standardise_unfold offset) by (apply (normal_wf offset), Nt). rewrite (normal_fix offset _ Nt). reflexivity. }
    rewrite Est in R. exists x. split; [exact Hx|].
    assert (Wx : wf x) by (destruct (expand_sound offset _ e W (groups_wf offset G bases noC HG') x Hx) as (? & ? & ? & ? & _ & _ & _ & _ & _ & _ & Wy); exact Wy).
    split; [eapply normal_reord; [exact Nt|exact Wx|apply reord_sym, R]|].
    split; [intros (k & b & c & -> & _); inversion R|]. apply zs_reord in R. rewrite zs_change in R. cbn [zsr] in R. unfold zs in R. lia.
  Qed.
  Lemma doubling G bases noC e n : In G (doubling_groups offset) -> normal offset e -> ~ singleton e ->
    exists x, reaches_in offset (G bases noC) e n x /\ (symbols x + 1 = 2 ^ n * (symbols e + 1))%nat.
  Proof.
    intros HG N NS. cut (exists x, reaches_in offset (G bases noC) e n x /\ normal offset x /\ ~ singleton x /\ (symbols x + 1 = 2 ^ n * (symbols e + 1))%nat); [intros (x & H1 & _ & _ & H2); eauto|].
    induction n as [|n (x & H1 & Nx & Sx & H2)]; [exists e; repeat (split; [constructor||assumption|]); cbn; lia|].
    destruct (double_step G bases noC x HG Nx Sx) as (y & Hy & Ny & Sy & E). exists y. split; [econstructor; eassumption|]. split; [exact Ny|]. split; [exact Sy|].
    rewrite Nat.pow_succ_r'. lia.
  Qed.

  (** ** The number of expansions *)
  Lemma subseq_length {A} (l m : list A) : subseq l m -> (length l <= length m)%nat.
  Proof. induction 1; cbn [length]; lia. Qed.
  Lemma unique_length {A} (eqb : A -> A -> bool) l : (length (unique eqb l) <= length l)%nat.
  Proof. apply subseq_length, unique_aux_subseq. Qed.
  Lemma concat_length {A B} (f : A -> list B) k l : (forall x, In x l -> length (f x) <= k)%nat -> (length (concat (map f l)) <= length l * k)%nat.
  Proof.
    induction l as [|x l IH]; intros H; [cbn; lia|]. cbn [map concat length]. rewrite app_length. specialize (H x (or_introl eq_refl)) as Hx. specialize (IH (fun y Hy => H y (or_intror Hy))). lia.
  Qed.
  (** The terms of a node. *)
  Definition width (n : kex) : nat := match n with Comm _ b c => 1 + length (celements b) + length c | Change _ _ _ => 3 end.
  Lemma add_nested_count n B : (length (add_nested offset (inr n) (inl B)) <= width n)%nat.
  Proof. destruct n as [[|] b c|o l r]; cbn [add_nested length width]; rewrite ?map_length; lia. Qed.
  Lemma multiply_nested_count n B : (length (multiply_nested offset (inr n) (inl B)) <= width n)%nat.
  Proof. destruct n as [[|] b c|o l r]; cbn [multiply_nested length width]; rewrite ?map_length; lia. Qed.
  Lemma wf_distinct b : wf_counter b -> (length (cpos b) <= length (celements b))%nat.
  Proof.
    intros W. rewrite (wf_cpos _ W). destruct W as [_ H]. induction b as [|[x z] b IH]; [cbn; lia|]. rewrite celements_cons, app_length, repeat_length. cbn [length].
    assert (0 < z) by (apply (H x); left; auto). specialize (IH (fun y w Hy => H y w (or_intror Hy))). cbn [snd]. lia.
  Qed.
  Lemma swap_count n B : wf n -> (length (swap_base offset n B) <= width n)%nat.
  Proof.
    intros W. destruct n as [k b c|o l r]; cbn [swap_base width].
    - apply wf_comm in W as [Wb _]. unfold swap_args. rewrite !map_length. pose proof (wf_distinct b Wb). lia.
    - rewrite app_length. destruct l as [x|x], r as [y|y]; try destruct (base_eqb x B); try destruct (base_eqb y B); cbn; lia.
  Qed.
  Lemma remove_count n : wf n -> (length (remove_a_term offset n) <= width n)%nat.
  Proof.
    intros W. destruct n as [k b c|o l r]; cbn [remove_a_term width]; rewrite map_length; [|cbn; lia].
    apply wf_comm in W as [Wb _]. unfold remove_args. destruct (1 <? _); [|cbn; lia]. rewrite app_length, !map_length, seq_length. pose proof (wf_distinct b Wb). lia.
  Qed.
  Lemma higher_count n : (length (higher_curves offset n) <= 4)%nat.
  Proof.
    destruct n as [[|] b c|o l r]; cbn [higher_curves].
    - destruct (chas (cpos b) bSE); rewrite ?map_length; cbn; lia.
    - destruct (chas (cpos b) bSE); rewrite ?map_length; cbn; lia.
    - rewrite app_length. destruct l, r; rewrite ?map_length; cbn; lia.
  Qed.
  Lemma width_pos n : (1 <= width n)%nat.
  Proof. destruct n; cbn; lia. Qed.
  Lemma both_count n B : (length (both_changes offset (inr n) (Some (inl B))) <= 4)%nat.
  Proof. cbn. lia. Qed.
  Lemma expand_node_count G bases noC n : In G (groups offset) -> wf n ->
    (length (expand_node (G bases noC) n) <= (3 * length bases + 6 * length noC + 13) * width n)%nat.
  Proof.
    intros HG W. unfold expand_node. etransitivity; [apply unique_length|]. pose proof (width_pos n) as Wp.
    assert (F : forall (f : base -> list kex) k l, (forall B, length (f B) <= k)%nat -> (length (concat (map f l)) <= length l * k)%nat) by (intros; apply concat_length; auto).
    assert (H1 : (length (concat (plus_base offset bases n)) <= length bases * width n)%nat) by (apply F; intros B; apply add_nested_count).
    assert (H2 : (length (concat (times_base offset noC n)) <= length noC * width n)%nat) by (apply F; intros B; apply multiply_nested_count).
    assert (H3 : (length (concat (replace_base offset bases n)) <= length bases * width n)%nat) by (apply F; intros B; apply swap_count, W).
    assert (H4 : (length (concat (change_new_base offset noC n)) <= length noC * 4)%nat) by (apply F; intros B; apply both_count).
    assert (H5 : (length (concat (times_shifted_base offset noC n)) <= length noC * 1)%nat).
    { apply F. intros B. assert (E : forall x y, multiply_nested offset (inr y) (inr x) = [multiply offset (inr y) (inr x)]) by (intros x [[|] ? ?|? ? ?]; reflexivity). rewrite E. cbn [length]. lia. }
    assert (H6 : (length (concat (replace_with_singleton offset bases n)) <= length bases * 1)%nat) by (apply F; intros B; cbn; lia).
    assert (H7 : (length (concat (remove_some_term offset n)) <= width n)%nat) by (unfold remove_some_term; cbn [concat]; rewrite app_nil_r; apply remove_count, W).
    assert (H8 : (length (concat (try_higher_curves offset n)) <= 4)%nat) by (unfold try_higher_curves; cbn [concat]; rewrite app_nil_r; apply higher_count).
    assert (H9 : (length (concat (change_same offset n)) <= 2)%nat) by (cbn; lia).
    assert (H10 : (length (concat (change_point_linear offset n)) <= 2)%nat) by (cbn; lia).
    assert (H11 : (length (concat (change_window_constant offset n)) <= 2)%nat) by (cbn; lia).
    assert (H12 : (length (concat (change_window_linear offset n)) <= 2)%nat) by (cbn; lia).
    cbn [groups In] in HG. destruct HG as [<-|[<-|[<-|[<-|[]]]]]; cbn [rules_all rules_default rules_original rules_minimal map concat];
      rewrite ?app_nil_r, ?concat_app, ?app_length; nia.
  Qed.
  (** All nodes together are at most three times as wide as there are symbols. *)
  Definition widths (l : list (kex * (kex -> kex))) : Z := fold_right (fun nf s => Z.of_nat (width (fst nf)) + s) 0 l.
  Lemma widths_app l m : widths (l ++ m) = widths l + widths m.
  Proof. induction l as [|x l IH]; [reflexivity|]. cbn [app widths fold_right]. fold (widths (l ++ m)) (widths l). lia. Qed.
  Lemma widths_map (f : (kex * (kex -> kex)) -> (kex -> kex)) l : widths (map (fun xf => (fst xf, f xf)) l) = widths l.
  Proof. induction l as [|x l IH]; [reflexivity|]. cbn [map widths fold_right fst]. fold (widths (map (fun xf => (fst xf, f xf)) l)) (widths l). lia. Qed.
  Lemma width_comm k b c : wf_counter b -> Z.of_nat (width (Comm k b c)) = 1 + zn b + Z.of_nat (length c).
  Proof.
    intros W. cbn [width]. rewrite <- zn_spec by (apply wf_nn, W). rewrite (Permutation_length (bases_in_elements b (wf_nodup _ W))). lia.
  Qed.
  Lemma leaf_width b : width (Comm KSum [(b, 1)] []) = 2%nat.
  Proof. destruct b; reflexivity. Qed.
  Lemma below_width e : wf e -> Z.of_nat (width e) + widths (occs_below offset e) + 1 <= 3 * zs e.
  Proof.
    induction e as [k bts cts IH|o l r IHl IHr] using kex_ind'; intros W.
    - apply wf_comm in W as [Wb Wc]. rewrite width_comm, zs_comm by (assumption || apply wf_nn, Wb). cbn [occs_below].
      assert (H : forall (ico : list (nat * (kex * list (kex * (kex -> kex))))) (h1 : nat -> kex -> kex -> kex) (h2 : nat -> kex -> (kex * (kex -> kex)) -> kex -> kex),
        widths (concat (map (fun ico => (fst (snd ico), h1 (fst ico) (fst (snd ico))) :: map (fun xf => (fst xf, h2 (fst ico) (fst (snd ico)) xf)) (snd (snd ico))) ico))
        = fold_right (fun ico s => Z.of_nat (width (fst (snd ico))) + widths (snd (snd ico)) + s) 0 ico).
      { induction ico as [|x l IHx]; intros h1 h2; [reflexivity|]. cbn [map concat fold_right]. rewrite widths_app, IHx. cbn [widths fold_right fst].
        fold (widths (map (fun xf => (fst xf, h2 (fst x) (fst (snd x)) xf)) (snd (snd x)))). rewrite (widths_map (h2 (fst x) (fst (snd x)))). lia. }
      rewrite (H _ (fun _ c n => Comm k bts (remove_eq c cts ++ [n])) (fun i _ xf n => Comm k bts (set_nth i cts (snd xf n)))). clear H.
      assert (H : forall j, fold_right (fun (ico : nat * (kex * list (kex * (kex -> kex)))) s => Z.of_nat (width (fst (snd ico))) + widths (snd (snd ico)) + s) 0 (combine (seq j (length cts)) (map (fun c => (c, occs_below offset c)) cts)) + Z.of_nat (length cts) <= 3 * zss cts).
      { clear Wb. induction cts as [|c t IHt]; intros j; [cbn; lia|]. cbn [length seq map combine fold_right fst snd]. rewrite zss_cons.
        pose proof (IH c (or_introl eq_refl) (Wc c (or_introl eq_refl))) as H1. specialize (IHt (fun x Hx => IH x (or_intror Hx)) (fun x Hx => Wc x (or_intror Hx)) (S j)). lia. }
      specialize (H 0%nat). pose proof (zn_nonneg bts (wf_nn _ Wb)). lia.
    - rewrite wf_change in W. rewrite zs_change. cbn [occs_below width]. rewrite widths_app.
      assert (HB : forall (br : branch) (f1 : base -> kex -> kex) (f2 : kex -> kex) (f3 : (kex * (kex -> kex)) -> kex -> kex), (forall x, br = inr x -> Z.of_nat (width x) + widths (occs_below offset x) + 1 <= 3 * zs x) ->
        widths (match br with inl b => [(mkl offset KSum [b] [], f1 b)] | inr x => (x, f2) :: map (fun xf => (fst xf, f3 xf)) (occs_below offset x) end) + 1 <= 3 * zsr br).
      { intros [b|x] f1 f2 f3 Hx; cbn [zsr].
        - rewrite mkl_leaf. cbn [widths fold_right fst]. rewrite leaf_width. lia.
        - cbn [widths fold_right fst]. fold (widths (map (fun xf => (fst xf, f3 xf)) (occs_below offset x))). rewrite widths_map. specialize (Hx x eq_refl). lia. }
      pose proof (HB l (fun _ n => Change o l (inr n)) (fun n => Change o (inr n) r) (fun xf n => Change o (inr (snd xf n)) r) (fun x Ex => IHl x Ex (W x (or_introl Ex)))) as Hl.
      pose proof (HB r (fun _ n => Change o l (inr n)) (fun n => Change o l (inr n)) (fun xf n => Change o l (inr (snd xf n))) (fun x Ex => IHr x Ex (W x (or_intror Ex)))) as Hr.
      assert (HH : forall A B, A + 1 <= 3 * zsr l -> B + 1 <= 3 * zsr r -> Z.of_nat 3 + (A + B) + 1 <= 3 * (1 + zsr l + zsr r)) by lia.
      apply HH; [exact Hl|exact Hr].
  Qed.
  Lemma expand_count G bases noC e : In G (groups offset) -> wf e ->
    (length (expand offset (G bases noC) e) <= per_symbol (length bases) (length noC) * symbols e)%nat.
  Proof.
    intros HG W. unfold expand. etransitivity; [apply unique_length|]. rewrite map_length. unfold per_symbol. set (K := (3 * length bases + 6 * length noC + 13)%nat).
    assert (H : forall l, (forall nf, In nf l -> wf (fst nf)) -> Z.of_nat (length (concat (map (fun nf : kex * (kex -> kex) => map (snd nf) (expand_node (G bases noC) (fst nf))) l))) <= Z.of_nat K * widths l).
    { induction l as [|nf l IH]; intros Hl; [cbn; lia|]. cbn [map concat widths fold_right]. fold (widths l). rewrite app_length, map_length.
      specialize (IH (fun x Hx => Hl x (or_intror Hx))). pose proof (expand_node_count G bases noC (fst nf) HG (Hl nf (or_introl eq_refl))) as H1. fold K in H1. nia. }
    specialize (H (occs offset e)). assert (Ho : forall nf, In nf (occs offset e) -> wf (fst nf)).
    { intros [n f] Hn. destruct (occs_sound offset e n f Hn) as (p & Ha & _). exact (at_addr_wf _ _ _ W Ha). }
    specialize (H Ho). unfold occs in *. cbn [widths fold_right fst] in H. fold (widths (occs_below offset e)) in H. pose proof (below_width e W) as Hw. unfold zs in Hw. nia.
  Qed.
End Size.

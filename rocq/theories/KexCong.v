(** Simplification respects equality up to reordering; sizes; standardise_singleton_root. *)
From Coq Require Import List Bool Arith ZArith Lia Permutation.
From Verif Require Import Py UtilModel UtilSpec UtilProofs KexModel KexSpec KexProofs KexSimp KexMore OpsModel.
Import ListNotations.
Local Open Scope Z_scope.

Definition ceq (a b : counter) : Prop := forall x, cget a x = cget b x.

Lemma reord_branch_cases l m : reord_branch l m ->
  (exists b, l = inl b /\ m = inl b) \/ (exists x y, l = inr x /\ m = inr y /\ reord x y).
Proof. destruct 1; [left|right]; eauto. Qed.

Section WithOffset.
  Variable offset : bool.

  Lemma csum_ceq a b : nodup a -> nodup b -> ceq a b -> csum a = csum b.
  Proof. intros Na Nb H. rewrite (csum_bsum _ Na), (csum_bsum _ Nb), !bsum_expand, !H. reflexivity. Qed.
  Lemma simp_base_ceq k a b n : nodup a -> nodup b -> nonneg a -> ceq a b ->
    ceq (simp_base offset k a n) (simp_base offset k b n).
  Proof.
    intros Na Nb NNa H. assert (NNb : nonneg b) by (intros x; rewrite <- H; apply NNa).
    intros x. destruct k.
    - rewrite !cget_simp_sum by assumption. rewrite !H. destruct x; reflexivity.
    - rewrite !cget_simp_prod by assumption. unfold lone_c. rewrite (csum_ceq a b), !sigmoid_count_expand, !H by assumption. reflexivity.
  Qed.
  Lemma nonneg_cupdate a b : nodup b -> nonneg a -> nonneg b -> nonneg (cupdate a b).
  Proof. intros N Na Nb x. rewrite cget_cupdate by assumption. specialize (Na x). specialize (Nb x). lia. Qed.
  Lemma nonneg_cupdate_list a l : nonneg a -> nonneg (cupdate_list a l).
  Proof. intros Na x. rewrite cget_cupdate_list. specialize (Na x). lia. Qed.

  (** Simplifying before adding more base terms makes no difference (while there are composites). *)
  Lemma lone_c_pos c n : nodup c -> nonneg c -> cget c bWN <= 0 -> (0 < n)%nat -> lone_c c n = false.
  Proof.
    intros N NN W Hn. destruct (lone_c c n) eqn:E; [|reflexivity]. apply lone_c_spec in E; auto; [lia|].
    specialize (NN bWN). lia.
  Qed.
  Lemma simp_base_step k c h n m : nodup c -> nodup h -> nonneg c -> nonneg h -> (0 < n)%nat -> (0 < m)%nat ->
    ceq (simp_base offset k (cupdate (simp_base offset k c n) h) m) (simp_base offset k (cupdate c h) 1).
  Proof.
    intros Nc Nh Pc Ph Hn Hm x.
    assert (N1 : nodup (cupdate (simp_base offset k c n) h)) by (apply cupdate_nodup, simp_base_nodup, Nc).
    assert (N2 : nodup (cupdate c h)) by (apply cupdate_nodup, Nc).
    assert (P1 : nonneg (cupdate (simp_base offset k c n) h)) by (apply nonneg_cupdate; [exact Nh|apply simp_base_nonneg, Nc|exact Ph]).
    assert (P2 : nonneg (cupdate c h)) by (apply nonneg_cupdate; assumption).
    assert (Pcx := Pc). assert (Phx := Ph).
    destruct k.
    - rewrite !cget_simp_sum by assumption. rewrite !cget_cupdate by assumption. rewrite !cget_simp_sum by assumption.
      specialize (Pc x). specialize (Ph x). pose proof (Pcx bLIN). pose proof (Phx bLIN).
      destruct x; try lia. destruct offset; cbn [andb]; [|lia].
      destruct (Z.ltb_spec 0 (cget c bLIN)); destruct (Z.ltb_spec 0 (cget c bLIN + cget h bLIN)); lia.
    - rewrite !cget_simp_prod by assumption.
      pose proof (cget_cupdate (simp_base offset KProd c n) h bWN Nh) as E1. rewrite cget_simp_prod in E1 by assumption.
      pose proof (cget_cupdate c h bWN Nh) as E2.
      pose proof (Pcx bWN). pose proof (Phx bWN).
      destruct (Z.ltb_spec 0 (cget c bWN)) as [W|W]; rewrite E1, E2.
      + destruct (Z.ltb_spec 0 (1 + cget h bWN)); [|lia]. destruct (Z.ltb_spec 0 (cget c bWN + cget h bWN)); [|lia].
        rewrite !cget_cupdate by assumption. rewrite !cget_simp_prod by assumption.
        destruct (Z.ltb_spec 0 (cget c bWN)); [|lia]. destruct x; reflexivity.
      + destruct (Z.ltb_spec 0 (cget c bWN + cget h bWN)) as [W2|W2].
        * rewrite !cget_cupdate by assumption. rewrite !cget_simp_prod by assumption.
          destruct (Z.ltb_spec 0 (cget c bWN)); [lia|]. destruct x; reflexivity.
        * rewrite !lone_c_pos by (assumption || lia). rewrite !cget_cupdate by assumption. rewrite !cget_simp_prod by assumption.
          destruct (Z.ltb_spec 0 (cget c bWN)); [lia|].
          specialize (Pc x). specialize (Ph x).
          destruct x; try reflexivity; try lia.
          destruct (0 <? _); destruct (0 <? _); reflexivity.
  Qed.
  Definition total (b : counter) (hs : list kex) : counter := fold_left (fun acc h => cupdate acc (bts_of h)) hs b.
  Lemma total_nodup b hs : nodup b -> nodup (total b hs).
  Proof. revert b; induction hs as [|h hs IH]; intros b N; [exact N|]. apply IH, cupdate_nodup, N. Qed.
  Definition hsum (hs : list kex) (x : base) : Z := fold_right (fun h s => cget (bts_of h) x + s) 0 hs.
  Lemma cget_total b hs x : (forall h, In h hs -> wf_counter (bts_of h)) -> cget (total b hs) x = cget b x + hsum hs x.
  Proof.
    revert b; induction hs as [|h hs IH]; intros b W; simpl; [lia|].
    unfold total in *. simpl. rewrite IH by (intros; apply W; right; auto).
    rewrite cget_cupdate by (apply wf_nodup, W; left; auto). lia.
  Qed.
  Lemma hsum_nonneg hs x : (forall h, In h hs -> wf_counter (bts_of h)) -> 0 <= hsum hs x.
  Proof.
    induction hs as [|h hs IH]; intros W; simpl; [lia|].
    pose proof (wf_nonneg _ x (W h (or_introl eq_refl))). specialize (IH (fun h Hh => W h (or_intror Hh))). lia.
  Qed.
  Lemma absorb_bts_closed k hs : forall b ns, hs <> [] -> length ns = length hs -> Forall (fun n => (0 < n)%nat) ns ->
    nodup b -> nonneg b -> (forall h, In h hs -> wf_counter (bts_of h)) ->
    ceq (absorb_bts offset k b hs ns) (simp_base offset k (total b hs) 1).
  Proof.
    induction hs as [|h hs IH]; intros b ns Hne L P N NN W; [congruence|].
    destruct ns as [|n ns]; [discriminate|]. inversion P as [|? ? Pn Pns]; subst.
    assert (Wh : wf_counter (bts_of h)) by (apply W; left; auto).
    change (absorb_bts offset k b (h :: hs) (n :: ns)) with (absorb_bts offset k (simp_base offset k (cupdate b (bts_of h)) n) hs ns).
    change (total b (h :: hs)) with (total (cupdate b (bts_of h)) hs).
    assert (N1 : nodup (cupdate b (bts_of h))) by (apply cupdate_nodup, N).
    assert (NN1 : nonneg (cupdate b (bts_of h))) by (apply nonneg_cupdate; [apply wf_nodup, Wh|exact NN|apply wf_nn, Wh]).
    destruct hs as [|h2 hs].
    - destruct ns; [|discriminate]. cbn. intros x. unfold absorb_bts; cbn [combine fold_left total].
      destruct k; [rewrite !cget_simp_sum by assumption; reflexivity|].
      rewrite !cget_simp_prod by assumption. destruct (Z.ltb_spec 0 (cget (cupdate b (bts_of h)) bWN)); [reflexivity|].
      rewrite !lone_c_pos by (assumption || lia). reflexivity.
    - set (c := cupdate b (bts_of h)) in *. intros x. rewrite IH; [|discriminate|simpl in *; congruence|assumption| | |].
      + (* push the inner simplification out *)
        assert (G : ceq (total (simp_base offset k c n) (h2 :: hs)) (cupdate (simp_base offset k c n) (total [] (h2 :: hs)))).
        { intros y. rewrite cget_cupdate by (apply total_nodup; constructor).
          rewrite !cget_total by (intros; apply W; right; auto). change (cget [] y) with 0. lia. }
        assert (G2 : ceq (cupdate c (total [] (h2 :: hs))) (total c (h2 :: hs))).
        { intros y. rewrite cget_cupdate by (apply total_nodup; constructor).
          rewrite !cget_total by (intros; apply W; right; auto). change (cget [] y) with 0. lia. }
        assert (Nt : nodup (total [] (h2 :: hs))) by (apply total_nodup; constructor).
        assert (NNt : nonneg (total [] (h2 :: hs))).
        { intros y. rewrite cget_total by (intros; apply W; right; auto). change (cget [] y) with 0.
          pose proof (hsum_nonneg (h2 :: hs) y (fun h Hh => W h (or_intror Hh))). lia. }
        transitivity (cget (simp_base offset k (cupdate (simp_base offset k c n) (total [] (h2 :: hs))) 1) x).
        * apply simp_base_ceq; [apply total_nodup, simp_base_nodup, N1|apply cupdate_nodup, simp_base_nodup, N1| |exact G].
          intros y. rewrite G. apply nonneg_cupdate; [exact Nt|apply simp_base_nonneg, N1|exact NNt].
        * rewrite simp_base_step by (assumption || lia).
          apply simp_base_ceq; [apply cupdate_nodup, N1|apply total_nodup, N1|apply nonneg_cupdate; assumption|exact G2].
      + apply simp_base_nodup, N1.
      + apply simp_base_nonneg, N1.
      + intros; apply W; right; auto.
  Qed.

  (** ** Lists equal up to reordering and [reord] *)
  Definition lreord (l m : list kex) : Prop := exists m', Permutation m m' /\ Forall2 reord l m'.
  Lemma lreord_refl l : lreord l l.
  Proof. exists l; split; auto. induction l; constructor; auto. apply reord_refl. Qed.
  Lemma lreord_perm l m : Permutation l m -> lreord l m.
  Proof. intros H. exists l; split; [symmetry; exact H|]. clear. induction l; constructor; auto. apply reord_refl. Qed.
  Lemma lreord_length l m : lreord l m -> length l = length m.
  Proof. intros (m' & P & F). rewrite (Permutation_length P). clear P. induction F; simpl; congruence. Qed.
  Lemma reord_comm_iff k b1 c1 b2 c2 : reord (Comm k b1 c1) (Comm k b2 c2) <-> ceq b1 b2 /\ lreord c1 c2.
  Proof.
    split.
    - intros H. inversion H; subst. split; [assumption|]. exists c2'; split; auto. apply reord_list_Forall2; auto.
    - intros [H (m & P & F)]. econstructor; eauto. apply reord_list_Forall2; auto.
  Qed.
  Lemma lreord_app l1 l2 m1 m2 : lreord l1 m1 -> lreord l2 m2 -> lreord (l1 ++ l2) (m1 ++ m2).
  Proof.
    intros (a & P1 & F1) (b & P2 & F2). exists (a ++ b). split; [apply Permutation_app; auto|apply Forall2_app; auto].
  Qed.
  Lemma Permutation_filter {A} (p : A -> bool) l m : Permutation l m -> Permutation (filter p l) (filter p m).
  Proof.
    induction 1; simpl; try destruct (p x); try destruct (p y); auto; try constructor; auto.
    etransitivity; eauto.
  Qed.
  Lemma lreord_filter p l m : (forall x y, reord x y -> p x = p y) -> lreord l m -> lreord (filter p l) (filter p m).
  Proof.
    intros Hp (m' & P & F). exists (filter p m'). split; [apply Permutation_filter, P|]. clear P.
    induction F; simpl; [constructor|]. rewrite (Hp _ _ H). destruct (p y); auto.
  Qed.
  Lemma lreord_concat_map (f : kex -> list kex) l m : (forall x y, reord x y -> lreord (f x) (f y)) -> lreord l m ->
    lreord (concat (map f l)) (concat (map f m)).
  Proof.
    intros Hf (m' & P & F).
    assert (H1 : lreord (concat (map f l)) (concat (map f m'))).
    { clear P. induction F; simpl; [apply lreord_refl|]. apply lreord_app; auto. }
    destruct H1 as (m'' & P1 & F1). exists m''. split; [|exact F1]. etransitivity; [|exact P1].
    rewrite <- !flat_map_concat_map. apply Permutation_flat_map, P.
  Qed.
  Lemma reord_kind x y k : reord x y -> is_kind k x = is_kind k y.
  Proof. destruct 1; reflexivity. Qed.
  Lemma reord_kids x y : reord x y -> lreord (kids x) (kids y).
  Proof. destruct 1; simpl; [exists c2'; split; auto; apply reord_list_Forall2; auto|apply lreord_refl]. Qed.
  Lemma reord_bts x y : reord x y -> ceq (bts_of x) (bts_of y).
  Proof. destruct 1; simpl; [assumption|intros b; reflexivity]. Qed.
  Lemma raised_lreord k l m : lreord l m -> lreord (raised k l) (raised k m).
  Proof.
    intros H. unfold raised. apply lreord_app.
    - apply lreord_filter; [intros x y R; rewrite (reord_kind x y k R); reflexivity|exact H].
    - apply lreord_concat_map; [apply reord_kids|]. apply lreord_filter; [intros x y R; apply reord_kind, R|exact H].
  Qed.
  Lemma hsum_lreord l m x : lreord l m -> hsum l x = hsum m x.
  Proof.
    intros (m' & P & F). transitivity (hsum m' x).
    - clear P. induction F; simpl; [reflexivity|]. rewrite (reord_bts _ _ H), IHF. reflexivity.
    - clear F. induction P; simpl; lia.
  Qed.
  Lemma lreord_in l m x : lreord l m -> In x l -> exists y, In y m /\ reord x y.
  Proof.
    intros (m' & P & F) Hx. induction F as [|a b l' m'' R F IH] in m, P, Hx |- *; [contradiction|].
    destruct Hx as [<-|Hx].
    - exists b. split; [|exact R]. eapply Permutation_in; [symmetry; exact P|]. left; auto.
    - destruct (IH m'' (Permutation_refl _) Hx) as (y & Hy & Ry). exists y. split; [|exact Ry].
      eapply Permutation_in; [symmetry; exact P|]. right; auto.
  Qed.

  (** ** extract *)
  Lemma wf_ceq_single b n c : wf_counter c -> ceq [(b, n)] c -> 0 < n -> c = [(b, n)].
  Proof.
    intros W H Hn. pose proof (H b) as Hb. rewrite cget_cons, base_eqb_refl in Hb.
    assert (Hin : In (b, n) c) by (rewrite Hb; apply cget_nonzero_in; lia).
    assert (forall x v, In (x, v) c -> x = b).
    { intros x v Hv. destruct (base_eq_dec x b); [assumption|]. exfalso. destruct W as [N W].
      pose proof (W x v Hv). pose proof (H x) as Hx. rewrite (cget_in c x v N Hv), cget_cons in Hx.
      destruct (base_eqb b x) eqn:E; [apply base_eqb_spec in E; congruence|]. change (cget [] x) with 0 in Hx. lia. }
    destruct c as [|[b1 n1] c]; [contradiction|]. assert (b1 = b) as -> by (eapply H0; left; auto).
    destruct c as [|[b2 n2] c].
    - destruct Hin as [[= <-]|[]]; reflexivity.
    - exfalso. assert (b2 = b) as -> by (eapply H0; right; left; auto). destruct W as [N _]. inversion N as [|? ? Hni _]; subst.
      apply Hni. left; auto.
  Qed.
  Lemma wf_ceq_nil c : wf_counter c -> ceq [] c -> c = [].
  Proof.
    intros W H. destruct c as [|[b n] c]; [reflexivity|]. destruct W as [N W]. specialize (W b n (or_introl eq_refl)).
    specialize (H b). rewrite cget_cons, base_eqb_refl in H. change (cget [] b) with 0 in H. lia.
  Qed.
  Lemma ceq_sym a b : ceq a b -> ceq b a.
  Proof. intros H x. symmetry. apply H. Qed.
  Lemma extract_reord x y : wf_top x -> wf_top y -> reord x y -> reord_branch (extract x) (extract y).
  Proof.
    intros Wx Wy R. destruct x as [k bts cts|c l r], y as [k' bts' cts'|c' l' r']; try (inversion R; fail).
    2:{ simpl. constructor. exact R. }
    assert (k' = k) as -> by (inversion R; auto). pose proof R as R0. apply reord_comm_iff in R as [Hc Hl].
    pose proof (lreord_length _ _ Hl) as Hlen.
    destruct (extract_spec k bts cts Wx) as [(b & -> & -> & ->)|[(x & -> & -> & ->)|(T & E)]].
    - destruct cts'; [|discriminate]. rewrite (wf_ceq_single b 1 bts' Wy Hc) by lia. simpl. constructor.
    - rewrite (wf_ceq_nil bts' Wy Hc). destruct cts' as [|y [|? ?]]; try discriminate. simpl. constructor.
      destruct Hl as (m' & P & F). inversion F as [|? z ? l0 Rz Fz]; subst. inversion Fz; subst.
      apply Permutation_sym, Permutation_length_1_inv in P. injection P as ->. exact Rz.
    - rewrite E. destruct (extract_spec k bts' cts' Wy) as [(b & -> & -> & _)|[(x & -> & -> & _)|(T' & E')]].
      + exfalso. apply T. destruct cts; [|discriminate]. rewrite (wf_ceq_single b 1 bts Wx (ceq_sym _ _ Hc)) by lia.
        rewrite terms_bsum, bsum_expand, !cget_cons. destruct b; reflexivity.
      + exfalso. apply T. rewrite (wf_ceq_nil bts Wx (ceq_sym _ _ Hc)). destruct cts as [|? [|? ?]]; try discriminate. reflexivity.
      + rewrite E'. constructor. exact R0.
  Qed.
  Lemma bases_of_count l b : Z.of_nat (count_occ base_eq_dec (bases_of l) b) =
    fold_right (fun x s => (match x with inl b' => if base_eqb b' b then 1 else 0 | inr _ => 0 end) + s) 0 l.
  Proof.
    unfold bases_of. induction l as [|[b'|e] l IH]; cbn [map concat fold_right app]; [reflexivity| |exact IH].
    cbn [count_occ]. destruct (base_eq_dec b' b) as [->|Hn].
    - rewrite base_eqb_refl. lia.
    - destruct (base_eqb b' b) eqn:E; [apply base_eqb_spec in E; congruence|]. lia.
  Qed.
  Lemma extract_lists l m : (forall x, In x l -> wf_top x) -> (forall x, In x m -> wf_top x) -> lreord l m ->
    lreord (kexs_of (map extract l)) (kexs_of (map extract m))
    /\ forall b, count_occ base_eq_dec (bases_of (map extract l)) b = count_occ base_eq_dec (bases_of (map extract m)) b.
  Proof.
    intros Wl Wm (m' & P & F).
    assert (Wm' : forall x, In x m' -> wf_top x) by (intros x Hx; apply Wm; eapply Permutation_in; [symmetry|]; eauto).
    assert (B : Forall2 reord_branch (map extract l) (map extract m')).
    { clear P Wm. induction F as [|a b l' m'' R F IH]; simpl; [constructor|]. constructor.
      - apply extract_reord; [apply Wl|apply Wm'|exact R]; left; auto.
      - apply IH; intros; [apply Wl|apply Wm']; right; auto. }
    assert (Pm : Permutation (map extract m) (map extract m')) by (apply Permutation_map, P).
    split.
    - exists (kexs_of (map extract m')). split.
      + unfold kexs_of. rewrite <- !flat_map_concat_map. apply Permutation_flat_map, Pm.
      + clear P Wm Pm. induction B as [|a b l' m'' R B IH]; [constructor|]. unfold kexs_of in *. simpl.
        apply reord_branch_cases in R. destruct R as [(b0 & -> & ->)|(x & y & -> & -> & Rxy)]; simpl; auto.
    - intros b. apply Nat2Z.inj. rewrite !bases_of_count. transitivity (fold_right (fun x s =>
        (match x with inl b' => if base_eqb b' b then 1 else 0 | inr _ => 0 end) + s) 0 (map extract m')).
      + clear P Wm Pm. induction B as [|a b' l' m'' R B IH]; [reflexivity|]. cbn [fold_right]. rewrite IH.
        apply reord_branch_cases in R. destruct R as [(b0 & -> & ->)|(x & y & -> & -> & Rxy)]; reflexivity.
      + clear B F P. induction Pm; cbn [fold_right]; lia.
  Qed.

  Lemma simp_node_reord k b1 b2 c1 c2 :
    wf_counter b1 -> wf_counter b2 -> (forall c, In c c1 -> wf c) -> (forall c, In c c2 -> wf c) ->
    ceq b1 b2 -> lreord c1 c2 -> reord (simp_node offset k b1 c1) (simp_node offset k b2 c2).
  Proof.
    intros W1 W2 Wc1 Wc2 Hb Hc.
    destruct (simp_node_spec offset k b1 c1) as (ns1 & L1 & P1 & E1). destruct (simp_node_spec offset k b2 c2) as (ns2 & L2 & P2 & E2).
    cbv zeta in E1, E2. rewrite E1, E2. clear E1 E2.
    set (h1 := filter (is_kind k) c1) in *. set (h2 := filter (is_kind k) c2) in *.
    assert (Hh : lreord h1 h2) by (apply lreord_filter; [intros x y R; apply reord_kind, R|exact Hc]).
    assert (Wh1 : forall h, In h h1 -> wf_counter (bts_of h)) by (intros h Hi; apply filter_In in Hi as [Hi _]; apply wf_top_of, Wc1, Hi).
    assert (Wh2 : forall h, In h h2 -> wf_counter (bts_of h)) by (intros h Hi; apply filter_In in Hi as [Hi _]; apply wf_top_of, Wc2, Hi).
    set (a1 := absorb_bts offset k b1 h1 ns1). set (a2 := absorb_bts offset k b2 h2 ns2).
    assert (Wa1 : wf_counter a1) by (apply absorb_bts_wf, W1). assert (Wa2 : wf_counter a2) by (apply absorb_bts_wf, W2).
    assert (Ha : ceq a1 a2).
    { destruct h1 as [|x h1'] eqn:Eh1.
      - pose proof (lreord_length _ _ Hh) as Ll. destruct h2; [|discriminate]. exact Hb.
      - assert (h2 <> []) by (pose proof (lreord_length _ _ Hh) as Ll; intros ->; discriminate).
        intros y. unfold a1, a2. rewrite !absorb_bts_closed; auto; try discriminate;
          try (apply wf_nodup; assumption); try (apply wf_nn; assumption).
        apply simp_base_ceq; try (apply total_nodup, wf_nodup; assumption).
        + intros z. rewrite cget_total by assumption. pose proof (wf_nonneg _ z W1). pose proof (hsum_nonneg _ z Wh1). lia.
        + intros z. rewrite !cget_total by assumption. rewrite Hb, (hsum_lreord _ _ z Hh). reflexivity. }
    assert (Wr : forall k c, (forall x, In x c -> wf x) -> forall x, In x (raised k c) -> wf_top x).
    { intros k0 c W x Hx. apply raised_in in Hx as (y & Hy & [->|Hx]); apply wf_top_of; [apply W, Hy|].
      eapply wf_sub; [apply W, Hy|apply kids_node, Hx]. }
    destruct (extract_lists (raised k c1) (raised k c2) (Wr k c1 Wc1) (Wr k c2 Wc2) (raised_lreord k c1 c2 Hc)) as [Hk Hbs].
    pose proof (lreord_length _ _ Hk) as Hlen. apply reord_comm_iff. split; [|exact Hk]. rewrite Hlen.
    apply simp_base_ceq; try (apply simp_base_nodup, cupdate_list_nodup, wf_nodup; assumption).
    - apply simp_base_nonneg, cupdate_list_nodup, wf_nodup, Wa1.
    - apply simp_base_ceq; try (apply cupdate_list_nodup, wf_nodup; assumption).
      + apply nonneg_cupdate_list, wf_nn, Wa1.
      + intros x. rewrite !cget_cupdate_list, Ha, Hbs. reflexivity.
  Qed.
  Lemma simplify_wf e : wf e -> wf (simplify offset e).
  Proof. intros W. apply simplify_card, W. Qed.
  Lemma wf_child k bts cts c : wf (Comm k bts cts) -> In c cts -> wf c.
  Proof. intros W H. eapply wf_sub; [exact W|]. eapply node_comm; [exact H|constructor]. Qed.
  Lemma wf_comm k bts cts : wf (Comm k bts cts) <-> wf_counter bts /\ forall c, In c cts -> wf c.
  Proof.
    split.
    - intros W. split; [eapply W; constructor|]. intros c Hc. eapply wf_child; eauto.
    - intros [W Wc] k' b' c' Hn. apply node_comm_inv in Hn as [[= -> -> ->]|(x & Hx & Hn)]; [exact W|]. eapply Wc; eauto.
  Qed.
  Lemma wf_change o l r : wf (Change o l r) <-> forall x, l = inr x \/ r = inr x -> wf x.
  Proof.
    split.
    - intros W x Hx. eapply wf_sub; [exact W|]. destruct Hx as [->| ->]; [apply node_left|apply node_right]; constructor.
    - intros W k' b' c' Hn. apply node_change_inv in Hn as [E|[(x & -> & Hn)|(x & -> & Hn)]]; [discriminate| |]; eapply W; eauto.
  Qed.
  Lemma simplify_reord a : forall b, wf a -> wf b -> reord a b -> reord (simplify offset a) (simplify offset b).
  Proof.
    induction a as [k bts cts IH|o l r IHl IHr] using kex_ind'; intros b Wa Wb R.
    - destruct b as [k' bts' cts'|]; [|inversion R]. assert (k' = k) as -> by (inversion R; auto).
      apply reord_comm_iff in R as [Hb (m' & P & F)]. cbn [simplify].
      apply wf_comm in Wa as [Wb1 Wc1]. apply wf_comm in Wb as [Wb2 Wc2].
      apply simp_node_reord; auto.
      + intros c Hc. apply in_map_iff in Hc as (c0 & <- & Hc0). apply simplify_wf, Wc1, Hc0.
      + intros c Hc. apply in_map_iff in Hc as (c0 & <- & Hc0). apply simplify_wf, Wc2, Hc0.
      + exists (map (simplify offset) m'). split; [apply Permutation_map, P|].
        assert (Wm : forall x, In x m' -> wf x) by (intros x Hx; apply Wc2; eapply Permutation_in; [symmetry|]; eauto).
        clear P Wc2. induction F as [|x y l m R F IHF]; simpl; [constructor|]. constructor.
        * apply IH; [left; auto|apply Wc1; left; auto|apply Wm; left; auto|exact R].
        * apply IHF; intros; [apply IH|apply Wc1|apply Wm]; try right; auto.
    - destruct b as [|o' l' r']; [inversion R|]. apply reord_change_inv in R as (l2 & r2 & [= -> -> ->] & Rl & Rr).
      cbn [simplify]. rewrite wf_change in Wa, Wb. constructor.
      + apply reord_branch_cases in Rl as [(b & -> & ->)|(x & y & -> & -> & R)]; [constructor|].
        apply extract_reord; [apply wf_top_of, simplify_wf, Wa; auto|apply wf_top_of, simplify_wf, Wb; auto|].
        apply IHl; [reflexivity|apply Wa; auto|apply Wb; auto|exact R].
      + apply reord_branch_cases in Rr as [(b & -> & ->)|(x & y & -> & -> & R)]; [constructor|].
        apply extract_reord; [apply wf_top_of, simplify_wf, Wa; auto|apply wf_top_of, simplify_wf, Wb; auto|].
        apply IHr; [reflexivity|apply Wa; auto|apply Wb; auto|exact R].
  Qed.

  (** ** Sizes *)
  Definition sizes (l : list kex) : nat := list_sum (map size l).
  Lemma sizes_app l m : sizes (l ++ m) = (sizes l + sizes m)%nat.
  Proof. unfold sizes. rewrite map_app, list_sum_app. reflexivity. Qed.
  Lemma sizes_cons x l : sizes (x :: l) = (size x + sizes l)%nat.
  Proof. reflexivity. Qed.
  Lemma size_pos e : (0 < size e)%nat.
  Proof. destruct e; simpl; lia. Qed.
  Lemma size_comm k bts cts : size (Comm k bts cts) = S (sizes cts).
  Proof. reflexivity. Qed.
  Lemma sizes_in x l : In x l -> (size x <= sizes l)%nat.
  Proof. induction l as [|y l IH]; [intros []|]. rewrite sizes_cons. intros [->|H]; [lia|]. specialize (IH H). lia. Qed.
  Lemma raised_sizes k cts : (sizes (raised k cts) <= sizes cts)%nat.
  Proof.
    unfold raised. rewrite sizes_app. induction cts as [|c t IH]; [simpl; lia|]. cbn [filter].
    destruct (is_kind k c) eqn:E; cbn [negb map concat]; rewrite ?sizes_cons, ?sizes_app; [|lia].
    destruct c as [k' b' c'|]; [|discriminate]. cbn [kids]. rewrite size_comm. lia.
  Qed.
  Lemma extract_size e x : extract e = inr x -> (size x <= size e)%nat.
  Proof.
    destruct e as [k bts cts|]; simpl; [|intros [= <-]; simpl; lia].
    destruct ((csum bts =? 1) && Nat.eqb (length cts) 0).
    - destruct (celements bts); [|discriminate]. intros [= <-]. simpl; lia.
    - destruct ((csum bts =? 0) && Nat.eqb (length cts) 1).
      + destruct cts; intros [= <-]; simpl; lia.
      + intros [= <-]. simpl; lia.
  Qed.
  Lemma kexs_sizes l : (sizes (kexs_of (map extract l)) <= sizes l)%nat.
  Proof.
    unfold kexs_of. induction l as [|e l IH]; [simpl; lia|]. cbn [map concat]. rewrite sizes_app, sizes_cons.
    destruct (extract e) as [b|x] eqn:E; [simpl; lia|]. apply extract_size in E. simpl sizes at 1. unfold sizes at 1. simpl. lia.
  Qed.
  Lemma simplify_size e : (size (simplify offset e) <= size e)%nat.
  Proof.
    induction e as [k bts cts IH|o l r IHl IHr] using kex_ind'.
    - cbn [simplify]. destruct (simp_node_spec offset k bts (map (simplify offset) cts)) as (ns & _ & _ & E). cbv zeta in E. rewrite E.
      rewrite !size_comm. pose proof (kexs_sizes (raised k (map (simplify offset) cts))) as H1.
      pose proof (raised_sizes k (map (simplify offset) cts)) as H2.
      assert (H3 : (sizes (map (simplify offset) cts) <= sizes cts)%nat).
      { clear - IH. induction cts as [|c t IHt]; [simpl; lia|]. cbn [map]. rewrite !sizes_cons.
        pose proof (IH c (or_introl eq_refl)). specialize (IHt (fun x Hx => IH x (or_intror Hx))). lia. }
      lia.
    - cbn [simplify size].
      assert (HB : forall br : branch, (forall x, br = inr x -> (size (simplify offset x) <= size x)%nat) ->
        ((match (match br with inl b => inl b | inr x => extract (simplify offset x) end) with inl _ => 0 | inr x => size x end)
         <= match br with inl _ => 0 | inr x => size x end)%nat).
      { intros [b|x] Hx; [lia|]. destruct (extract (simplify offset x)) as [b|y] eqn:E; [lia|].
        apply extract_size in E. specialize (Hx x eq_refl). lia. }
      specialize (HB l IHl) as H1. specialize (HB r IHr) as H2. lia.
  Qed.

  (** ** standardise *)
  Lemma is_singleton_spec bts cts : wf_counter bts -> (is_singleton bts cts = true <-> terms bts cts = 1).
  Proof. intros W. unfold is_singleton. rewrite terms_csum by (apply wf_nodup, W). apply Z.eqb_eq. Qed.
  Lemma extract_single k bts cts x : wf_counter bts -> extract (Comm k bts cts) = inr x -> is_singleton bts cts = true -> cts = [x].
  Proof.
    intros W E S. apply is_singleton_spec in S; [|exact W].
    destruct (extract_spec k bts cts W) as [(b & -> & -> & E')|[(y & -> & -> & E')|(T & _)]]; rewrite ?E' in E; try congruence.
  Qed.
  Lemma standardise_fuel_enough n : forall e, wf e -> (size e <= n)%nat -> standardise_fuel offset n e = standardise offset e.
  Proof.
    induction n as [n IH] using lt_wf_ind. intros e W Hn. pose proof (size_pos e) as Hp. unfold standardise.
    destruct n as [|n]; [lia|]. destruct (size e) as [|m] eqn:Es; [lia|]. cbn [standardise_fuel].
    pose proof (simplify_size e) as Hs. pose proof (simplify_wf e W) as Ws.
    destruct (simplify offset e) as [k bts cts|] eqn:E; [|reflexivity]. apply wf_comm in Ws as [Wb Wc].
    destruct (extract (Comm k bts cts)) as [b|x] eqn:Ex; [reflexivity|].
    destruct (is_singleton bts cts) eqn:S; [|reflexivity].
    pose proof (extract_single k bts cts x Wb Ex S) as Ec. subst cts.
    assert (Wx : wf x) by (apply Wc; left; auto). rewrite size_comm, Es in Hs. unfold sizes in Hs; simpl in Hs.
    rewrite (IH n) by (assumption || lia). rewrite (IH m) by (assumption || lia). reflexivity.
  Qed.
  (** The recursion equation of the python function. *)
  Lemma standardise_unfold e : wf e ->
    standardise offset e =
      match simplify offset e with
      | Comm k bts cts =>
          match extract (Comm k bts cts) with
          | inl b => mkl offset KSum [b] []
          | inr x => if is_singleton bts cts then standardise offset x else Comm k bts cts
          end
      | Change o l r => Change o l r
      end.
  Proof.
    intros W. pose proof (size_pos e) as Hp. unfold standardise at 1. destruct (size e) as [|m] eqn:Es; [lia|]. cbn [standardise_fuel].
    pose proof (simplify_size e) as Hs. pose proof (simplify_wf e W) as Ws.
    destruct (simplify offset e) as [k bts cts|] eqn:E; [|reflexivity]. apply wf_comm in Ws as [Wb Wc].
    destruct (extract (Comm k bts cts)) as [b|x] eqn:Ex; [reflexivity|].
    destruct (is_singleton bts cts) eqn:S; [|reflexivity].
    pose proof (extract_single k bts cts x Wb Ex S) as Ec. subst cts.
    rewrite size_comm, Es in Hs. unfold sizes in Hs; simpl in Hs.
    apply standardise_fuel_enough; [apply Wc; left; auto|lia].
  Qed.
  Lemma is_singleton_ceq b1 b2 c1 c2 : wf_counter b1 -> wf_counter b2 -> ceq b1 b2 -> length c1 = length c2 ->
    is_singleton b1 c1 = is_singleton b2 c2.
  Proof. intros W1 W2 H L. unfold is_singleton. rewrite (csum_ceq b1 b2), L by (assumption || apply wf_nodup; assumption). reflexivity. Qed.
  Lemma standardise_reord a b : wf a -> wf b -> reord a b -> reord (standardise offset a) (standardise offset b).
  Proof.
    remember (size a) as n eqn:En. revert a b En. induction n as [n IH] using lt_wf_ind. intros a b En Wa Wb R.
    pose proof (simplify_reord a b Wa Wb R) as Rs. pose proof (simplify_wf a Wa) as Wsa. pose proof (simplify_wf b Wb) as Wsb.
    pose proof (simplify_size a) as Hs. rewrite (standardise_unfold a Wa), (standardise_unfold b Wb).
    destruct (simplify offset a) as [k bts cts|o l r] eqn:Ea, (simplify offset b) as [k' bts' cts'|o' l' r'] eqn:Eb; try (inversion Rs; fail).
    2:{ exact Rs. }
    pose proof (extract_reord _ _ (wf_top_of _ Wsa) (wf_top_of _ Wsb) Rs) as Re.
    assert (k' = k) as -> by (inversion Rs; auto). pose proof Rs as Rs0. apply reord_comm_iff in Rs as [Hc Hl].
    apply wf_comm in Wsa as [Wb1 Wc1]. apply wf_comm in Wsb as [Wb2 Wc2].
    rewrite <- (is_singleton_ceq bts bts' cts cts' Wb1 Wb2 Hc (lreord_length _ _ Hl)).
    apply reord_branch_cases in Re as [(x & E1 & E2)|(x & y & E1 & E2 & Rxy)]; rewrite E1, E2; [apply reord_refl|].
    destruct (is_singleton bts cts) eqn:S; [|exact Rs0].
    pose proof (extract_single k bts cts x Wb1 E1 S) as ->.
    assert (S' : is_singleton bts' cts' = true) by (rewrite <- (is_singleton_ceq bts bts' [x] cts' Wb1 Wb2 Hc (lreord_length _ _ Hl)); exact S).
    pose proof (extract_single k bts' cts' y Wb2 E2 S') as ->.
    eapply IH; [|reflexivity|apply Wc1; left; auto|apply Wc2; left; auto|exact Rxy].
    rewrite size_comm in Hs. unfold sizes in Hs; simpl in Hs. lia.
  Qed.
  Lemma standardise_wf e : wf e -> wf (standardise offset e).
  Proof.
    remember (size e) as n eqn:En. revert e En. induction n as [n IH] using lt_wf_ind. intros e En W.
    pose proof (simplify_size e) as Hs. pose proof (simplify_wf e W) as Ws. rewrite (standardise_unfold e W).
    destruct (simplify offset e) as [k bts cts|o l r] eqn:E; [|exact Ws]. pose proof Ws as Ws0. apply wf_comm in Ws as [Wb Wc].
    destruct (extract (Comm k bts cts)) as [b|x] eqn:Ex; [rewrite mkl_leaf; intros ? ? ? Hn;
      apply node_comm_inv in Hn as [[= -> -> ->]|(y & [] & _)]; split; [repeat constructor; intros []|intros ? ? [[= <- <-]|[]]; lia]|].
    destruct (is_singleton bts cts) eqn:S; [|exact Ws0].
    pose proof (extract_single k bts cts x Wb Ex S) as ->. eapply IH; [|reflexivity|apply Wc; left; auto].
    rewrite size_comm in Hs. unfold sizes in Hs; simpl in Hs. lia.
  Qed.
End WithOffset.

(** C02 public versions and witnesses, C07, C12. *)
From Coq Require Import Reals Lra List Bool Arith ZArith Lia Permutation Morphisms Setoid.
From Verif Require Import Py UtilModel UtilSpec UtilProofs KexModel KexSpec KexProofs KexSimp KexMore OpsModel KexCong OpsSpec OpsProofs KernModel KernSpec KernProper SemModel SemSpec SemProofs SemSimp SemMore.
Import ListNotations.
Local Open Scope Z_scope.

(** ** C02 *)
Lemma mk_family offset k bts cts :
  wf_counter bts -> sigmoid_free (Comm k bts cts) -> (forall c, In c cts -> built offset c /\ non_empty c /\ no_c_product k c) ->
  mk offset k bts cts = mk false k bts cts -> same_family (covariances offset (mk offset k bts cts)) (covariances offset (Comm k bts cts)).
Proof.
  intros W S H E. rewrite E. apply sigmoid_free_comm in S as [Sb Sk]. apply mk_cov; [exact W|exact Sb|].
  intros c Hc. destruct (H c Hc) as (B & N & C). split; [eapply pnf_weaken, built_pnf, B|auto].
Qed.
Lemma mk_change_family offset c l r :
  sigmoid_free (Change c l r) -> (forall x, l = inr x \/ r = inr x -> built offset x /\ non_empty x) ->
  mk_change offset c l r = mk_change false c l r -> same_family (covariances offset (mk_change offset c l r)) (covariances offset (Change c l r)).
Proof.
  intros S H E. rewrite E. apply sigmoid_free_change in S as [Sb Sk]. apply mk_change_cov.
  intros x Hx. destruct (H x Hx) as (B & N). split; [eapply pnf_weaken, built_pnf, B|auto].
Qed.
Lemma initialise_family offset e : built offset e -> non_empty e -> sigmoid_free e -> initialise offset e = initialise false e ->
  same_family (covariances offset (initialise offset e)) (covariances offset e).
Proof. intros B N S E. rewrite E. apply pnf_cov; auto. eapply pnf_weaken, built_pnf, B. Qed.

Lemma lin_c_disjoint K : covariances true (mkl true KSum [bLIN; bC] []) K -> ~ covariances true (Comm KSum [(bLIN, 1); (bC, 1)] []) K.
Proof.
  assert (E1 : mkl true KSum [bLIN; bC] [] = Comm KSum [(bLIN, 1)] []) by reflexivity. rewrite E1.
  change (covariances true (Comm KSum [(bLIN, 1)] [])) with (combine_all KSum [base_family true bLIN]).
  change (covariances true (Comm KSum [(bLIN, 1); (bC, 1)] [])) with (combine_all KSum [base_family true bC; base_family true bLIN]).
  intros (K1 & K2 & (v & o & Hv & _ & E) & H2 & H) (K3 & K4 & (c & Hc & E3) & (K5 & K6 & (v' & o' & Hv' & _ & E5) & H6 & H4) & H3).
  cbn [combine_all fold_right] in H2, H6. specialize (H (fun _ => o) 0%nat 0%nat). specialize (H3 (fun _ => o) 0%nat 0%nat).
  rewrite H4, E3, E5, H6 in H3. rewrite E, H2 in H. cbn [op unit] in *.
  assert (0 <= v' * ((o - o') * (o - o')))%R by (apply Rmult_le_pos; [lra|apply Rle_0_sqr]).
  assert (v * ((o - o) * (o - o)) = 0)%R by ring. lra.
Qed.
Lemma empty_product_differs : ~ same_family (covariances true (mkl true KProd [] [Comm KProd [(bC, 1)] []])) (covariances true (Comm KProd [] [Comm KProd [(bC, 1)] []])).
Proof.
  assert (E1 : mkl true KProd [] [Comm KProd [(bC, 1)] []] = Comm KProd [] []) by reflexivity. rewrite E1. intros H.
  assert (G : covariances true (Comm KProd [] [Comm KProd [(bC, 1)] []]) (fun _ _ _ => 2%R)).
  { exists (fun _ _ _ => 2%R), (fun _ _ _ => 1%R). split; [|split; [intros x i j; reflexivity|intros; cbn; ring]].
    exists (fun _ _ _ => 2%R), (fun _ _ _ => 1%R). split; [exists 2%R; split; [lra|reflexivity]|]. split; [intros x i j; reflexivity|intros; cbn; ring]. }
  apply H in G. specialize (G (fun _ => 0%R) 0%nat 0%nat). cbn in G. lra.
Qed.

(** ** C07 *)
Definition wf_branch (b : branch) : Prop := forall x, b = inr x -> wf x.
(** The contents of an operand seen as part of a sum (product). *)
Definition part_bases (k : kind) (b : branch) : counter :=
  match b with inl x => [(x, 1)] | inr (Comm k' bts cts) => if kind_eqb k k' then bts else [] | inr _ => [] end.
Definition part_kexs (k : kind) (b : branch) : list kex :=
  match b with inl x => [] | inr (Comm k' bts cts) => if kind_eqb k k' then cts else [Comm k' bts cts] | inr e => [e] end.
Definition operate (offset : bool) (k : kind) : branch -> branch -> kex := match k with KSum => add offset | KProd => multiply offset end.

Lemma part_wf k b : wf_branch b -> wf_counter (part_bases k b).
Proof.
  intros W. destruct b as [x|[k' bts cts|]]; simpl.
  - split; [repeat constructor; intros []|]. intros b n [[= <- <-]|[]]. lia.
  - destruct (kind_eqb k k'); [eapply (W _ eq_refl); constructor|]. split; [constructor|intros ? ? []].
  - split; [constructor|intros ? ? []].
Qed.
Lemma wf_single x : wf_counter [(x, 1)].
Proof. split; [repeat constructor; intros []|]. intros b n [[= <- <-]|[]]. lia. Qed.
Lemma wf_nil : wf_counter [].
Proof. split; [constructor|intros ? ? []]. Qed.
Lemma cget_counter2 x y z : cget (counter_of [x; y]) z = cget [(x, 1)] z + cget [(y, 1)] z.
Proof. destruct x, y, z; reflexivity. Qed.
Lemma cget_counter1 x z : cget (counter_of [x]) z = cget [(x, 1)] z.
Proof. destruct x, z; reflexivity. Qed.

Lemma operate_shape k a b : wf_branch a -> wf_branch b ->
  exists B C, (forall offset, operate offset k a b = mk offset k B C) /\ wf_counter B
    /\ (forall x, cget B x = cget (part_bases k a) x + cget (part_bases k b) x) /\ Permutation C (part_kexs k a ++ part_kexs k b).
Proof.
  intros Wa Wb.
  assert (G : forall bts c x, wf_counter bts -> nodup c -> nonneg c -> cget (cadd (cpos bts) c) x = cget bts x + cget c x).
  { intros bts c x W N NN. rewrite cget_cadd by first [assumption|apply cpos_nodup, wf_nodup; assumption].
    rewrite (wf_cpos _ W). pose proof (wf_nonneg _ x W). specialize (NN x). lia. }
  assert (H1 : forall k b1 c1, wf_branch (inr (Comm k b1 c1)) -> wf_counter b1) by (intros kk b1 c1 H; eapply (H _ eq_refl); constructor).
  assert (NN1 : forall x, nodup (counter_of [x]) /\ nonneg (counter_of [x])) by (intros x; split; [apply counter_of_nodup|apply wf_nn, counter_of_wf]).
  assert (Z0 : forall x, cget [] x = 0) by reflexivity.
  assert (Pswap : forall (x y : kex), Permutation [x; y] [y; x]) by (intros; constructor).
  destruct a as [x|[[|] b1 c1|o1 l1 r1]], b as [y|[[|] b2 c2|o2 l2 r2]], k; cbn [operate add multiply part_bases part_kexs kind_eqb];
    unfold mkl;
    (eexists _, _; split; [intros; reflexivity|]; split;
      [first [apply cpos_add_wf; [eapply H1; eassumption|first [apply NN1|apply wf_nodup; eapply H1; eassumption]]
             |rewrite (wf_cpos b1) by (eapply H1; eassumption); eapply H1; eassumption
             |rewrite (wf_cpos b2) by (eapply H1; eassumption); eapply H1; eassumption
             |apply counter_of_wf]|];
      split; [intros z; rewrite ?cget_counter2, ?cget_counter1, ?Z0;
        first [ rewrite G by first [eapply H1; eassumption|apply NN1|apply wf_nodup; eapply H1; eassumption|apply wf_nn; eapply H1; eassumption];
                rewrite ?cget_counter1; lia
              | rewrite (wf_cpos b1) by (eapply H1; eassumption); lia
              | rewrite (wf_cpos b2) by (eapply H1; eassumption); lia
              | reflexivity | lia ]
      | rewrite ?app_nil_r; cbn [app]; first [reflexivity|apply Permutation_app_comm|apply Pswap|apply Permutation_sym, Permutation_cons_append|idtac] ]).
Qed.

Lemma operate_comm offset k a b : wf_branch a -> wf_branch b -> keq (operate offset k a b) (operate offset k b a) = true.
Proof.
  intros Wa Wb. destruct (operate_shape k a b Wa Wb) as (B & C & -> & WB & GB & PC).
  destruct (operate_shape k b a Wb Wa) as (B' & C' & -> & WB' & GB' & PC').
  assert (WC : forall c, In c (part_kexs k a ++ part_kexs k b) -> wf c).
  { assert (P : forall d c, wf_branch d -> In c (part_kexs k d) -> wf c).
    { intros d c W Hc. destruct d as [x|[k' bts cts|oo l r]]; simpl in Hc; [destruct Hc| |destruct Hc as [<-|[]]; apply W; reflexivity].
      specialize (W _ eq_refl). destruct (kind_eqb k k'); [eapply wf_child; eauto|destruct Hc as [<-|[]]; exact W]. }
    intros c Hc. apply in_app_iff in Hc as [Hc|Hc]; eauto. }
  apply keq_spec. unfold mk. apply simplify_reord.
  - apply wf_comm. split; [exact WB|]. intros c Hc. apply WC. eapply Permutation_in; eauto.
  - apply wf_comm. split; [exact WB'|]. intros c Hc. apply WC. apply (Permutation_in c PC') in Hc. rewrite in_app_iff in *. tauto.
  - apply reord_comm_iff. split; [intros x; rewrite GB, GB'; lia|]. apply lreord_perm.
    rewrite PC, PC'. apply Permutation_app_comm.
Qed.

Lemma operand_wf offset b : operand offset b -> wf_branch b.
Proof. intros H x ->. destruct H as (B & _). eapply pnf_wf, built_pnf, B. Qed.

Lemma part_family o k b : wf_branch b -> same_family (combine2 k (fam_bases o k (part_bases k b)) (fam_kexs o k (part_kexs k b))) (branch_covariances o b).
Proof.
  intros W. destruct b as [x|[k' bts cts|oo l r]]; cbn [part_bases part_kexs branch_covariances].
  - rewrite <- cov_comm. cbn [covariances map]. rewrite app_nil_r. assert (E : bases_in [(x, 1)] = [x]) by (destruct x; reflexivity). rewrite E.
    apply combine_all_one, base_closed.
  - destruct (kind_eqb k k') eqn:Ek.
    + apply kind_eqb_spec in Ek; subst k'. rewrite <- cov_comm. reflexivity.
    + rewrite <- cov_comm. change (covariances o (Comm k [] [Comm k' bts cts])) with (combine_all k [covariances o (Comm k' bts cts)]).
      apply combine_all_one, covariances_closed.
  - rewrite <- cov_comm. change (covariances o (Comm k [] [Change oo l r])) with (combine_all k [covariances o (Change oo l r)]).
    apply combine_all_one, covariances_closed.
Qed.

Lemma operate_family_false o k a b : (exists off, operand off a) -> (exists off, operand off b) ->
  same_family (covariances o (operate false k a b)) (combine2 k (branch_covariances o a) (branch_covariances o b)).
Proof.
  intros (offa & Oa) (offb & Ob). pose proof (operand_wf _ _ Oa) as Wa. pose proof (operand_wf _ _ Ob) as Wb.
  destruct (operate_shape k a b Wa Wb) as (B & C & -> & WB & GB & PC).
  assert (PB : forall off d, operand off d -> (forall x, is_sigmoid x = true -> cget (part_bases k d) x = 0) /\
     forall c, In c (part_kexs k d) -> pnf false c /\ non_empty c /\ sigmoid_free c /\ no_c_product k c).
  { intros off d Od. destruct d as [y|[k' bts cts|oo l r]]; cbn [part_bases part_kexs].
    - split; [|intros ? []]. intros x Hx. cbn in Od. rewrite cget_cons. destruct (base_eqb y x) eqn:E; [|reflexivity].
      apply base_eqb_spec in E; subst. congruence.
    - destruct Od as (Bd & Nd & Sd). pose proof (pnf_weaken _ _ (built_pnf _ _ Bd)) as Pd.
      pose proof Sd as Sd'. apply sigmoid_free_comm in Sd' as [Sb Sk]. pose proof Nd as Nd'. apply non_empty_comm in Nd' as [Td Nk].
      destruct (kind_eqb k k') eqn:Ek.
      + apply kind_eqb_spec in Ek; subst k'. split.
        * intros x Hx. specialize (Sb x Hx). destruct Pd as (Wd & _). pose proof (wf_nonneg _ x Wd). lia.
        * intros c Hc. destruct Pd as (Wd & _ & Hk). destruct (Hk c Hc) as [Nc Sc].
          split; [apply normal_pnf, Nc|]. split; [auto|]. split; [auto|]. eapply normal_no_c; eauto.
      + split; [reflexivity|]. intros c [<-|[]]. split; [exact Pd|]. split; [exact Nd|]. split; [exact Sd|].
        intros ->. destruct k'; [exact I|discriminate].
    - destruct Od as (Bd & Nd & Sd). split; [reflexivity|]. intros c [<-|[]]. split; [apply (pnf_weaken off), built_pnf, Bd|].
      split; [exact Nd|]. split; [exact Sd|]. intros _. exact I. }
  destruct (PB _ _ Oa) as [Sa Ka]. destruct (PB _ _ Ob) as [Sb Kb].
  rewrite mk_cov.
  - rewrite cov_comm, <- (part_family o k a Wa), <- (part_family o k b Wb).
    assert (E1 : same_family (fam_bases o k B) (combine2 k (fam_bases o k (part_bases k a)) (fam_bases o k (part_bases k b)))).
    { unfold fam_bases. rewrite <- fam_list_app. apply fam_list_perm, perm_count. intros x. rewrite count_occ_app, !bases_in_count, GB.
      pose proof (wf_nonneg _ x (part_wf k a Wa)). pose proof (wf_nonneg _ x (part_wf k b Wb)). lia. }
    assert (E2 : same_family (fam_kexs o k C) (combine2 k (fam_kexs o k (part_kexs k a)) (fam_kexs o k (part_kexs k b)))).
    { rewrite <- fam_kexs_app. apply combine_all_perm, Permutation_map, PC. }
    rewrite E1, E2, <- !combine2_assoc. rewrite (combine2_swap k (fam_bases o k (part_bases k b))). reflexivity.
  - exact WB.
  - intros x Hx. rewrite GB, (Sa x Hx), (Sb x Hx). lia.
  - intros c Hc. apply (Permutation_in c PC) in Hc. apply in_app_iff in Hc as [Hc|Hc]; auto.
Qed.
Lemma operate_family offset k a b : operand offset a -> operand offset b -> operate offset k a b = operate false k a b ->
  same_family (covariances offset (operate offset k a b)) (combine2 k (branch_covariances offset a) (branch_covariances offset b)).
Proof. intros Oa Ob E. rewrite E. apply operate_family_false; eauto. Qed.

(** multiply never applies the LIN + C rule to initialised operands. *)
Lemma multiply_flag offset a b : (forall x, a = inr x \/ b = inr x -> normal offset x) -> multiply offset a b = multiply false a b.
Proof.
  intros H.
  assert (Wa : wf_branch a) by (intros x ->; eapply normal_wf; eauto). assert (Wb : wf_branch b) by (intros x ->; eapply normal_wf; eauto).
  destruct (operate_shape KProd a b Wa Wb) as (B & C & E & _ & _ & PC). cbn [operate] in E. rewrite !E.
  unfold mk. cbn [simplify].
  assert (Nk : forall c, In c C -> normal offset c).
  { intros c Hc. apply (Permutation_in c PC) in Hc.
    assert (P : forall d, (forall x, d = inr x -> normal offset x) -> In c (part_kexs KProd d) -> normal offset c).
    { intros d Hd Hin. destruct d as [x|[k' bts cts|oo l r]]; simpl in Hin; [destruct Hin| |destruct Hin as [<-|[]]; apply Hd; reflexivity].
      specialize (Hd _ eq_refl). destruct k'; simpl in Hin; [destruct Hin as [<-|[]]; exact Hd|].
      eapply normal_node_of; [exact Hd|]. eapply node_comm; [exact Hin|constructor]. }
    apply in_app_iff in Hc as [Hc|Hc]; [apply (P a)|apply (P b)]; auto. }
  assert (E1 : map (simplify offset) C = C) by (rewrite <- (map_id C) at 2; apply map_ext_in; intros; apply normal_fix; auto).
  assert (E2 : map (simplify false) C = C) by (rewrite <- (map_id C) at 2; apply map_ext_in; intros; apply normal_fix; eapply normal_weaken; auto).
  rewrite E1, E2. reflexivity.
Qed.

(** ** C12 *)
Lemma combine_all_invariant k (l : list family) (K : kern) : (forall (f : family) (K : kern), In f l -> f K -> translation_invariant K) -> combine_all k l K -> translation_invariant K.
Proof.
  revert K. induction l as [|f l IH]; intros K Hf H x t i j.
  - rewrite !H. reflexivity.
  - destruct H as (K1 & K2 & H1 & H2 & H). rewrite !H. rewrite (Hf f K1 (or_introl eq_refl) H1 x t i j).
    rewrite (IH K2 (fun g K' Hg => Hf g K' (or_intror Hg)) H2 x t i j). reflexivity.
Qed.
Lemma base_invariant o b K : non_stationary b = false -> base_family o b K -> translation_invariant K.
Proof.
  intros Hs H x t i j. destruct b; try discriminate; cbn in H.
  - destruct H as (v & _ & E). rewrite !E. reflexivity.
  - destruct H as (v & _ & E). rewrite !E. reflexivity.
  - destruct H as (v & l & _ & _ & E). rewrite !E. replace (x i + t - (x j + t))%R with (x i - x j)%R by ring. reflexivity.
  - destruct H as (v & p & l & _ & _ & _ & E). rewrite !E. replace (x i + t - (x j + t))%R with (x i - x j)%R by ring. reflexivity.
Qed.
Lemma stationary_invariant o e : wf e -> is_stationary e = true -> forall K, covariances o e K -> translation_invariant K.
Proof.
  induction e using kex_ind'; intros W S K HK; [|discriminate]. cbn [is_stationary] in S. apply andb_prop in S as [S1 S2].
  rewrite forallb_forall in S1, S2. cbn [covariances] in HK. eapply combine_all_invariant; [|exact HK].
  intros f K' Hf HK'. apply in_app_iff in Hf as [Hf|Hf]; apply in_map_iff in Hf as (y & <- & Hy).
  - apply (base_invariant o y); [|exact HK']. destruct (non_stationary y) eqn:E; [|reflexivity]. exfalso.
    assert (Hy' := S1 y ltac:(apply filter_In; split; [apply all_bases_in|exact E])). apply negb_true_iff in Hy'.
    apply in_bases_in in Hy. apply wf_has in Hy; [congruence|]. eapply W. constructor.
  - eapply H; eauto. eapply wf_child; eauto.
Qed.

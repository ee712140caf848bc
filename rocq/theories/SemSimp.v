(** Simplification keeps the family of covariance functions (C02). *)
From Coq Require Import Reals Lra List Bool Arith ZArith Lia Permutation Morphisms Setoid.
From Verif Require Import Py UtilModel UtilSpec UtilProofs KexModel KexSpec KexProofs KexSimp KexMore OpsModel KexCong KernModel KernSpec KernProper SemModel SemSpec SemProofs.
Import ListNotations.
Local Open Scope Z_scope.

Section Sem.
  Variable o : bool.
  Notation bf := (base_family o).
  Notation cov := (covariances o).
  Definition fam_list (k : kind) (l : list base) : family := combine_all k (map bf l).
  Definition fam_bases (k : kind) (c : counter) : family := fam_list k (bases_in c).
  Definition fam_kexs (k : kind) (l : list kex) : family := combine_all k (map cov l).

  Lemma fam_list_perm k l m : Permutation l m -> same_family (fam_list k l) (fam_list k m).
  Proof. intros P. apply combine_all_perm, Permutation_map, P. Qed.
  Lemma fam_list_app k l m : same_family (fam_list k (l ++ m)) (combine2 k (fam_list k l) (fam_list k m)).
  Proof. unfold fam_list. rewrite map_app. apply combine_all_app. Qed.
  Lemma fam_list_repeat k b n : fam_list k (repeat b n) = pow k (bf b) n.
  Proof. unfold fam_list, pow. f_equal. induction n; simpl; congruence. Qed.
  Lemma fam_kexs_app k l m : same_family (fam_kexs k (l ++ m)) (combine2 k (fam_kexs k l) (fam_kexs k m)).
  Proof. unfold fam_kexs. rewrite map_app. apply combine_all_app. Qed.
  Lemma cov_comm k bts cts : same_family (cov (Comm k bts cts)) (combine2 k (fam_bases k bts) (fam_kexs k cts)).
  Proof. cbn [covariances]. apply combine_all_app. Qed.
  Lemma fam_list_closed k l : closed (fam_list k l).
  Proof. apply combine_all_closed. Qed.

  (** The base terms of a sum. *)
  Lemma sum_simp c n : nodup c -> nonneg c -> same_family (fam_bases KSum (simp_base false KSum c n)) (fam_bases KSum c).
  Proof.
    intros N NN. unfold fam_bases, fam_list, bases_in. rewrite !concat_map, !combine_all_concat, !map_map.
    apply combine_all_proper. unfold all_bases.
    assert (G : forall b, same_family (combine_all KSum (map bf (repeat b (Z.to_nat (cget (simp_base false KSum c n) b)))))
                                      (combine_all KSum (map bf (repeat b (Z.to_nat (cget c b)))))).
    { intros b. rewrite cget_simp_sum by assumption. cbn [andb]. pose proof (NN b) as Hb.
      assert (E : forall k m, combine_all k (map bf (repeat b m)) = pow k (bf b) m) by (intros; apply fam_list_repeat).
      rewrite !E. destruct b; try reflexivity.
      - destruct (Z.ltb_spec 0 (cget c bWN)).
        + rewrite !pow_idem; [reflexivity|try apply base_closed; try apply WN_sum; lia..].
        + replace (cget c bWN) with 0 by lia. reflexivity.
      - destruct (Z.ltb_spec 0 (cget c bC)).
        + rewrite !pow_idem; [reflexivity|try apply base_closed; try apply C_sum; lia..].
        + replace (cget c bC) with 0 by lia. reflexivity. }
    repeat (constructor; [apply G|]). constructor.
  Qed.

  Definition nonCs (c : counter) : Prop := exists b, b <> bC /\ is_sigmoid b = false /\ 0 < cget c b.

  Lemma pow_C n f : closed f -> scalable f -> same_family (combine2 KProd (pow KProd (bf bC) n) f) f.
  Proof.
    intros Hc Hs. induction n as [|n IH]; [apply combine2_unit, Hc|].
    change (pow KProd (bf bC) (S n)) with (combine2 KProd (bf bC) (pow KProd (bf bC) n)).
    rewrite <- combine2_assoc, IH. apply C_absorbed; assumption.
  Qed.

  Lemma prod_simp off c n ctx : nodup c -> nonneg c -> closed ctx ->
    (cget c bWN = 0 -> 0 < cget c bC -> lone_c c n = false -> scalable ctx \/ nonCs c) ->
    same_family (combine2 KProd (fam_bases KProd (simp_base off KProd c n)) ctx) (combine2 KProd (fam_bases KProd c) ctx).
  Proof.
    intros N NN Cc Hs. pose proof (fun b => cget_simp_prod off c b n N NN) as G. set (c' := simp_base off KProd c n) in *.
    set (R := repeat bLIN (Z.to_nat (cget c bLIN)) ++ repeat bS (Z.to_nat (cget c bS)) ++ repeat bSr (Z.to_nat (cget c bSr))
              ++ repeat bSI (Z.to_nat (cget c bSI)) ++ repeat bSIr (Z.to_nat (cget c bSIr))).
    destruct (Z.ltb_spec 0 (cget c bWN)) as [W|W].
    - set (D := repeat bWN (Z.to_nat (cget c bWN - 1)) ++ repeat bC (Z.to_nat (cget c bC)) ++ repeat bSE (Z.to_nat (cget c bSE))
                ++ repeat bPER (Z.to_nat (cget c bPER))).
      assert (P : Permutation (bases_in c) (D ++ [bWN] ++ R)).
      { apply perm_count. intros b. rewrite bases_in_count. unfold D, R. rewrite !count_occ_app, !count_repeat.
        destruct b; cbn [base_eqb count_occ]; repeat match goal with |- context [base_eq_dec ?a ?b] => destruct (base_eq_dec a b); try congruence end; lia. }
      assert (P' : Permutation (bases_in c') ([bWN] ++ R)).
      { apply perm_count. intros b. rewrite bases_in_count, G. unfold R. rewrite !count_occ_app, !count_repeat.
        destruct b; cbn [base_eqb count_occ]; repeat match goal with |- context [base_eq_dec ?a ?b] => destruct (base_eq_dec a b); try congruence end; lia. }
      unfold fam_bases. rewrite (fam_list_perm _ _ _ P), (fam_list_perm _ _ _ P'). rewrite !fam_list_app.
      assert (E1 : same_family (fam_list KProd [bWN]) (bf bWN)) by (apply combine_all_one, base_closed).
      rewrite E1. rewrite (combine2_assoc KProd (fam_list KProd D)). 
      assert (Ew : same_family (combine2 KProd (fam_list KProd D) (bf bWN)) (bf bWN)); [|rewrite Ew; reflexivity].
      apply WN_absorbs_all. intros f Hf. apply in_map_iff in Hf as (b & <- & Hb). apply stationary_diagonal.
      unfold D in Hb. rewrite !in_app_iff in Hb. destruct Hb as [Hb|[Hb|[Hb|Hb]]]; apply repeat_spec in Hb; subst; reflexivity.
    - set (R' := repeat bPER (Z.to_nat (cget c bPER)) ++ R).
      set (SE' := repeat bSE (Z.to_nat (cget c bSE))). set (Cs := repeat bC (Z.to_nat (cget c bC))).
      assert (P : Permutation (bases_in c) (Cs ++ SE' ++ R')).
      { apply perm_count. intros b. rewrite bases_in_count. unfold Cs, SE', R', R. rewrite !count_occ_app, !count_repeat. pose proof (NN bWN).
        destruct b; cbn [base_eqb]; lia. }
      assert (P' : Permutation (bases_in c') (repeat bC (Z.to_nat (cget c' bC)) ++ repeat bSE (Z.to_nat (cget c' bSE)) ++ R')).
      { apply perm_count. intros b. rewrite bases_in_count. unfold R', R. rewrite !count_occ_app, !count_repeat, !G. pose proof (NN bWN).
        destruct b; cbn [base_eqb]; rewrite ?G; lia. }
      unfold fam_bases. rewrite (fam_list_perm _ _ _ P), (fam_list_perm _ _ _ P').
      rewrite !fam_list_app. unfold Cs, SE'. rewrite !fam_list_repeat.
      assert (ES : same_family (pow KProd (bf bSE) (Z.to_nat (cget c' bSE))) (pow KProd (bf bSE) (Z.to_nat (cget c bSE)))).
      { rewrite G. pose proof (NN bSE). destruct (Z.ltb_spec 0 (cget c bSE)).
        - rewrite !pow_idem; [reflexivity|try apply base_closed; try apply SE_prod; lia..].
        - replace (cget c bSE) with 0 by lia. reflexivity. }
      rewrite ES. set (X := combine2 KProd (pow KProd (bf bSE) (Z.to_nat (cget c bSE))) (fam_list KProd R')).
      destruct (Z.ltb_spec 0 (cget c bC)) as [HC|HC].
      + destruct (lone_c c n) eqn:L.
        * rewrite G. destruct (Z.ltb_spec 0 (cget c bC)); [|lia].
          rewrite !pow_idem; [reflexivity|try apply base_closed; try apply C_prod; lia..].
        * assert (Z0 : cget c' bC = 0) by (rewrite G; destruct (Z.ltb_spec 0 (cget c bC)); lia). rewrite Z0.
          change (pow KProd (bf bC) (Z.to_nat 0)) with (combine_all KProd []).
          rewrite <- !combine2_assoc. rewrite combine2_unit by apply combine2_closed. rewrite pow_C; [reflexivity|apply combine2_closed|].
          assert (W0 : cget c bWN = 0) by (pose proof (NN bWN); lia).
          destruct (Hs W0 HC eq_refl) as [S|(b & Hb & Hns & Hp)]; [apply prod2_scalable_r, S|]. apply prod2_scalable_l.
          assert (SB : scalable (bf b)) by (apply base_scalable, Hns).
          destruct b; try congruence; try lia; try discriminate.
          -- apply prod2_scalable_r. eapply (prod_scalable _ (bf bLIN)); [|exact SB]. apply in_map. unfold R', R. rewrite !in_app_iff.
             right; left. destruct (Z.to_nat (cget c bLIN)) eqn:E; [lia|left; auto].
          -- apply prod2_scalable_l. eapply (prod_scalable _ (bf bSE)); [|exact SB]. destruct (Z.to_nat (cget c bSE)) eqn:E; [lia|left; auto].
          -- apply prod2_scalable_r. eapply (prod_scalable _ (bf bPER)); [|exact SB]. apply in_map. unfold R', R. rewrite !in_app_iff.
             left. destruct (Z.to_nat (cget c bPER)) eqn:E; [lia|left; auto].
      + rewrite G. pose proof (NN bC). destruct (Z.ltb_spec 0 (cget c bC)); [lia|]. replace (cget c bC) with 0 by lia. reflexivity.
  Qed.

  (** ** Sigmoid-free, non-empty expressions can be scaled *)
  Lemma sigmoid_free_comm k bts cts : sigmoid_free (Comm k bts cts) <->
    (forall b, is_sigmoid b = true -> ~ 0 < cget bts b) /\ forall c, In c cts -> sigmoid_free c.
  Proof.
    unfold sigmoid_free. split.
    - intros H. split.
      + intros b Hb Hp. apply (H b Hb). apply occurs_comm. auto.
      + intros c Hc b Hb Ho. apply (H b Hb). apply occurs_comm. eauto.
    - intros [H1 H2] b Hb Ho. apply occurs_comm in Ho as [Hp|(c & Hc & Ho)]; [apply (H1 b Hb Hp)|apply (H2 c Hc b Hb Ho)].
  Qed.
  Lemma sigmoid_free_change c l r : sigmoid_free (Change c l r) <->
    (forall b, is_sigmoid b = true -> l <> inl b /\ r <> inl b) /\ forall x, l = inr x \/ r = inr x -> sigmoid_free x.
  Proof.
    unfold sigmoid_free. split.
    - intros H. split.
      + intros b Hb. split; intros E; apply (H b Hb); apply occurs_change; auto.
      + intros x Hx b Hb Ho. apply (H b Hb). apply occurs_change. destruct Hx as [Hx|Hx]; [left|right]; right; eauto.
    - intros [H1 H2] b Hb Ho. destruct (H1 b Hb). apply occurs_change in Ho as [[Hp|(x & Hx & Ho)]|[Hp|(x & Hx & Ho)]]; try contradiction;
        eapply H2; eauto.
  Qed.
  Lemma sigmoid_free_node e n : sigmoid_free e -> node n e -> sigmoid_free n.
  Proof.
    intros H Hn b Hb Ho. apply (H b Hb). destruct Ho as [(k & bts & cts & Hm & Hp)|(c & l & r & Hm & Hp)].
    - left. exists k, bts, cts. split; [eapply node_trans; eauto|exact Hp].
    - right. exists c, l, r. split; [eapply node_trans; eauto|exact Hp].
  Qed.

  Lemma cov_scalable e : sigmoid_free e -> non_empty e -> scalable (cov e).
  Proof.
    induction e using kex_ind'; intros S N.
    - apply sigmoid_free_comm in S as [S1 S2]. apply non_empty_comm in N as [T Nk]. cbn [covariances].
      assert (Hb : forall b, In b (bases_in bts) -> is_sigmoid b = false).
      { intros b Hb. destruct (is_sigmoid b) eqn:E; [|reflexivity]. apply in_bases_in in Hb. destruct (S1 b E Hb). }
      destruct k.
      + apply sum_scalable. intros f Hf. apply in_app_iff in Hf as [Hf|Hf]; apply in_map_iff in Hf as (y & <- & Hy).
        * apply base_scalable, Hb, Hy.
        * apply H; auto.
      + destruct cts as [|c cts].
        * assert (exists b, In b (bases_in bts)) as (b & Hin).
          { rewrite terms_bsum, bsum_expand in T. cbn [length] in T.
            destruct (Z.ltb_spec 0 (cget bts bWN)); [exists bWN; apply in_bases_in; assumption|].
            destruct (Z.ltb_spec 0 (cget bts bC)); [exists bC; apply in_bases_in; assumption|].
            destruct (Z.ltb_spec 0 (cget bts bLIN)); [exists bLIN; apply in_bases_in; assumption|].
            destruct (Z.ltb_spec 0 (cget bts bSE)); [exists bSE; apply in_bases_in; assumption|].
            destruct (Z.ltb_spec 0 (cget bts bPER)); [exists bPER; apply in_bases_in; assumption|].
            destruct (Z.ltb_spec 0 (cget bts bS)); [exists bS; apply in_bases_in; assumption|].
            destruct (Z.ltb_spec 0 (cget bts bSr)); [exists bSr; apply in_bases_in; assumption|].
            destruct (Z.ltb_spec 0 (cget bts bSI)); [exists bSI; apply in_bases_in; assumption|].
            exists bSIr; apply in_bases_in; lia. }
          eapply (prod_scalable _ (bf b)); [apply in_app_iff; left; apply in_map, Hin|apply base_scalable, Hb, Hin].
        * eapply (prod_scalable _ (cov c)); [apply in_app_iff; right; left; reflexivity|apply H; [left; auto|apply S2; left; auto|apply Nk; left; auto]].
    - apply sigmoid_free_change in S as [S1 S2]. rewrite non_empty_change in N. cbn [covariances]. apply change_scalable.
      + destruct l as [b|x]; [|apply H; auto]. apply base_scalable. destruct (is_sigmoid b) eqn:E; [|reflexivity]. destruct (S1 b E); congruence.
      + destruct r as [b|x]; [|apply H0; auto]. apply base_scalable. destruct (is_sigmoid b) eqn:E; [|reflexivity]. destruct (S1 b E); congruence.
  Qed.

  (** ** Raising the contents of same-type composites and singletons *)
  Lemma fam_bases_cupdate k c d : nodup d -> nonneg c -> nonneg d -> same_family (fam_bases k (cupdate c d)) (combine2 k (fam_bases k c) (fam_bases k d)).
  Proof.
    intros N Pc Pd. unfold fam_bases. rewrite <- fam_list_app. apply fam_list_perm, perm_count. intros b.
    rewrite count_occ_app, !bases_in_count, cget_cupdate by assumption. specialize (Pc b); specialize (Pd b). lia.
  Qed.
  Lemma fam_bases_cupdate_list k c l : nonneg c -> same_family (fam_bases k (cupdate_list c l)) (combine2 k (fam_bases k c) (fam_list k l)).
  Proof.
    intros Pc. unfold fam_bases. rewrite <- fam_list_app. apply fam_list_perm, perm_count. intros b.
    rewrite count_occ_app, !bases_in_count, cget_cupdate_list. specialize (Pc b). lia.
  Qed.
  Lemma fam_bases_ceq k c d : ceq c d -> fam_bases k c = fam_bases k d.
  Proof. intros H. unfold fam_bases. rewrite (bases_in_ceq _ _ H). reflexivity. Qed.

  Lemma fam_raised k bts cts : wf_counter bts -> (forall c, In c cts -> wf_top c) ->
    same_family (combine2 k (fam_bases k bts) (fam_kexs k cts))
                (combine2 k (fam_bases k (total bts (filter (is_kind k) cts))) (fam_kexs k (raised k cts))).
  Proof.
    intros W Wc. unfold raised. rewrite fam_kexs_app.
    assert (P : Permutation cts (filter (is_kind k) cts ++ filter (fun e => negb (is_kind k e)) cts)).
    { clear. induction cts as [|c t IH]; simpl; [constructor|]. destruct (is_kind k c); simpl.
      - constructor. exact IH.
      - rewrite IH at 1. apply Permutation_middle. }
    assert (E : same_family (fam_kexs k cts) (combine2 k (fam_kexs k (filter (is_kind k) cts)) (fam_kexs k (filter (fun e => negb (is_kind k e)) cts)))).
    { rewrite <- fam_kexs_app. apply combine_all_perm, Permutation_map, P. }
    rewrite E. clear E P. set (ns := fam_kexs k (filter (fun e => negb (is_kind k e)) cts)).
    assert (Hh : forall h, In h (filter (is_kind k) cts) -> is_kind k h = true /\ wf_top h).
    { intros h Hh. apply filter_In in Hh as [Hin Hk]. auto. }
    set (hs := filter (is_kind k) cts) in *. clearbody hs. clear Wc.
    assert (Wn : nodup bts /\ nonneg bts) by (split; [apply wf_nodup, W|apply wf_nn, W]). clear W. destruct Wn as [Nb NNb].
    revert bts Nb NNb. induction hs as [|h hs IH]; intros bts Nb NNb.
    - cbn [total fold_left concat map]. change (fam_kexs k []) with (combine_all k []).
      rewrite combine2_unit by apply combine_all_closed. rewrite (combine2_comm k ns (combine_all k [])).
      rewrite combine2_unit by apply combine_all_closed. reflexivity.
    - destruct (Hh h (or_introl eq_refl)) as [Hk Wh]. destruct h as [k' hb hcs|]; [|discriminate].
      cbn [is_kind] in Hk. apply kind_eqb_spec in Hk; subst k'. unfold wf_top in Wh. cbn [bts_of] in Wh.
      change (total bts (Comm k hb hcs :: hs)) with (total (cupdate bts hb) hs). cbn [map concat kids].
      rewrite fam_kexs_app. rewrite (combine2_assoc k ns). rewrite (combine2_comm k ns (fam_kexs k hcs)). rewrite <- (combine2_assoc k (fam_kexs k hcs)).
      rewrite (combine2_swap k (fam_bases k (total (cupdate bts hb) hs))).
      rewrite <- IH.
      + rewrite fam_bases_cupdate by (try assumption; try apply wf_nodup; try apply wf_nn; assumption).
        change (fam_kexs k (Comm k hb hcs :: hs)) with (combine2 k (cov (Comm k hb hcs)) (fam_kexs k hs)). rewrite cov_comm.
        rewrite <- !combine2_assoc.
        rewrite (combine2_swap k (fam_bases k bts)). rewrite (combine2_swap k (fam_kexs k hcs) (fam_bases k bts)).
        rewrite (combine2_swap k (fam_kexs k hcs) (fam_bases k hb)). rewrite (combine2_swap k (fam_bases k bts) (fam_bases k hb)). reflexivity.
      + intros x Hx. apply Hh. right; exact Hx.
      + apply cupdate_nodup, Nb.
      + apply nonneg_cupdate; [apply wf_nodup, Wh|exact NNb|apply wf_nn, Wh].
  Qed.

  Lemma cov_extract e : wf_top e -> same_family (branch_covariances o (extract e)) (cov e).
  Proof.
    intros W. destruct e as [k bts cts|]; [|reflexivity].
    destruct (extract_spec k bts cts W) as [(b & -> & -> & ->)|[(c & -> & -> & ->)|(_ & ->)]]; [| |reflexivity].
    - cbn [branch_covariances covariances map]. rewrite app_nil_r.
      assert (E : bases_in [(b, 1)] = [b]) by (destruct b; reflexivity). rewrite E. symmetry. apply combine_all_one, base_closed.
    - cbn [branch_covariances covariances map]. symmetry. apply (combine_all_one k (cov c)), covariances_closed.
  Qed.
  Lemma fam_singles k l : (forall c, In c l -> wf_top c) ->
    same_family (fam_kexs k l) (combine2 k (fam_list k (bases_of (map extract l))) (fam_kexs k (kexs_of (map extract l)))).
  Proof.
    induction l as [|c l IH]; intros W.
    - change (same_family (combine_all k []) (combine2 k (combine_all k []) (combine_all k []))).
      rewrite (combine2_unit k); [reflexivity|apply combine_all_closed].
    - change (fam_kexs k (c :: l)) with (combine2 k (cov c) (fam_kexs k l)). rewrite <- (cov_extract c) by (apply W; left; auto).
      rewrite IH by (intros; apply W; right; auto). cbn [map]. destruct (extract c) as [b|x]; cbn [branch_covariances].
      + change (bases_of (inl b :: map extract l)) with ([b] ++ bases_of (map extract l)).
        change (kexs_of (inl b :: map extract l)) with (kexs_of (map extract l)). rewrite fam_list_app, <- combine2_assoc.
        assert (E1 : same_family (fam_list k [b]) (bf b)) by (apply combine_all_one, base_closed). rewrite E1. reflexivity.
      + change (bases_of (inr x :: map extract l)) with (bases_of (map extract l)).
        change (kexs_of (inr x :: map extract l)) with ([x] ++ kexs_of (map extract l)). rewrite fam_kexs_app.
        assert (E1 : same_family (fam_kexs k [x]) (cov x)) by (apply combine_all_one, covariances_closed). rewrite E1. apply combine2_swap.
  Qed.

  (** ** One node *)
  Lemma simp_node_cov k bts cts :
    wf_counter bts -> (forall c, In c cts -> wf c /\ non_empty c /\ sigmoid_free c) -> (forall b, is_sigmoid b = true -> ~ 0 < cget bts b) ->
    (k = KProd -> filter (is_kind KProd) cts <> [] -> 0 < cget (total bts (filter (is_kind KProd) cts)) bC -> nonCs (total bts (filter (is_kind KProd) cts)) \/ raised KProd cts <> []) ->
    same_family (cov (simp_node false k bts cts)) (combine2 k (fam_bases k bts) (fam_kexs k cts)).
  Proof.
    intros W Hc Hsf Key. destruct (simp_node_spec false k bts cts) as (ns & L & P & E). cbv zeta in E. rewrite E. clear E.
    assert (Wr : forall x, In x (raised k cts) -> wf_top x /\ non_empty x /\ sigmoid_free x).
    { intros x Hx. apply raised_in in Hx as (c & Hin & [->|Hk]); destruct (Hc c Hin) as (Wc & Nc & Sc).
      - split; [apply wf_top_of, Wc|]. auto.
      - pose proof (kids_node _ _ Hk) as Hn. split; [apply wf_top_of; eapply wf_sub; eauto|].
        split; [eapply non_empty_node; eauto|eapply sigmoid_free_node; eauto]. }
    rewrite (fam_raised k bts cts) by (auto; intros; apply wf_top_of, Hc; assumption).
    rewrite (fam_singles k (raised k cts)) by (intros; apply Wr; assumption).
    set (hs := filter (is_kind k) cts) in *. set (hb := absorb_bts false k bts hs ns).
    set (ex := map extract (raised k cts)) in *.
    assert (Wb : wf_counter hb) by (apply absorb_bts_wf, W).
    set (c1 := cupdate_list hb (bases_of ex)). assert (N1 : nodup c1) by (apply cupdate_list_nodup, wf_nodup, Wb).
    assert (NN1 : nonneg c1) by (apply nonneg_cupdate_list, wf_nn, Wb).
    set (n := length (kexs_of ex)).
    rewrite (simp_base_fix false k (simp_base false k c1 n) n) by (try apply simp_base_wf; try apply simp_base_card; assumption).
    rewrite cov_comm.
    assert (Sx : forall x, In x (kexs_of ex) -> scalable (cov x)).
    { intros x Hx. apply kexs_of_in in Hx. unfold ex in Hx. apply in_map_iff in Hx as (y & Ey & Hy). destruct (Wr y Hy) as (Wy & Ny & Sy).
      apply cov_scalable.
      - apply extract_inr in Ey as [->|Ek]; [exact Sy| |exact Wy]. eapply sigmoid_free_node; [exact Sy|]. apply kids_node. rewrite Ek. left; auto.
      - eapply extract_non_empty; eauto. }
    assert (Sb : forall b, In b (bases_of ex) -> is_sigmoid b = false).
    { intros b Hb. destruct (is_sigmoid b) eqn:E; [|reflexivity]. exfalso. unfold bases_of in Hb. apply in_concat in Hb as (m & Hm & Hb).
      apply in_map_iff in Hm as (y & <- & Hy). unfold ex in Hy. apply in_map_iff in Hy as (z & <- & Hz). destruct (Wr z Hz) as (Wz & Nz & Sz).
      destruct z as [kz bz cz|]; [|destruct Hb].
      destruct (extract_spec kz bz cz Wz) as [(b0 & -> & -> & Ez)|[(c & -> & -> & Ez)|(_ & Ez)]]; rewrite Ez in Hb; cbn in Hb; try tauto.
      destruct Hb as [<-|[]]. apply sigmoid_free_comm in Sz as [Sz _]. apply (Sz b0 E). rewrite cget_cons, base_eqb_refl. lia. }
    assert (Step1 : same_family (combine2 k (fam_bases k (simp_base false k c1 n)) (fam_kexs k (kexs_of ex)))
                                (combine2 k (fam_bases k c1) (fam_kexs k (kexs_of ex)))).
    { destruct k; [rewrite (sum_simp c1 n N1 NN1); reflexivity|].
      apply prod_simp; auto; [apply combine_all_closed|]. intros W0 HC HL.
      destruct (kexs_of ex) as [|x t] eqn:Ex.
      - right. assert (NL : ~ (n = 0%nat /\ cget c1 bLIN = 0 /\ cget c1 bSE = 0 /\ cget c1 bPER = 0)).
        { intros HH. apply (lone_c_spec c1 n N1 NN1 W0) in HH. congruence. }
        assert (n = 0%nat) by (unfold n; rewrite ?Ex; reflexivity).
        destruct (Z.ltb_spec 0 (cget c1 bLIN)); [exists bLIN; repeat split; auto; discriminate|].
        destruct (Z.ltb_spec 0 (cget c1 bSE)); [exists bSE; repeat split; auto; discriminate|].
        destruct (Z.ltb_spec 0 (cget c1 bPER)); [exists bPER; repeat split; auto; discriminate|].
        exfalso. apply NL. pose proof (NN1 bLIN). pose proof (NN1 bSE). pose proof (NN1 bPER). repeat split; auto; lia.
      - left. eapply (prod_scalable _ (cov x)); [left; reflexivity|apply Sx; left; auto]. }
    rewrite Step1. unfold c1. rewrite fam_bases_cupdate_list by (apply wf_nn, Wb). rewrite <- combine2_assoc.
    set (ctx := combine2 k (fam_list k (bases_of ex)) (fam_kexs k (kexs_of ex))).
    destruct hs as [|h hs'] eqn:Ehs.
    - unfold hb, absorb_bts. cbn [combine fold_left]. reflexivity.
    - assert (Wh : forall x, In x hs -> wf_counter (bts_of x)).
      { intros x Hx. unfold hs in Hx. apply filter_In in Hx as [Hx _]. apply wf_top_of, Hc, Hx. }
      assert (Hcl : ceq hb (simp_base false k (total bts hs) 1)).
      { unfold hb. rewrite <- Ehs. apply absorb_bts_closed; [rewrite Ehs; discriminate|rewrite Ehs; exact L|exact P|apply wf_nodup, W|apply wf_nn, W|exact Wh]. }
      rewrite (fam_bases_ceq k _ _ Hcl). rewrite <- Ehs.
      assert (Nt : nodup (total bts hs)) by (apply total_nodup, wf_nodup, W).
      assert (NNt : nonneg (total bts hs)).
      { intros b. rewrite cget_total by exact Wh. pose proof (hsum_nonneg hs b Wh). pose proof (wf_nonneg _ b W). lia. }
      destruct k; [rewrite (sum_simp _ 1 Nt NNt); reflexivity|].
      apply prod_simp; auto; [apply combine2_closed|]. intros W0 HC _.
      destruct (Key eq_refl) as [Hn|Hr]; [fold hs; rewrite Ehs; discriminate|exact HC|right; exact Hn|left].
      fold hs in Hr. unfold ctx. destruct (bases_of ex) as [|b t] eqn:Eb.
      + destruct (kexs_of ex) as [|x t] eqn:Ek.
        * exfalso. pose proof (singles_count ex) as SC. rewrite Eb, Ek in SC. unfold ex in SC. rewrite map_length in SC.
          destruct (raised KProd cts); [congruence|discriminate].
        * apply prod2_scalable_r. eapply (prod_scalable _ (cov x)); [left; reflexivity|apply Sx; left; auto].
      + apply prod2_scalable_l. eapply (prod_scalable _ (bf b)); [left; reflexivity|apply base_scalable, Sb; left; auto].
  Qed.
End Sem.

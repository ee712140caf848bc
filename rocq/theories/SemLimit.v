(** C02, C07: simplification adds nothing but limits of the covariance functions of the original. *)
From Coq Require Import Reals Lra List Bool Arith ZArith Lia Permutation Morphisms Setoid.
From Verif Require Import Py UtilModel UtilSpec UtilProofs KexModel KexSpec KexProofs KexSimp KexMore OpsModel KexCong OpsSpec OpsProofs KernModel KernSpec KernProper SemModel SemSpec SemProofs SemSimp SemMore SemOps SemLimSpec.
Import ListNotations.
Local Open Scope R_scope.

Definition within (f g : family) : Prop := forall K, f K -> approximated g K.
Lemma member_approximated (g : family) K : g K -> approximated g K.
Proof. intros H x n eps He. exists K. split; [exact H|]. intros. rewrite Rminus_eq_0, Rabs_R0. exact He. Qed.
Lemma same_within f g : same_family f g -> within f g.
Proof. intros H K HK. apply member_approximated, H, HK. Qed.
Lemma within_refl f : within f f.
Proof. intros K. apply member_approximated. Qed.
Lemma within_trans f g h : within f g -> within g h -> within f h.
Proof.
  intros H1 H2 K HK x n eps He. destruct (H1 K HK x n (eps / 2)) as (K1 & G1 & A1); [lra|].
  destruct (H2 K1 G1 x n (eps / 2)) as (K2 & G2 & A2); [lra|]. exists K2. split; [exact G2|]. intros i j Hi Hj.
  specialize (A1 i j Hi Hj). specialize (A2 i j Hi Hj).
  replace (K2 x i j - K x i j) with ((K2 x i j - K1 x i j) + (K1 x i j - K x i j)) by ring.
  eapply Rle_lt_trans; [apply Rabs_triang|]. lra.
Qed.
(** Entries of a matrix are bounded. *)
Lemma row_bound (f : nat -> R) n : exists M, 0 < M /\ forall i, (i < n)%nat -> Rabs (f i) <= M.
Proof.
  induction n as [|n (M & HM & H)]; [exists 1; split; [lra|intros; lia]|].
  exists (M + Rabs (f n)). pose proof (Rabs_pos (f n)). split; [lra|]. intros i Hi.
  destruct (Nat.eq_dec i n) as [->|]; [lra|]. assert (L : (i < n)%nat) by lia. specialize (H i L). lra.
Qed.
Lemma matrix_bound (f : nat -> nat -> R) n : exists M, 0 < M /\ forall i j, (i < n)%nat -> (j < n)%nat -> Rabs (f i j) <= M.
Proof.
  assert (G : forall m, exists M, 0 < M /\ forall i j, (i < m)%nat -> (j < n)%nat -> Rabs (f i j) <= M).
  { induction m as [|m (M & HM & H)]; [exists 1; split; [lra|intros; lia]|].
    destruct (row_bound (f m) n) as (M' & HM' & H'). exists (M + M'). split; [lra|]. intros i j Hi Hj.
    destruct (Nat.eq_dec i m) as [->|]; [specialize (H' j Hj); lra|]. assert (L : (i < m)%nat) by lia. specialize (H i j L Hj). lra. }
  apply G.
Qed.
Lemma small eps M : 0 < eps -> 0 < M -> exists d, 0 < d /\ d <= 1 /\ d * M <= eps.
Proof.
  intros He HM. exists (Rmin 1 (eps / M)). assert (P : 0 < eps / M) by (apply Rdiv_lt_0_compat; assumption).
  split; [apply Rmin_glb_lt; lra|]. split; [apply Rmin_l|].
  replace eps with (eps / M * M) at 2 by (field; lra). apply Rmult_le_compat_r; [lra|apply Rmin_r].
Qed.
Lemma combine2_within k f f' g g' : within f f' -> within g g' -> within (combine2 k f g) (combine2 k f' g').
Proof.
  intros Hf Hg K (K1 & K2 & H1 & H2 & H) x n eps He. destruct k; cbn [op] in H.
  - destruct (Hf K1 H1 x n (eps / 2)) as (L1 & F1 & A1); [lra|]. destruct (Hg K2 H2 x n (eps / 2)) as (L2 & F2 & A2); [lra|].
    exists (fun x i j => L1 x i j + L2 x i j). split; [exists L1, L2; auto|]. intros i j Hi Hj. rewrite H.
    specialize (A1 i j Hi Hj). specialize (A2 i j Hi Hj).
    replace (L1 x i j + L2 x i j - (K1 x i j + K2 x i j)) with ((L1 x i j - K1 x i j) + (L2 x i j - K2 x i j)) by ring.
    eapply Rle_lt_trans; [apply Rabs_triang|]. lra.
  - destruct (matrix_bound (K1 x) n) as (M1 & P1 & B1). destruct (matrix_bound (K2 x) n) as (M2 & P2 & B2).
    destruct (small eps (M1 + M2 + 1)) as (d & Hd & Hd1 & Hde); [lra|lra|].
    destruct (Hf K1 H1 x n d Hd) as (L1 & F1 & A1). destruct (Hg K2 H2 x n d Hd) as (L2 & F2 & A2).
    exists (fun x i j => L1 x i j * L2 x i j). split; [exists L1, L2; auto|]. intros i j Hi Hj. rewrite H.
    specialize (A1 i j Hi Hj). specialize (A2 i j Hi Hj). specialize (B1 i j Hi Hj). specialize (B2 i j Hi Hj).
    set (a := K1 x i j) in *. set (b := K2 x i j) in *. set (u := L1 x i j) in *. set (v := L2 x i j) in *.
    replace (u * v - a * b) with ((u - a) * (v - b) + (u - a) * b + a * (v - b)) by ring.
    assert (Q : Rabs ((u - a) * (v - b)) + Rabs ((u - a) * b) + Rabs (a * (v - b)) < eps).
    { rewrite !Rabs_mult. pose proof (Rabs_pos (u - a)). pose proof (Rabs_pos (v - b)). pose proof (Rabs_pos a). pose proof (Rabs_pos b).
      assert (Rabs (u - a) * Rabs (v - b) <= d * Rabs (v - b)) by (apply Rmult_le_compat_r; lra).
      assert (d * Rabs (v - b) < d * 1) by (apply Rmult_lt_compat_l; lra).
      assert (Rabs (u - a) * Rabs b <= d * M2) by (apply Rmult_le_compat; lra).
      assert (Rabs a * Rabs (v - b) <= M1 * d) by (apply Rmult_le_compat; lra). lra. }
    eapply Rle_lt_trans; [apply Rabs_triang|]. eapply Rle_lt_trans; [apply Rplus_le_compat_r, Rabs_triang|]. exact Q.
Qed.
Lemma combine_all_within k l m : Forall2 within l m -> within (combine_all k l) (combine_all k m).
Proof. induction 1; [apply within_refl|]. apply combine2_within; assumption. Qed.
(** A change is a sum of products with fixed weights. *)
Lemma change_family_within c f f' g g' : within f f' -> within g g' -> within (change_family c f g) (change_family c f' g').
Proof.
  intros Hf Hg K (K1 & K2 & l & w & H1 & H2 & Hw & H) x n eps He.
  set (phi := match c with CP => phi_S l (1 / 2) | CW => phi_SI l (1 / 2) w end) in *. cbv zeta in H.
  set (U := fun (y : nat -> R) i j => phi true (y i) * phi true (y j)). set (V := fun (y : nat -> R) i j => phi false (y i) * phi false (y j)).
  assert (A : within (combine2 KSum (combine2 KProd f (fun L => L = U)) (combine2 KProd g (fun L => L = V)))
                     (combine2 KSum (combine2 KProd f' (fun L => L = U)) (combine2 KProd g' (fun L => L = V)))).
  { repeat apply combine2_within; try assumption; apply within_refl. }
  destruct (A K) with (x := x) (n := n) (eps := eps) as (K' & (M1 & M2 & (L1 & U' & F1 & -> & E1) & (L2 & V' & F2 & -> & E2) & E) & G); [|exact He|].
  - exists (fun y i j => K1 y i j * U y i j), (fun y i j => K2 y i j * V y i j).
    split; [exists K1, U; auto|]. split; [exists K2, V; auto|]. intros. apply H.
  - exists K'. split; [|exact G]. exists L1, L2, l, w. split; [exact F1|]. split; [exact F2|]. split; [exact Hw|]. cbv zeta. fold phi.
    intros y i j. rewrite E, E1, E2. reflexivity.
Qed.
(** Adding a constant: it may be as small as desired. *)
Lemma add_constant_within o f : within f (combine2 KSum (base_family o bC) f).
Proof.
  intros K HK x n eps He. exists (fun x i j => eps / 2 + K x i j). split.
  - exists (fun _ _ _ => eps / 2), K. split; [exists (eps / 2); split; [lra|reflexivity]|]. split; [exact HK|reflexivity].
  - intros i j _ _. replace (eps / 2 + K x i j - K x i j) with (eps / 2) by ring. rewrite Rabs_right; lra.
Qed.
Lemma drop_constants_within o l m n : count_occ base_eq_dec m bC = (n + count_occ base_eq_dec l bC)%nat ->
  (forall b, b <> bC -> count_occ base_eq_dec m b = count_occ base_eq_dec l b) ->
  within (combine_all KSum (map (base_family o) l)) (combine_all KSum (map (base_family o) m)).
Proof.
  intros HC Hb. assert (P : Permutation (repeat bC n ++ l) m).
  { apply perm_count. intros b. rewrite count_occ_app. destruct (base_eq_dec b bC) as [->|Hn].
    - rewrite HC. f_equal. clear. induction n; cbn [repeat count_occ]; [reflexivity|]. destruct (base_eq_dec bC bC); [f_equal; exact IHn|congruence].
    - rewrite (Hb b Hn). assert (Z : count_occ base_eq_dec (repeat bC n) b = 0%nat); [|rewrite Z; reflexivity].
      clear - Hn. induction n; cbn [repeat count_occ]; [reflexivity|]. destruct (base_eq_dec bC b); [congruence|exact IHn]. }
  eapply within_trans; [|apply same_within, combine_all_perm, Permutation_map, P]. clear.
  induction n as [|n IH]; [apply within_refl|]. eapply within_trans; [exact IH|]. apply add_constant_within.
Qed.

Section Lim.
  Variable off o : bool.
  Notation cov := (covariances o).
  Local Open Scope Z_scope.

  Lemma sum_simp_within c n : nodup c -> nonneg c -> within (fam_bases o KSum (simp_base off KSum c n)) (fam_bases o KSum c).
  Proof.
    intros N NN. eapply within_trans; [|apply same_within, (sum_simp o c n N NN)]. unfold fam_bases.
    apply (drop_constants_within o _ _ (Z.to_nat (cget (simp_base false KSum c n) bC - cget (simp_base off KSum c n) bC))).
    - rewrite !bases_in_count, !cget_simp_sum by assumption. cbn [andb]. specialize (NN bC). destruct (off && (0 <? cget c bLIN))%bool; lia.
    - intros b Hb. rewrite !bases_in_count, !cget_simp_sum by assumption. destruct b; try reflexivity. congruence.
  Qed.
  Lemma node_within k c n f g : nodup c -> nonneg c -> within f g -> 
    (k = KProd -> same_family (combine2 KProd (fam_bases o KProd (simp_base false KProd c n)) g) (combine2 KProd (fam_bases o KProd c) g)) ->
    within (combine2 k (fam_bases o k (simp_base off k c n)) f) (combine2 k (fam_bases o k c) g).
  Proof.
    intros N NN Hfg HP. destruct k; [apply combine2_within; [apply sum_simp_within; assumption|exact Hfg]|].
    eapply within_trans; [apply combine2_within; [apply within_refl|exact Hfg]|]. apply same_within, HP. reflexivity.
  Qed.

  (** ** One node *)
  Lemma simp_node_within k bts cts :
    wf_counter bts -> (forall c, In c cts -> wf c /\ non_empty c /\ sigmoid_free c) -> (forall b, is_sigmoid b = true -> ~ 0 < cget bts b) ->
    (k = KProd -> filter (is_kind KProd) cts <> [] -> 0 < cget (total bts (filter (is_kind KProd) cts)) bC -> nonCs (total bts (filter (is_kind KProd) cts)) \/ raised KProd cts <> []) ->
    within (cov (simp_node off k bts cts)) (combine2 k (fam_bases o k bts) (fam_kexs o k cts)).
  Proof.
    intros W Hc Hsf Key. destruct (simp_node_spec off k bts cts) as (ns & L & P & E). cbv zeta in E. rewrite E. clear E.
    assert (Wr : forall x, In x (raised k cts) -> wf_top x /\ non_empty x /\ sigmoid_free x).
    { intros x Hx. apply raised_in in Hx as (c & Hin & [->|Hk]); destruct (Hc c Hin) as (Wc & Nc & Sc).
      - split; [apply wf_top_of, Wc|]. auto.
      - pose proof (kids_node _ _ Hk) as Hn. split; [apply wf_top_of; eapply wf_sub; eauto|].
        split; [eapply non_empty_node; eauto|eapply sigmoid_free_node; eauto]. }
    eapply within_trans; [|apply same_within; symmetry; apply (fam_raised o k bts cts); auto; intros; apply wf_top_of, Hc; assumption].
    eapply within_trans; [|apply same_within; symmetry; apply combine2_proper; [reflexivity|]; apply (fam_singles o k (raised k cts)); intros; apply Wr; assumption].
    set (hs := filter (is_kind k) cts) in *. set (hb := absorb_bts off k bts hs ns).
    set (ex := map extract (raised k cts)) in *.
    assert (Wb : wf_counter hb) by (apply absorb_bts_wf, W).
    set (c1 := cupdate_list hb (bases_of ex)). assert (N1 : nodup c1) by (apply cupdate_list_nodup, wf_nodup, Wb).
    assert (NN1 : nonneg c1) by (apply nonneg_cupdate_list, wf_nn, Wb).
    set (n := length (kexs_of ex)).
    rewrite (simp_base_fix off k (simp_base off k c1 n) n) by (try apply simp_base_wf; try apply simp_base_card; assumption).
    eapply within_trans; [apply same_within, cov_comm|].
    assert (Sx : forall x, In x (kexs_of ex) -> scalable (cov x)).
    { intros x Hx. apply kexs_of_in in Hx. unfold ex in Hx. apply in_map_iff in Hx as (y & Ey & Hy). destruct (Wr y Hy) as (Wy & Ny & Sy).
      apply cov_scalable.
      - apply extract_inr in Ey as [->|Ek]; [exact Sy| |exact Wy]. eapply sigmoid_free_node; [exact Sy|]. apply kids_node. rewrite Ek. left; auto.
      - eapply extract_non_empty; eauto. }
    assert (Sb : forall b, In b (bases_of ex) -> is_sigmoid b = false).
    { intros b Hb. destruct (is_sigmoid b) eqn:E; [|reflexivity]. exfalso. unfold bases_of in Hb. apply in_concat in Hb as (m & Hm & Hb).
      apply in_map_iff in Hm as (y & <- & Hy). unfold ex in Hy. apply in_map_iff in Hy as (z & <- & Hz). destruct (Wr z Hz) as (Wz & Nz & Sz).
      destruct z as [kz bz cz|]; [|destruct Hb].
      destruct (extract_spec kz bz cz Wz) as [(b0 & -> & -> & Ez)|[(c & -> & -> & Ez)|(_ & Ez)]]; rewrite Ez in Hb; cbn in Hb; try tauto.
      destruct Hb as [<-|[]]. apply sigmoid_free_comm in Sz as [Sz _]. apply (Sz b0 E). rewrite cget_cons, base_eqb_refl. lia. }
    eapply within_trans.
    { apply (node_within k c1 n _ (fam_kexs o k (kexs_of ex)) N1 NN1 (within_refl _)). intros ->.
      apply prod_simp; auto; [apply combine_all_closed|]. intros W0 HC HL.
      destruct (kexs_of ex) as [|x t] eqn:Ex.
      - right. assert (NL : ~ (n = 0%nat /\ cget c1 bLIN = 0 /\ cget c1 bSE = 0 /\ cget c1 bPER = 0)).
        { intros HH. apply (lone_c_spec c1 n N1 NN1 W0) in HH. congruence. }
        assert (n = 0%nat) by (unfold n; rewrite ?Ex; reflexivity).
        destruct (Z.ltb_spec 0 (cget c1 bLIN)); [exists bLIN; repeat split; auto; discriminate|].
        destruct (Z.ltb_spec 0 (cget c1 bSE)); [exists bSE; repeat split; auto; discriminate|].
        destruct (Z.ltb_spec 0 (cget c1 bPER)); [exists bPER; repeat split; auto; discriminate|].
        exfalso. apply NL. pose proof (NN1 bLIN). pose proof (NN1 bSE). pose proof (NN1 bPER). repeat split; auto; lia.
      - left. eapply (prod_scalable _ (cov x)); [left; reflexivity|apply Sx; left; auto]. }
    unfold c1. eapply within_trans; [apply same_within; rewrite fam_bases_cupdate_list by (apply wf_nn, Wb); rewrite <- combine2_assoc; reflexivity|].
    set (ctx := combine2 k (fam_list o k (bases_of ex)) (fam_kexs o k (kexs_of ex))).
    destruct hs as [|h hs'] eqn:Ehs.
    - unfold hb, absorb_bts. cbn [combine fold_left]. apply within_refl.
    - assert (Wh : forall x, In x hs -> wf_counter (bts_of x)).
      { intros x Hx. unfold hs in Hx. apply filter_In in Hx as [Hx _]. apply wf_top_of, Hc, Hx. }
      assert (Hcl : ceq hb (simp_base off k (total bts hs) 1)).
      { unfold hb. rewrite <- Ehs. apply absorb_bts_closed; [rewrite Ehs; discriminate|rewrite Ehs; exact L|exact P|apply wf_nodup, W|apply wf_nn, W|exact Wh]. }
      rewrite (fam_bases_ceq o k _ _ Hcl). rewrite <- Ehs.
      assert (Nt : nodup (total bts hs)) by (apply total_nodup, wf_nodup, W).
      assert (NNt : nonneg (total bts hs)).
      { intros b. rewrite cget_total by exact Wh. pose proof (hsum_nonneg hs b Wh). pose proof (wf_nonneg _ b W). lia. }
      apply (node_within k (total bts hs) 1 ctx ctx Nt NNt (within_refl _)). intros Ek. subst k.
      apply prod_simp; auto; [apply combine2_closed|]. intros W0 HC _.
      destruct (Key eq_refl) as [Hn|Hr]; [fold hs; rewrite Ehs; discriminate|exact HC|right; exact Hn|left].
      fold hs in Hr. unfold ctx. destruct (bases_of ex) as [|b t] eqn:Eb.
      + destruct (kexs_of ex) as [|x t] eqn:Ek.
        * exfalso. pose proof (singles_count ex) as SC. rewrite Eb, Ek in SC. unfold ex in SC. rewrite map_length in SC.
          destruct (raised KProd cts); [congruence|discriminate].
        * apply prod2_scalable_r. eapply (prod_scalable _ (cov x)); [left; reflexivity|apply Sx; left; auto].
      + apply prod2_scalable_l. eapply (prod_scalable _ (base_family o b)); [left; reflexivity|apply base_scalable, Sb; left; auto].
  Qed.

  Lemma map_within k l m : Forall2 (fun x y => within (cov x) (cov y)) l m -> within (fam_kexs o k l) (fam_kexs o k m).
  Proof. intros H. apply combine_all_within. induction H; simpl; constructor; auto. Qed.

  Lemma pnf_within e : pnf off e -> non_empty e -> sigmoid_free e -> within (cov (simplify off e)) (cov e).
  Proof.
    intros P N S. destruct e as [k bts cts|c l r].
    2:{ rewrite normal_fix by (apply normal_iff; exact P). apply within_refl. }
    destruct P as (W & Hc & Hk). cbn [simplify].
    assert (E : map (simplify off) cts = cts).
    { rewrite <- (map_id cts) at 2. apply map_ext_in. intros c Hin. apply normal_fix, Hk, Hin. }
    rewrite E. clear E. apply non_empty_comm in N as [T Nk]. apply sigmoid_free_comm in S as [Sb Sk].
    eapply within_trans; [|apply same_within; symmetry; apply cov_comm].
    apply simp_node_within; auto.
    - intros c Hin. split; [eapply normal_wf; apply (Hk c Hin)|]. auto.
    - intros -> Hne _. apply key_fact; auto. intros c Hin. destruct (Hk c Hin) as [Nc Sc].
      split; [eapply normal_wf, Nc|]. split; [auto|]. split; [auto|]. eapply normal_no_c; eauto.
  Qed.

  Lemma mk_within k bts cts : wf_counter bts -> (forall b, is_sigmoid b = true -> ~ 0 < cget bts b) ->
    (forall c, In c cts -> pnf off c /\ non_empty c /\ sigmoid_free c /\ no_c_product k c) ->
    within (cov (mk off k bts cts)) (cov (Comm k bts cts)).
  Proof.
    intros W Sb H. unfold mk. cbn [simplify].
    assert (Hs : forall c, In c (map (simplify off) cts) -> wf c /\ non_empty c /\ sigmoid_free c /\ no_c_product k c).
    { intros c Hc. apply in_map_iff in Hc as (c0 & <- & Hc0). destruct (H c0 Hc0) as (P & N & S & C).
      split; [eapply normal_wf, pnf_simplify, P|]. split; [apply pnf_simplify_non_empty; assumption|].
      split; [apply simplify_sigmoid_free; [eapply pnf_wf, P|exact S]|apply pnf_simplify_no_c; assumption]. }
    eapply within_trans; [apply simp_node_within; auto|].
    - intros c Hc. destruct (Hs c Hc) as (? & ? & ? & _). auto.
    - intros -> Hne _. apply key_fact; auto.
    - eapply within_trans; [|apply same_within; symmetry; apply cov_comm]. apply combine2_within; [apply within_refl|]. apply map_within.
      assert (G : forall c, In c cts -> within (cov (simplify off c)) (cov c)).
      { intros c Hc. destruct (H c Hc) as (P & N & S & _). apply pnf_within; assumption. }
      clear - G. induction cts as [|c t IH]; simpl; constructor; [apply G; left; auto|apply IH; intros; apply G; right; auto].
  Qed.
  Lemma mk_change_within c l r : (forall x, l = inr x \/ r = inr x -> pnf off x /\ non_empty x /\ sigmoid_free x) ->
    within (cov (mk_change off c l r)) (cov (Change c l r)).
  Proof.
    intros H. unfold mk_change. cbn [simplify covariances].
    assert (HB : forall br : branch, (forall x, br = inr x -> pnf off x /\ non_empty x /\ sigmoid_free x) ->
      within (branch_covariances o (match br with inl b => inl b | inr x => extract (simplify off x) end)) (branch_covariances o br)).
    { intros [b|x] Hx; [apply within_refl|]. destruct (Hx x eq_refl) as (P & N & S).
      eapply within_trans; [apply same_within, cov_extract; eapply normal_wf_top, pnf_simplify, P|]. apply pnf_within; assumption. }
    apply change_family_within; [apply (HB l)|apply (HB r)]; intros x ->; apply H; auto.
  Qed.
End Lim.

(** ** Public versions *)
Local Open Scope Z_scope.
Lemma mk_limits offset k bts cts :
  wf_counter bts -> sigmoid_free (Comm k bts cts) -> (forall c, In c cts -> built offset c /\ non_empty c /\ no_c_product k c) ->
  forall K, covariances offset (mk offset k bts cts) K -> approximated (covariances offset (Comm k bts cts)) K.
Proof.
  intros W S H. apply sigmoid_free_comm in S as [Sb Sk]. apply mk_within; [exact W|exact Sb|].
  intros c Hc. destruct (H c Hc) as (B & N & C). split; [apply built_pnf, B|auto].
Qed.
Lemma mk_change_limits offset c l r :
  sigmoid_free (Change c l r) -> (forall x, l = inr x \/ r = inr x -> built offset x /\ non_empty x) ->
  forall K, covariances offset (mk_change offset c l r) K -> approximated (covariances offset (Change c l r)) K.
Proof.
  intros S H. apply sigmoid_free_change in S as [Sb Sk]. apply mk_change_within.
  intros x Hx. destruct (H x Hx) as (B & N). split; [apply built_pnf, B|auto].
Qed.
Lemma initialise_limits offset e : built offset e -> non_empty e -> sigmoid_free e ->
  forall K, covariances offset (initialise offset e) K -> approximated (covariances offset e) K.
Proof. intros B N S. apply pnf_within; auto. apply built_pnf, B. Qed.

Lemma part_facts off k d : operand off d -> (forall x, is_sigmoid x = true -> cget (part_bases k d) x = 0) /\
  forall c, In c (part_kexs k d) -> pnf off c /\ non_empty c /\ sigmoid_free c /\ no_c_product k c.
Proof.
  intros Od. destruct d as [y|[k' bts cts|oo l r]]; cbn [part_bases part_kexs].
  - split; [|intros ? []]. intros x Hx. cbn in Od. rewrite cget_cons. destruct (base_eqb y x) eqn:E; [|reflexivity].
    apply base_eqb_spec in E; subst. congruence.
  - destruct Od as (Bd & Nd & Sd). pose proof (built_pnf _ _ Bd) as Pd.
    pose proof Sd as Sd'. apply sigmoid_free_comm in Sd' as [Sb Sk]. pose proof Nd as Nd'. apply non_empty_comm in Nd' as [Td Nk].
    destruct (kind_eqb k k') eqn:Ek.
    + apply kind_eqb_spec in Ek; subst k'. split.
      * intros x Hx. specialize (Sb x Hx). destruct Pd as (Wd & _). pose proof (wf_nonneg _ x Wd). lia.
      * intros c Hc. destruct Pd as (Wd & _ & Hk). destruct (Hk c Hc) as [Nc Sc].
        split; [apply normal_pnf, Nc|]. split; [auto|]. split; [auto|]. eapply normal_no_c; eauto.
    + split; [reflexivity|]. intros c [<-|[]]. split; [exact Pd|]. split; [exact Nd|]. split; [exact Sd|].
      intros ->. destruct k'; [exact I|discriminate].
  - destruct Od as (Bd & Nd & Sd). split; [reflexivity|]. intros c [<-|[]]. split; [apply built_pnf, Bd|].
    split; [exact Nd|]. split; [exact Sd|]. intros _. exact I.
Qed.
Lemma operate_within off o k a b : operand off a -> operand off b ->
  within (covariances o (operate off k a b)) (combine2 k (branch_covariances o a) (branch_covariances o b)).
Proof.
  intros Oa Ob. pose proof (operand_wf _ _ Oa) as Wa. pose proof (operand_wf _ _ Ob) as Wb.
  destruct (operate_shape k a b Wa Wb) as (B & C & -> & WB & GB & PC).
  destruct (part_facts _ k _ Oa) as [Sa Ka]. destruct (part_facts _ k _ Ob) as [Sb Kb].
  eapply within_trans; [apply mk_within|apply same_within].
  - exact WB.
  - intros x Hx. rewrite GB, (Sa x Hx), (Sb x Hx). lia.
  - intros c Hc. apply (Permutation_in c PC) in Hc. apply in_app_iff in Hc as [Hc|Hc]; auto.
  - rewrite cov_comm, <- (part_family o k a Wa), <- (part_family o k b Wb).
    assert (E1 : same_family (fam_bases o k B) (combine2 k (fam_bases o k (part_bases k a)) (fam_bases o k (part_bases k b)))).
    { unfold fam_bases. rewrite <- fam_list_app. apply fam_list_perm, perm_count. intros x. rewrite count_occ_app, !bases_in_count, GB.
      pose proof (wf_nonneg _ x (part_wf k a Wa)). pose proof (wf_nonneg _ x (part_wf k b Wb)). lia. }
    assert (E2 : same_family (fam_kexs o k C) (combine2 k (fam_kexs o k (part_kexs k a)) (fam_kexs o k (part_kexs k b)))).
    { rewrite <- fam_kexs_app. apply combine_all_perm, Permutation_map, PC. }
    rewrite E1, E2, <- !combine2_assoc. rewrite (combine2_swap k (fam_bases o k (part_bases k b))). reflexivity.
Qed.
Lemma add_limits offset a b : operand offset a -> operand offset b ->
  forall K, covariances offset (add offset a b) K -> approximated (combine2 KSum (branch_covariances offset a) (branch_covariances offset b)) K.
Proof. intros Oa Ob. exact (operate_within offset offset KSum a b Oa Ob). Qed.
Lemma multiply_limits offset a b : operand offset a -> operand offset b ->
  forall K, covariances offset (multiply offset a b) K -> approximated (combine2 KProd (branch_covariances offset a) (branch_covariances offset b)) K.
Proof. intros Oa Ob. exact (operate_within offset offset KProd a b Oa Ob). Qed.

(** LIN alone does not come close to LIN + C: the matrices of LIN have rank one. *)
Lemma lin_rank_one K : covariances true (mk true KSum [(bLIN, 1); (bC, 1)] []) K ->
  forall x i j, (K x i i * K x j j = K x i j * K x i j)%R.
Proof.
  assert (E1 : mk true KSum [(bLIN, 1); (bC, 1)] [] = Comm KSum [(bLIN, 1)] []) by reflexivity. rewrite E1.
  change (covariances true (Comm KSum [(bLIN, 1)] [])) with (combine_all KSum [base_family true bLIN]).
  intros (K1 & K2 & (v & o & Hv & _ & E) & H2 & H) x i j. cbn [combine_all fold_right] in H2. rewrite !H, !E, !H2. cbn [op unit]. ring.
Qed.
Lemma lin_c_apart : exists bts, wf_counter bts /\ sigmoid_free (Comm KSum bts []) /\
  exists K, covariances true (Comm KSum bts []) K /\ ~ approximated (covariances true (mk true KSum bts [])) K.
Proof.
  exists [(bLIN, 1); (bC, 1)]. split; [|split].
  - split; [repeat constructor; simpl; intuition congruence|]. intros b n [[= <- <-]|[[= <- <-]|[]]]; lia.
  - apply sigmoid_free_comm. split; [|intros ? []]. intros b Hb. destruct b; try discriminate; cbn; lia.
  - exists (fun x i j => (1 + x i * x j)%R). split.
    + change (covariances true (Comm KSum [(bLIN, 1); (bC, 1)] [])) with (combine_all KSum [base_family true bC; base_family true bLIN]).
      exists (fun _ _ _ => 1%R), (fun x i j => (x i * x j)%R). split; [exists 1%R; split; [lra|reflexivity]|]. split; [|reflexivity].
      exists (fun x i j => (x i * x j)%R), (fun _ _ _ => 0%R). split; [|split; [intros x i j; reflexivity|intros; cbn; ring]].
      exists 1%R, 0%R. split; [lra|]. split; [reflexivity|]. intros. ring.
    + intros A. destruct (A (fun i => if Nat.eqb i 0 then 1%R else (-1)%R) 2%nat (1 / 2)%R) as (K' & HK & B); [lra|].
      pose proof (lin_rank_one K' HK (fun i => if Nat.eqb i 0 then 1%R else (-1)%R) 0%nat 1%nat) as D.
      pose proof (B 0%nat 0%nat ltac:(lia) ltac:(lia)) as B0. pose proof (B 1%nat 1%nat ltac:(lia) ltac:(lia)) as B1.
      pose proof (B 0%nat 1%nat ltac:(lia) ltac:(lia)) as B2. cbn [Nat.eqb] in *.
      apply Rabs_def2 in B0. apply Rabs_def2 in B1. apply Rabs_def2 in B2.
      set (a := K' _ 0%nat 0%nat) in *. set (d := K' _ 1%nat 1%nat) in *. set (c := K' _ 0%nat 1%nat) in *.
      assert (1 * 1 < a * d)%R by (apply Rmult_gt_0_lt_compat; lra).
      assert (-1 < c < 1)%R by lra. assert (c * c <= 1)%R by nra.
      lra.
Qed.

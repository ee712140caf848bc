(** Products with parameters: simplification of the parameters (C32-C34). *)
From Coq Require Import Reals Lra List Bool Arith ZArith Lia Permutation.
From Verif Require Import Py KexModel KexSpec KexProofs KexSimp KexMore KernModel KernSpec SemModel SemSpec SemProofs SemSimp SemKernel KernProper IvModel IvSpec IvProofs ParModel ParSpec ParMatch ParCov ParInv ParInv2.
Import ListNotations.
Local Open Scope list_scope.

Section Simp.
  Context (offset fixed : bool).
  Notation inv := (inv offset fixed).
  Notation stored := (stored offset fixed).

  Lemma key_pos ps bts b : inv bts ps -> In (KBase b) (map fst ps) -> (0 < cget bts b)%Z /\ pars ps (KBase b) <> [] /\ Forall (stored b) (pars ps (KBase b)).
  Proof. intros (_ & _ & _ & K & _) I. destruct (K _ I) as [D|(b' & D & N & F & P)]; [discriminate D|]. injection D as <-. auto. Qed.
  Lemma absent_pos ps bts b : inv bts ps -> (cget bts b <= 0)%Z -> ~ In (KBase b) (map fst ps).
  Proof. intros V L I. apply (key_pos ps bts b V) in I as [P _]. lia. Qed.
  Lemma key_cov_ones b l x i j : Forall (fun p => base_cov b p x i j = 1%R) l -> key_cov (KBase b, l) x i j = 1%R.
  Proof. unfold key_cov, mono_cov. cbn [fst snd]. induction 1 as [|p l E F IH]; [reflexivity|]. cbn. unfold rprods in IH. rewrite IH. unfold entry_cov. cbn. rewrite E. ring. Qed.
  Lemma stored_value b p n d : is_sigmoid b = false -> stored b p -> n <> pVariance -> n <> pOffset -> In n (base_params offset b) -> (0 < value p n d)%R.
  Proof. unfold ParInv2.stored. intros -> V N O I. eapply values_positive; eassumption. Qed.
  (** On the diagonal a factor other than LIN and the sigmoids is 1. *)
  Lemma diagonal_one b p x i : is_sigmoid b = false -> b <> bLIN -> stored b p -> base_cov b p x i i = 1%R.
  Proof.
    intros S N V. pose proof (stored_no_variance offset fixed b p V) as NV. apply values_dict_get_variance in NV. destruct b; try discriminate S; try contradiction; unfold base_cov; rewrite NV.
    - now rewrite Nat.eqb_refl.
    - reflexivity.
    - replace (x i - x i)%R with 0%R by ring. unfold Rdiv. replace (- 0 ^ 2 * / (2 * value p pLengthscale 1 ^ 2))%R with 0%R by ring. rewrite exp_0. ring.
    - replace (x i - x i)%R with 0%R by ring. apply per_at_0. apply (stored_value bPER p); [reflexivity|exact V|discriminate|discriminate|cbn; auto].
  Qed.
  Lemma constant_one p x i j : stored bC p -> base_cov bC p x i j = 1%R.
  Proof. intros V. unfold base_cov. apply values_dict_get_variance, (stored_no_variance offset fixed bC p V). Qed.
  Lemma white_zero l x i j : l <> [] -> i <> j -> key_cov (KBase bWN, l) x i j = 0%R.
  Proof. intros N D. destruct l as [|p l]; [contradiction|]. unfold key_cov. cbn [fst snd map]. rewrite mono_cov_cons. unfold entry_cov, base_cov. cbn [fst snd]. destruct (Nat.eqb_spec i j); [contradiction|]. ring. Qed.

  Definition keep_wn (k : pkey) : bool := match k with KBase bWN | KProduct => true | KBase b => is_sigmoid b | _ => false end.
  Lemma filter_wn ps : filter (fun kv : pkey * list pdict => match fst kv with KBase bWN | KProduct => true | KBase b => is_sigmoid b | _ => false end) ps = filter (fun kv => keep_wn (fst kv)) ps.
  Proof. reflexivity. Qed.

  Lemma simp_white bts ps : inv bts ps -> (0 < cget bts bWN)%Z ->
    exists ps', simplify_base_terms_params (simp_base_prod bts 0) ps = Ok ps' /\ inv (simp_base_prod bts 0) ps'
      /\ (forall b, length (pars ps' (KBase b)) <= length (pars ps (KBase b)))%nat
      /\ ((cget bts bLIN <= 0)%Z -> forall x i j, product_cov ps' x i j = product_cov ps x i j).
  Proof.
    intros V W. pose proof V as (Wf & ND & (v & EP) & KS & WN & AC). set (bts' := simp_base_prod bts 0).
    assert (NN : forall b, (0 <= cget bts b)%Z) by (intros b; apply wf_nonneg, Wf).
    assert (GB : forall b, cget bts' b = match b with bWN => 1 | bC | bSE | bPER => 0 | _ => cget bts b end%Z).
    { intros b. unfold bts'. rewrite (simp_prod_count bts b Wf). unfold simp_count. destruct (Z.ltb_spec 0 (cget bts bWN)); [reflexivity|lia]. }
    specialize (WN W). unfold simplify_base_terms_params. rewrite (proj2 (has_key (KBase bWN) ps) WN), filter_wn. set (ps1 := filter (fun kv => keep_wn (fst kv)) ps).
    assert (HC : dict_has pkey_eqb ps1 (KBase bC) = false).
    { destruct (dict_has pkey_eqb ps1 (KBase bC)) eqn:H; [|reflexivity]. apply has_key, keys_filter in H as [_ H]. discriminate H. }
    assert (HS : dict_has pkey_eqb ps1 (KBase bSE) = false).
    { destruct (dict_has pkey_eqb ps1 (KBase bSE)) eqn:H; [|reflexivity]. apply has_key, keys_filter in H as [_ H]. discriminate H. }
    rewrite HC, HS. cbn [andb]. exists ps1. split; [reflexivity|].
    assert (GP : forall k, pars ps1 k = if keep_wn k then pars ps k else []) by (intros k; apply pars_filter). split; [|split].
    - split; [apply (simp_base_wf true KProd bts 0), wf_nodup, Wf|]. split; [apply filter_nodup, ND|]. split; [exists v; rewrite GP; exact EP|]. split; [|split].
      + intros k I. apply keys_filter in I as [I G]. destruct (KS k I) as [->|(b & -> & N & F & P)]; [left; reflexivity|]. right. exists b. split; [reflexivity|]. rewrite GP, G.
        split; [exact N|]. split; [exact F|]. rewrite GB. destruct b; try discriminate G; try lia.
      + intros _. apply keys_filter. split; [exact WN|reflexivity].
      + intros [H|H] b D; rewrite GB in H; [lia|]. rewrite GP, GB. specialize (AC (or_intror H) b D). destruct b; try contradiction; cbn [keep_wn is_sigmoid]; try exact AC; try reflexivity.
        pose proof (NN bLIN). cbn [length]. lia.
    - intros b. rewrite GP. destruct (keep_wn (KBase b)); cbn; lia.
    - intros HL x i j. destruct (Nat.eq_dec i j) as [->|D].
      + apply product_filter. intros k l I G. cbn [fst] in G. assert (IK : In k (map fst ps)) by (apply in_map_iff; now exists (k, l)).
        destruct (KS k IK) as [->|(b & -> & N & F & P)]; [discriminate G|]. rewrite (pars_in _ _ _ ND I) in F. apply key_cov_ones.
        eapply Forall_impl; [|exact F]. intros p Sp. apply diagonal_one; [destruct b; try reflexivity; discriminate G| |exact Sp]. intros ->. lia.
      + destruct (key_pos ps bts bWN V WN) as (_ & N & _). rewrite (product_zero (KBase bWN) (pars ps (KBase bWN)) ps); [|apply key_in, WN|apply white_zero; assumption].
        apply (product_zero (KBase bWN) (pars ps (KBase bWN))); [|apply white_zero; assumption]. unfold ps1. apply filter_In. split; [apply key_in, WN|reflexivity].
  Qed.

  Lemma se_pos t : forall l, (0 < l)%R -> Forall (fun x => 0 < x)%R t -> (0 < fold_left se_step t l)%R.
  Proof.
    induction t as [|y t IH]; intros l L F; [exact L|]. inversion F as [|? ? Fy Ft]; subst. cbn. apply IH; [|exact Ft]. unfold se_step. apply Rdiv_lt_0_compat; [lra|].
    apply sqrt_lt_R0. assert (0 < l ^ 2)%R by (apply pow_lt; exact L). assert (0 < y ^ 2)%R by (apply pow_lt; exact Fy). lra.
  Qed.
  Lemma se_values p : stored bSE p -> exists l, (0 < l)%R /\ p = [(pLengthscale, l)] /\ pget p pLengthscale = Ok l.
  Proof.
    intros [E P]. cbn in E. destruct p as [|[n l] [|? ?]]; try discriminate E. injection E as ->. exists l. split; [apply (P pLengthscale l); [left; reflexivity|discriminate]|]. split; reflexivity.
  Qed.
  Lemma se_lengthscales l : Forall (stored bSE) l -> exists ls, mapM (fun p => pget p pLengthscale) l = Ok ls /\ Forall (fun x => 0 < x)%R ls /\ length ls = length l.
  Proof.
    induction 1 as [|p l V F IH]; [exists []; split; [reflexivity|split; [constructor|reflexivity]]|]. destruct (se_values p V) as (s & P & -> & E). destruct IH as (ls & El & Fl & Ll).
    exists (s :: ls). cbn [mapM]. rewrite E. cbn [bind]. rewrite El. cbn [bind]. split; [reflexivity|]. split; [constructor; assumption|cbn; now rewrite Ll].
  Qed.
  Lemma c_values p : stored bC p -> p = [].
  Proof. intros [E _]. cbn in E. destruct p; [reflexivity|discriminate E]. Qed.

  Lemma simp_plain bts ps : inv bts ps -> (cget bts bWN <= 0)%Z ->
    exists ps', simplify_base_terms_params (simp_base_prod bts 0) ps = Ok ps' /\ inv (simp_base_prod bts 0) ps'
      /\ (forall b, length (pars ps' (KBase b)) <= length (pars ps (KBase b)))%nat
      /\ ((length (pars ps (KBase bSE)) <= 1)%nat -> forall x i j, product_cov ps' x i j = product_cov ps x i j).
  Proof.
    intros V W. pose proof V as (Wf & ND & (v & EP) & KS & WN & AC). set (bts' := simp_base_prod bts 0).
    assert (NN : forall b, (0 <= cget bts b)%Z) by (intros b; apply wf_nonneg, Wf).
    assert (GB : forall b, cget bts' b = simp_count (cget bts) b) by (intros b; apply simp_prod_count, Wf).
    assert (Wf' : wf_counter bts') by apply (simp_base_wf true KProd bts 0), wf_nodup, Wf.
    specialize (AC (or_introl W)).
    assert (HW : dict_has pkey_eqb ps (KBase bWN) = false).
    { destruct (dict_has pkey_eqb ps (KBase bWN)) eqn:H; [|reflexivity]. apply has_key in H. apply (absent_pos ps bts bWN V W) in H. destruct H. }
    unfold simplify_base_terms_params. rewrite HW.
    (* the constants *)
    set (ps2 := if dict_has pkey_eqb ps (KBase bC)
               then if negb (chas bts' bC) then dict_del pkey_eqb ps (KBase bC)
                    else if Nat.ltb 1 (length (pars ps (KBase bC))) then dict_set pkey_eqb ps (KBase bC) [[]] else ps
               else ps).
    assert (S2 : NoDup (map fst ps2) /\ (forall k, In k (map fst ps2) -> In k (map fst ps)) /\ (forall k, k <> KBase bC -> pars ps2 k = pars ps k)
      /\ (Forall (stored bC) (pars ps2 (KBase bC)) /\ Z.of_nat (length (pars ps2 (KBase bC))) = cget bts' bC /\ (In (KBase bC) (map fst ps2) -> pars ps2 (KBase bC) <> []))
      /\ forall x i j, product_cov ps2 x i j = product_cov ps x i j).
    { assert (GC : cget bts' bC = simp_count (cget bts) bC) by apply GB. pose proof (AC bC ltac:(discriminate)) as LC.
      unfold ps2. destruct (dict_has pkey_eqb ps (KBase bC)) eqn:HC.
      - apply has_key in HC. destruct (key_pos ps bts bC V HC) as (PC & NC & FC). destruct (chas bts' bC) eqn:CH; cbn [negb].
        + apply (wf_has bts' bC Wf') in CH. assert (G1 : cget bts' bC = 1%Z) by (rewrite GC in CH |- *; unfold simp_count in CH |- *; counts).
          destruct (Nat.ltb_spec 1 (length (pars ps (KBase bC)))) as [L|L].
          * split; [apply set_nodup, ND|]. split; [intros k I; apply set_keys in I as [->|I]; assumption|]. split; [|split; [split; [|split]|]].
            -- intros k D. rewrite pars_set. destruct (pkey_eqb (KBase bC) k) eqn:E; [apply pkey_eqb_eq in E; subst; contradiction|reflexivity].
            -- rewrite pars_set, pkey_eqb_same. constructor; [split; [reflexivity|intros n w []]|constructor].
            -- rewrite pars_set, pkey_eqb_same, G1. reflexivity.
            -- intros _. rewrite pars_set, pkey_eqb_same. discriminate.
            -- intros x i j. rewrite (product_replace ps (KBase bC) [[]] 1); [ring|exact HC|]. rewrite !key_cov_ones; [ring| |].
               ++ eapply Forall_impl; [|exact FC]. intros p Sp. apply constant_one, Sp.
               ++ constructor; [reflexivity|constructor].
          * split; [exact ND|]. split; [auto|]. split; [reflexivity|]. split; [|reflexivity]. split; [exact FC|]. split; [|intros _; exact NC]. rewrite G1. destruct (pars ps (KBase bC)) as [|a [|? ?]]; [contradiction|reflexivity|cbn in L; lia].
        + assert (G0 : cget bts' bC = 0%Z). { pose proof (wf_nonneg _ bC Wf'). destruct (Z.eq_dec (cget bts' bC) 0); [assumption|]. assert (D : chas bts' bC = true) by (apply wf_has; [exact Wf'|lia]). congruence. }
          rewrite dict_del_filter.
          assert (GD : pars (filter (fun kl => negb (pkey_eqb (fst kl) (KBase bC))) ps) (KBase bC) = []) by (rewrite (pars_filter (fun k => negb (pkey_eqb k (KBase bC)))); reflexivity).
          split; [apply filter_nodup, ND|]. split; [intros k I; apply (keys_filter (fun k => negb (pkey_eqb k (KBase bC)))) in I as [I _]; exact I|]. split; [|split; [split; [|split]|]].
          * intros k D. rewrite (pars_filter (fun k => negb (pkey_eqb k (KBase bC)))). destruct (pkey_eqb k (KBase bC)) eqn:E; [apply pkey_eqb_eq in E; contradiction|reflexivity].
          * rewrite GD. constructor.
          * rewrite GD, G0. reflexivity.
          * intros I. apply (keys_filter (fun k => negb (pkey_eqb k (KBase bC)))) in I as [_ I]. discriminate I.
          * intros x i j. apply product_filter. intros k l I E. cbn [fst] in E. apply negb_false_iff, pkey_eqb_eq in E. subst k. rewrite <- (pars_in _ _ _ ND I). apply key_cov_ones.
            eapply Forall_impl; [|exact FC]. intros p Sp. apply constant_one, Sp.
      - assert (NC : ~ In (KBase bC) (map fst ps)) by (intros I; apply has_key in I; congruence). rewrite (pars_absent _ _ NC) in *.
        split; [exact ND|]. split; [auto|]. split; [reflexivity|]. split; [|reflexivity]. split; [constructor|]. split; [|contradiction]. rewrite GC. cbn [length] in *. unfold simp_count. counts. }
    destruct S2 as (ND2 & K2 & P2 & (FC2 & LC2 & NC2) & C2). clearbody ps2.
    assert (KS2 : forall ps3, (forall k, In k (map fst ps3) -> In k (map fst ps2)) -> (forall k, k <> KBase bSE -> pars ps3 k = pars ps2 k) ->
       (In (KBase bSE) (map fst ps3) -> pars ps3 (KBase bSE) <> [] /\ Forall (stored bSE) (pars ps3 (KBase bSE))) -> forall k, In k (map fst ps3) ->
       k = KProduct \/ exists b, k = KBase b /\ pars ps3 k <> [] /\ Forall (stored b) (pars ps3 k) /\ (0 < cget bts' b)%Z).
    { intros ps3 K3 P3 F3 k I. pose proof (K2 _ (K3 _ I)) as I'. destruct (KS k I') as [->|(b & -> & N & F & P)]; [left; reflexivity|]. right. exists b. split; [reflexivity|].
      destruct (base_eq_dec b bSE) as [->|D].
      - destruct (F3 I) as [A B]. split; [exact A|]. split; [exact B|]. rewrite GB. unfold simp_count. counts.
      - rewrite P3 by congruence. destruct (base_eq_dec b bC) as [->|DC].
        + split; [apply NC2, K3, I|]. split; [exact FC2|]. rewrite <- LC2. specialize (NC2 (K3 _ I)). destruct (pars ps2 (KBase bC)); [contradiction|cbn; lia].
        + rewrite P2 by congruence. split; [exact N|]. split; [exact F|]. rewrite GB. unfold simp_count. destruct b; try contradiction; counts. }
    pose proof (AC bSE ltac:(discriminate)) as LSE.
    assert (GSE : cget bts' bSE = Z.min 1 (cget bts bSE)) by (rewrite GB; unfold simp_count; counts).
    destruct (dict_has pkey_eqb ps2 (KBase bSE) && Nat.ltb 1 (length (pars ps2 (KBase bSE)))) eqn:SE.
    - apply andb_prop in SE as [SE1 SE2]. apply has_key in SE1. apply Nat.ltb_lt in SE2. rewrite P2 in SE2 |- * by discriminate.
      destruct (key_pos ps bts bSE V (K2 _ SE1)) as (PS & _ & FS). destruct (se_lengthscales _ FS) as (ls & El & Fl & Ll). rewrite El. cbn [bind].
      destruct ls as [|l t]; [cbn in Ll; lia|]. inversion Fl as [|? ? Pl Pt]; subst. pose proof (se_pos t l Pl Pt) as Pos.
      eexists. split; [reflexivity|]. set (q := [(pLengthscale, fold_left se_step t l)]). assert (Sq : stored bSE q).
      { split; [reflexivity|]. intros n w [[= <- <-]|[]] _. exact Pos. }
      assert (G3 : forall k, pars (dict_set pkey_eqb ps2 (KBase bSE) [q]) k = if pkey_eqb (KBase bSE) k then [q] else pars ps2 k) by (intros; apply pars_set).
      split; [|split].
      + split; [exact Wf'|]. split; [apply set_nodup, ND2|]. split; [exists v; rewrite G3; cbn [pkey_eqb]; rewrite P2 by discriminate; exact EP|]. split; [|split].
        * apply KS2.
          -- intros k I. apply set_keys in I as [->|I]; assumption.
          -- intros k D. rewrite G3. destruct (pkey_eqb (KBase bSE) k) eqn:E; [apply pkey_eqb_eq in E; subst; contradiction|reflexivity].
          -- intros _. rewrite G3, pkey_eqb_same. split; [discriminate|constructor; [exact Sq|constructor]].
        * intros H. rewrite GB in H. pose proof (NN bWN). unfold simp_count in H. counts.
        * intros _ b D. rewrite G3. destruct (pkey_eqb (KBase bSE) (KBase b)) eqn:E.
          -- apply pkey_eqb_eq in E. injection E as <-. rewrite GSE. cbn [length]. lia.
          -- assert (DS : b <> bSE) by (intros ->; discriminate E). destruct (base_eq_dec b bC) as [->|DC]; [exact LC2|]. rewrite P2 by congruence. rewrite AC by exact D. rewrite GB. unfold simp_count. destruct b; try contradiction; counts.
      + intros b. rewrite G3. destruct (pkey_eqb (KBase bSE) (KBase b)) eqn:E; [apply pkey_eqb_eq in E; injection E as <-; cbn [length]; lia|].
        destruct (base_eq_dec b bC) as [->|DC]; [|rewrite P2 by congruence; lia]. pose proof (AC bC ltac:(discriminate)). assert (H' : (cget bts' bC <= cget bts bC)%Z) by (rewrite GB; pose proof (simp_count_nonneg (cget bts) NN bC); lia). lia.
      + intros L. lia.
    - exists ps2. split; [reflexivity|].
      assert (LS : (length (pars ps (KBase bSE)) <= 1)%nat).
      { destruct (in_dec pkey_eq_dec (KBase bSE) (map fst ps2)) as [I|I].
        - apply has_key in I. rewrite I in SE. rewrite andb_true_l in SE. apply Nat.ltb_ge in SE. rewrite P2 in SE by discriminate. exact SE.
        - rewrite <- (P2 (KBase bSE)) by discriminate. rewrite pars_absent by exact I. cbn. lia. }
      split; [|split].
      + split; [exact Wf'|]. split; [exact ND2|]. split; [exists v; rewrite P2 by discriminate; exact EP|]. split; [|split].
        * apply KS2; [auto|reflexivity|]. intros I. rewrite P2 by discriminate. apply (key_pos ps bts bSE V (K2 _ I)).
        * intros H. rewrite GB in H. pose proof (NN bWN). unfold simp_count in H. counts.
        * intros _ b D. destruct (base_eq_dec b bC) as [->|DC]; [exact LC2|]. rewrite P2 by congruence. rewrite AC by exact D. rewrite GB. unfold simp_count. pose proof (NN bWN). destruct b; try contradiction; counts.
      + intros b. destruct (base_eq_dec b bC) as [->|DC]; [|rewrite P2 by congruence; lia]. pose proof (AC bC ltac:(discriminate)). pose proof (simp_count_nonneg (cget bts) NN bC). rewrite <- GB in *. lia.
      + intros _. exact C2.
  Qed.

  Lemma simp_ok bts ps : inv bts ps ->
    exists ps', simplify_base_terms_params (simp_base_prod bts 0) ps = Ok ps' /\ inv (simp_base_prod bts 0) ps'
      /\ (forall b, length (pars ps' (KBase b)) <= length (pars ps (KBase b)))%nat
      /\ ((cget bts bWN <= 0 \/ cget bts bLIN <= 0)%Z -> (length (pars ps (KBase bSE)) <= 1)%nat -> forall x i j, product_cov ps' x i j = product_cov ps x i j).
  Proof.
    intros V. destruct (Z.ltb_spec 0 (cget bts bWN)) as [W|W].
    - destruct (simp_white bts ps V W) as (ps' & E & V' & L & C). exists ps'. split; [exact E|]. split; [exact V'|]. split; [exact L|]. intros [H|H] _; [lia|auto].
    - destruct (simp_plain bts ps V W) as (ps' & E & V' & L & C). exists ps'. split; [exact E|]. split; [exact V'|]. split; [exact L|]. intros _. exact C.
  Qed.
End Simp.

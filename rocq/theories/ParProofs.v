(** What the sum of products of a fitted expression is, what its covariance function is and when its description succeeds (C32-C34). *)
From Coq Require Import Ascii String Reals Lra List Bool Arith ZArith Lia Permutation.
From Verif Require Import Py KexModel KexSpec KexProofs KexSimp KexMore KernModel KernSpec SemModel SemSpec SemProofs SemSimp SemKernel IvModel IvSpec IvProofs IvOk IvText ParModel ParSpec ParMatch ParMatch2 ParCov ParInv ParInv2 ParInv3 ParComp ParSop ParSop2 ParSop3 IvLines.
Import ListNotations.
Local Open Scope list_scope.
Notation length := Datatypes.length.

Section Final.
  Context (offset fixed : bool).
  Lemma fit_facts e k p : fit_of offset fixed e k p -> erase p = e /\ assigned p k /\ kvals offset fixed k /\ valid offset fixed p /\ (full p = true <-> base_term_everywhere e).
  Proof.
    intros (g & N & NE & E & F & Ep). destruct (matched_root offset fixed e g k N NE E F) as (p' & Ep' & Er & A). rewrite Ep in Ep'. injection Ep' as <-.
    pose proof (fitted_kvals offset fixed g k (to_kernel_actual e g E) F) as V. split; [exact Er|]. split; [exact A|]. split; [exact V|]. rewrite <- Er in N. destruct (assigned_valid offset fixed p k A V N) as [H1 H2]. rewrite Er in H2. split; assumption.
  Qed.
  Lemma sop_success e k p : fit_of offset fixed e k p -> base_term_everywhere e -> sop_ok offset fixed p.
  Proof. intros F B. destruct (fit_facts e k p F) as (_ & _ & _ & V & Fu). apply (proj1 (sop_all offset fixed p V)), Fu, B. Qed.
  Lemma sop_failure e k p : fit_of offset fixed e k p -> ~ base_term_everywhere e -> sum_of_prods_form offset p = Raise EAssertionError.
  Proof. intros F B. destruct (fit_facts e k p F) as (_ & _ & _ & V & Fu). apply (proj2 (sop_all offset fixed p V)). destruct (full p); [exfalso; apply B, Fu; reflexivity|reflexivity]. Qed.
  Lemma sop_inv e k p s : fit_of offset fixed e k p -> sum_of_prods_form offset p = Ok s -> base_term_everywhere e /\ exists cts ms, s = PComm KSum [] [] cts /\ Permutation ms (monos p) /\ Forall2 (comp offset fixed) ms cts.
  Proof.
    intros F E. destruct (fit_facts e k p F) as (_ & _ & _ & V & Fu). destruct (sop_all offset fixed p V) as [Hy Hn]. destruct (full p); [|rewrite (Hn eq_refl) in E; discriminate E].
    split; [apply Fu; reflexivity|]. destruct (Hy eq_refl) as (cts & ms & E' & P & C). rewrite E in E'. injection E' as ->. exists cts, ms. split; [reflexivity|]. split; assumption.
  Qed.

  (** ** The components and the terms of the distributed expression *)
  Lemma times_count b m : times b m = count_occ base_eq_dec m b.
  Proof.
    unfold times. induction m as [|x m IH]; [reflexivity|]. cbn [filter count_occ]. destruct (base_eq_dec x b) as [->|D]; [rewrite base_eqb_refl; cbn [length]; now rewrite IH|].
    destruct (base_eqb b x) eqn:E; [apply base_eqb_spec in E; congruence|exact IH].
  Qed.
  Lemma times_occ b m : times b (factors m) = occ m b.
  Proof. now rewrite times_count, occ_factors. Qed.
  Lemma occ_in m b : In b (factors m) <-> occ m b <> 0%nat.
  Proof. rewrite occ_factors, (count_occ_In base_eq_dec). lia. Qed.
  Lemma prod_mkl m : exists bts, mkl offset KProd m [] = Comm KProd bts [] /\ forall b, cget bts b = simp_count (fun b => Z.of_nat (count_occ base_eq_dec m b)) b.
  Proof.
    assert (W : wf_counter (counter_of m)) by (apply counter_of_wf).
    assert (C : forall b, cget (counter_of m) b = Z.of_nat (count_occ base_eq_dec m b)) by (intros b; apply cget_counter_of).
    unfold mkl, mk. cbn [simplify map]. unfold simp_node, absorb_homogeneous, absorb_singletons. cbn [filter fold_left fst snd map kexs_of bases_of concat length].
    change (cupdate_list (counter_of m) []) with (counter_of m).
    pose proof (simp_base_card offset KProd (counter_of m) 0 (wf_nodup _ W) (wf_nn _ W)) as K. pose proof (simp_base_wf offset KProd (counter_of m) 0 (wf_nodup _ W)) as W'.
    rewrite (simp_base_fix offset KProd (simp_base offset KProd (counter_of m) 0) 0 W' K). eexists. split; [reflexivity|]. intros b. cbn [simp_base]. rewrite simp_prod_count by exact W. apply simp_count_same, C.
  Qed.
  Lemma comp_component m ct : comp offset fixed m ct -> component_of offset (factors m) ct.
  Proof.
    intros (bts & ps & -> & (V & B1 & B2 & CT & _) & C & _). exists bts, ps. split; [reflexivity|]. split; [intros b; rewrite times_occ; apply B1|]. intros N.
    assert (NL : nowl m). { unfold nowl. destruct (occ m bWN) eqn:E1; [left; reflexivity|right]. destruct (occ m bLIN) eqn:E2; [reflexivity|exfalso]. apply N. rewrite !occ_in, E1, E2. split; discriminate. }
    destruct (prod_mkl (factors m)) as (bts' & -> & H). cbn [erase map]. apply keq_spec. apply reord_comm with (c2' := []); [|constructor|constructor]. intros b. rewrite (CT NL), H. apply simp_count_same. intros x. unfold zocc. now rewrite occ_factors.
  Qed.
  Lemma component_perm m m' ct : Permutation m m' -> component_of offset m ct -> component_of offset m' ct.
  Proof.
    intros P (bts & ps & -> & B & H). assert (T : forall b, times b m = times b m') by (intros b; rewrite !times_count; apply Permutation_count_occ, P).
    exists bts, ps. split; [reflexivity|]. split; [intros b; rewrite <- T; apply B|]. intros N.
    assert (E : keq (mkl offset KProd m []) (mkl offset KProd m' []) = true).
    { destruct (prod_mkl m) as (b1 & -> & H1). destruct (prod_mkl m') as (b2 & -> & H2). apply keq_spec. apply reord_comm with (c2' := []); [|constructor|constructor]. intros b. rewrite H1, H2. apply simp_count_same. intros x. rewrite <- !times_count. now rewrite T. }
    apply keq_trans with (2 := E). apply H. intros [I1 I2]. apply N. split; eapply Permutation_in; eassumption.
  Qed.
  Lemma choices_length {A} (ls : list (list (list A))) : length (choices ls) = fold_right Nat.mul 1%nat (map (@length _) ls).
  Proof.
    induction ls as [|l ls IH]; [reflexivity|]. unfold choices in *. cbn [fold_right map]. rewrite <- IH. set (A0 := fold_right _ [[]] ls). clearbody A0. clear. induction l as [|m l IH]; [reflexivity|]. cbn [map concat]. rewrite app_length, map_length, IH. cbn [length]. lia.
  Qed.
  Lemma concat_length_sum {A} (ls : list (list A)) : length (concat ls) = fold_right Nat.add 0%nat (map (@length _) ls).
  Proof. induction ls as [|l ls IH]; [reflexivity|]. cbn. rewrite app_length, IH. reflexivity. Qed.
  Lemma expansion_length e : length (expansion e) = number_of_terms e.
  Proof.
    induction e as [k bts cts IH|c l r IHl IHr] using kex_ind'.
    - assert (E : map (@length _) (map expansion cts) = map number_of_terms cts) by (rewrite map_map; apply map_ext_in, IH).
      destruct k; cbn [expansion number_of_terms].
      + rewrite app_length, map_length, concat_length_sum, E. reflexivity.
      + rewrite map_length, choices_length, E. reflexivity.
    - cbn [expansion number_of_terms]. rewrite app_length, !map_length. f_equal; [destruct l as [b|x]; [reflexivity|apply IHl; reflexivity]|destruct r as [b|x]; [reflexivity|apply IHr; reflexivity]].
  Qed.
  Lemma fit_wf e k p : fit_of offset fixed e k p -> wf e.
  Proof. intros (g & N & _) kd bts cts Hn. apply (N _ Hn). Qed.
  Theorem sum_of_products_shape e k p s : fit_of offset fixed e k p -> sum_of_prods_form offset p = Ok s ->
    exists cts terms, sum_of_products s cts /\ Permutation terms (expansion e) /\ Forall2 (component_of offset) terms cts /\ length cts = number_of_terms e.
  Proof.
    intros F E. destruct (sop_inv e k p s F E) as (_ & cts & ms & -> & P & C). destruct (fit_facts e k p F) as (Er & A & _ & _ & _).
    pose proof (fit_wf e k p F) as W. rewrite <- Er in W. destruct (monos_factors p k A W) as (L & PL & FL). rewrite Er in PL.
    destruct (Permutation_Forall2 (Permutation_map factors (Permutation_sym P)) FL) as (L' & PL' & FL').
    exists cts, L'. split; [|split; [|split]].
    - split; [reflexivity|]. clear -C. induction C as [|m ct ms cts (bts & ps & -> & _) C IH]; constructor; [now exists bts, ps|exact IH].
    - etransitivity; [symmetry; exact PL'|exact PL].
    - clear -C FL'. revert L' FL'. induction C as [|m ct ms cts H C IH]; intros L' FL'; inversion FL' as [|? m' ? L'' Pm FL'']; subst; constructor; [|apply IH, FL'']. eapply component_perm; [exact Pm|apply comp_component, H].
    - rewrite <- expansion_length, <- (Permutation_length PL), <- (Forall2_len _ _ _ FL), map_length, <- (Permutation_length P). symmetry. eapply Forall2_len, C.
  Qed.

  (** ** Covariance *)
  Lemma well_mixed_good e k p : fit_of offset fixed e k p -> well_mixed e -> forall m, In m (monos p) -> good m.
  Proof.
    intros F H m I. destruct (fit_facts e k p F) as (Er & A & _ & _ & _). pose proof (fit_wf e k p F) as W. rewrite <- Er in W. destruct (monos_factors p k A W) as (L & PL & FL). rewrite Er in PL.
    assert (X : exists m', In m' L /\ Permutation (factors m) m'). { clear -FL I. revert L FL. induction (monos p) as [|n l IH]; intros L FL; [destruct I|]. inversion FL as [|? n' ? L' Pn FL']; subst. destruct I as [->|I]; [exists n'; split; [left; reflexivity|exact Pn]|]. destruct (IH I L' FL') as (m' & J & Q). exists m'. split; [right; exact J|exact Q]. }
    destruct X as (m' & Im & Pm). destruct (H m') as [N1 N2]; [eapply Permutation_in; [exact PL|exact Im]|]. split.
    - unfold nowl. destruct (occ m bWN) eqn:E1; [left; reflexivity|right]. destruct (occ m bLIN) eqn:E2; [reflexivity|exfalso]. apply N1. split; eapply Permutation_in; [exact Pm| |exact Pm|]; apply occ_in; [rewrite E1|rewrite E2]; discriminate.
    - rewrite <- times_occ. rewrite times_count in N2. rewrite times_count. rewrite (proj1 (Permutation_count_occ base_eq_dec _ _) Pm). exact N2.
  Qed.
  Theorem sum_of_products_cov e k p s cts : fit_of offset fixed e k p -> well_mixed e -> sum_of_prods_form offset p = Ok s -> sum_of_products s cts ->
    forall x i j, terms_cov cts x i j = kernel_cov k x i j.
  Proof.
    intros F H E [-> _] x i j. destruct (sop_inv e k p _ F E) as (_ & cts' & ms & Es & P & C). injection Es as <-. destruct (fit_facts e k p F) as (_ & A & V & _ & _). rewrite (monos_kernel offset fixed p k A V).
    transitivity (monos_cov ms x i j); [|unfold monos_cov; apply rsums_perm, Permutation_map, P]. unfold terms_cov, monos_cov. f_equal.
    assert (G : forall m, In m ms -> good m) by (intros m I; apply (well_mixed_good e k p F H); eapply Permutation_in; eassumption).
    clear -C G. induction C as [|m ct ms cts (bts & ps & -> & (_ & _ & _ & _ & CV & _) & _) C IH]; [reflexivity|]. cbn [map parameters_of]. f_equal; [apply CV, G; left; reflexivity|]. apply IH. intros m' I. apply G. right. exact I.
  Qed.

  (** ** Descriptions *)
  Lemma pget_value (q : pdict) n : In n (map fst q) -> exists v, pget q n = Ok v.
  Proof. intros I. unfold pget. destruct (dict_get pname_eqb q n) as [v|] eqn:G; [exists v; reflexivity|exfalso]. induction q as [|[a w] q IH]; [destruct I|]. cbn in G. destruct (pname_eqb a n) eqn:E; [discriminate G|]. destruct I as [I|I]; [cbn in I; subst; assert (D : pname_eqb n n = true) by (now apply pname_eqb_spec); congruence|now apply IH]. Qed.
  Lemma pget_in (q : pdict) n v : pget q n = Ok v -> In (n, v) q.
  Proof. unfold pget. induction q as [|[a w] q IH]; cbn; [discriminate|]. destruct (pname_eqb a n) eqn:E; [apply pname_eqb_spec in E; subst; intros [= ->]; left; reflexivity|]. intros H. right. apply IH, H. Qed.
  Lemma comp_facts m ct : comp offset fixed m ct -> exists bts ps, ct = PComm KProd bts ps [] /\ cardinality offset KProd bts 0 /\ component bts ps /\ complete_params offset ps /\ fitted_sigmoids fixed ps
    /\ forall b l, In (KBase b, l) ps -> In b (factors m).
  Proof.
    intros (bts & ps & -> & (V & _ & B2 & _ & _) & C & b0 & S0 & P0). exists bts, ps. split; [reflexivity|]. split; [exact C|]. destruct V as (W & ND & (v & Ev) & KS & HW & AC).
    assert (KS' : forall k l, In (k, l) ps -> k = KProduct \/ exists b, k = KBase b /\ l <> [] /\ Forall (stored offset fixed b) l /\ (0 < cget bts b)%Z).
    { intros k l I. pose proof (pars_in k l ps ND I) as E. destruct (KS k) as [->|(b & -> & H1 & H2 & H3)]; [apply in_map_iff; now exists (k, l)|left; reflexivity|right]. exists b. rewrite E in H1, H2. auto. }
    assert (KP : forall l, In (KProduct, l) ps -> l = [[(pVariance, v)]]) by (intros l I; rewrite <- (pars_in KProduct l ps ND I); exact Ev).
    split; [|split; [|split]].
    - split; [exact ND|]. split.
      + intros k l I. destruct (KS' k l I) as [->|(b & -> & H1 & _ & H3)]; [rewrite (KP l I); split; [discriminate|left; reflexivity]|]. split; [exact H1|]. right. exists b. auto.
      + assert (X : exists b, is_sigmoid b = false /\ In (KBase b) (map fst ps)).
        { destruct (Z_lt_dec 0 (cget bts bWN)) as [Hw|Hw]; [exists bWN; split; [reflexivity|apply HW, Hw]|]. exists b0. split; [exact S0|]. apply pars_key. assert (D : b0 <> bWN) by (intros ->; contradiction).
          specialize (AC ltac:(left; lia) b0 D). destruct (pars ps (KBase b0)); [cbn in AC; lia|discriminate]. }
        destruct X as (b & Sb & I). exists b, (pars ps (KBase b)). split; [apply key_in, I|exact Sb].
    - split.
      + intros b l I. destruct (KS' _ _ I) as [D|(b' & D & _ & H2 & _)]; [discriminate D|]. injection D as <-. apply Forall_forall. intros q J. rewrite Forall_forall in H2. specialize (H2 q J). unfold stored in H2.
        destruct b; cbn [factor_params is_sigmoid] in *; try exact I0; try (exact Logic.I); destruct H2 as [Hn _]; cbn in Hn.
        * intros ->. apply pget_value. rewrite Hn. left. reflexivity.
        * apply pget_value. rewrite Hn. left. reflexivity.
        * destruct (pget_value q pPeriod) as (v1 & E1); [rewrite Hn; left; reflexivity|]. destruct (pget_value q pLengthscale) as (v2 & E2); [rewrite Hn; right; left; reflexivity|]. exists v1, v2. auto.
      + exists [(pVariance, v)], [], v. split; [|reflexivity]. assert (I : In (KProduct, pars ps KProduct) ps) by (apply key_in, pars_key; rewrite Ev; discriminate). rewrite Ev in I. exact I.
    - split; [exact ND|]. intros b l I Sb. destruct (KS' _ _ I) as [D|(b' & D & H1 & H2 & _)]; [discriminate D|]. injection D as <-. split; [exact H1|]. apply Forall_forall. intros q J. rewrite Forall_forall in H2. specialize (H2 q J). unfold stored in H2. rewrite Sb in H2.
      destruct H2 as (c & left & -> & Hn & Hp). split; [|split].
      + apply pget_value. rewrite Hn. destruct c; cbn; destruct fixed; cbn; auto.
      + intros D. assert (c = CW) as -> by (destruct c, left; cbn in D; destruct D as [D|D]; try discriminate D; reflexivity). destruct (pget_value q pWidth) as (w & Ew); [rewrite Hn; cbn; destruct fixed; cbn; auto|]. exists w. split; [|exact Ew]. apply (Hp pWidth w); [apply pget_in, Ew|discriminate].
      + intros ->. apply pget_value. rewrite Hn. destruct c; cbn; auto 6.
    - intros b l I. apply occ_in. specialize (B2 b). rewrite (pars_in _ _ ps ND I) in B2. destruct (KS' _ _ I) as [D|(b' & D & H1 & _)]; [discriminate D|]. destruct l; [contradiction|]. cbn [length] in B2. lia.
  Qed.
  Lemma describe_all fmt cts : Forall (fun ct => exists t, base_factors_interpretation fixed offset fmt (parameters_of ct) = Ok t) cts -> exists t, get_interpretation offset fixed fmt (PComm KSum [] [] cts) = Ok t.
  Proof.
    intros F. unfold get_interpretation. change (csum [] =? 0)%Z with true. cbv iota.
    assert (G : exists ts, mapM (fun ct => do t <- base_factors_interpretation fixed offset fmt (parameters_of ct); Ok (String "010"%char (String "009"%char "") ++ t)%string) cts = Ok ts).
    { induction F as [|ct cts (t & E) F (ts & IH)]; [exists []; reflexivity|]. cbn [mapM]. rewrite E. cbn [bind]. rewrite IH. cbn [bind]. eexists. reflexivity. }
    destruct G as (ts & ->). cbn [bind]. eexists. reflexivity.
  Qed.
  Theorem interpretation_succeeds fmt e k p : fit_of offset fixed e k p -> base_term_everywhere e ->
    exists s cts, sum_of_prods_form offset p = Ok s /\ sum_of_products s cts /\ ((forall ct, In ct cts -> describable (parameters_of ct)) -> exists t, get_interpretation offset fixed fmt s = Ok t).
  Proof.
    intros F B. destruct (sop_success e k p F B) as (cts & ms & E & P & C). exists (PComm KSum [] [] cts), cts. split; [exact E|]. split.
    - split; [reflexivity|]. clear -C. induction C as [|m ct ms cts (bts & ps & -> & _) C IH]; constructor; [now exists bts, ps|exact IH].
    - intros H. apply describe_all. clear -C H. induction C as [|m ct ms cts Hc C IH]; constructor; [|apply IH; intros c I; apply H; right; exact I].
      destruct (comp_facts m ct Hc) as (bts & ps & -> & HC & Hcomp & Hpar & Hsig & _). cbn [parameters_of]. specialize (H _ (or_introl eq_refl)). cbn [parameters_of] in H.
      assert (G : exists o, sigmoids_to_intervals fixed ps = Ok o /\ forall l, o = Some l -> Forall proper_interval l) by (destruct H as [H|(H1 & H2 & H3)]; [apply intervals_no_windows; assumption|apply intervals_succeed; assumption]).
      destruct G as (o & Eo & Ho). eapply description_ok; eassumption.
  Qed.
  Lemma choices_in (ls : list (list (list base))) : forall m b, In m (choices ls) -> In b m -> exists l n, In l ls /\ In n l /\ In b n.
  Proof.
    induction ls as [|l ls IH]; intros m b I J; [destruct I as [<-|[]]; destruct J|]. unfold choices in *. cbn [fold_right] in I. apply in_concat in I as (x & I & K). apply in_map_iff in I as (n & <- & In1). apply in_map_iff in K as (m' & <- & Im').
    apply in_app_or in J as [J|J]; [exists l, n; split; [left; reflexivity|split; assumption]|]. destruct (IH m' b Im' J) as (l' & n' & A & B & C). exists l', n'. split; [right; exact A|split; assumption].
  Qed.
  Lemma actual_names L bs : mapM base_str_to_ker L = Ok bs -> forall b, In b L -> is_sigmoid b = false.
  Proof.
    revert bs. induction L as [|a L IH]; intros bs E b I; [destruct I|]. cbn in E. unfold base_str_to_ker at 1 in E. destruct (is_sigmoid a) eqn:S; [discriminate E|]. cbn [bind] in E. destruct (mapM base_str_to_ker L) as [ys|]; [|discriminate E]. destruct I as [<-|I]; [exact S|apply (IH ys eq_refl b I)].
  Qed.
  Lemma windowless_expansion e : (exists g, to_kernel e = Ok g) -> windowless e -> forall m b, In m (expansion e) -> In b m -> b <> bSI /\ b <> bSIr.
  Proof.
    assert (NS : forall b, is_sigmoid b = false -> b <> bSI /\ b <> bSIr) by (intros b S; split; intros ->; discriminate S).
    induction e as [kd bts cts IH|c l r IHl IHr] using kex_ind'; intros (g & E) W m b I J.
    - rewrite to_kernel_comm in E. destruct (mapM base_str_to_ker _) as [bs|] eqn:Eb; [|discriminate E]. cbn [bind] in E. pose proof (actual_names _ _ Eb) as AN.
      assert (BN : forall x, In x (celements bts) -> x <> bSI /\ x <> bSIr) by (intros x Ix; apply NS, AN; eapply Permutation_in; [symmetry; apply order_perm|exact Ix]).
      destruct (seqM (map to_kernel cts)) as [gs|] eqn:Es; [|discriminate E]. apply seqM_inv in Es.
      assert (G : forall c, In c cts -> forall m b, In m (expansion c) -> In b m -> b <> bSI /\ b <> bSIr).
      { intros c Ic. apply (IH c Ic); [|intros l r Hn; apply (W l r); eapply node_comm; eassumption]. clear -Es Ic. induction Es as [|a g cts gs H F IHF]; [destruct Ic|]. destruct Ic as [<-|Ic]; [exists g; exact H|apply IHF, Ic]. }
      destruct kd; cbn [expansion] in I.
      + apply in_app_or in I as [I|I]; [apply in_map_iff in I as (x & <- & I); destruct J as [<-|[]]; apply BN, I|]. apply in_concat in I as (t & I & K). apply in_map_iff in I as (c & <- & Ic). apply (G c Ic m b K J).
      + apply in_map_iff in I as (n & <- & I). apply in_app_or in J as [J|J]; [apply BN, J|]. destruct (choices_in _ n b I J) as (t & n' & A & B & C). apply in_map_iff in A as (c & <- & Ic). apply (G c Ic n' b B C).
    - destruct c; [|exfalso; apply (W l r); constructor]. cbn [to_kernel] in E.
      destruct (match l with inl b => base_str_to_ker b | inr x => to_kernel x end) as [gl|] eqn:El; [|discriminate E]. cbn [bind] in E.
      destruct (match r with inl b => base_str_to_ker b | inr x => to_kernel x end) as [gr|] eqn:Er; [|discriminate E].
      assert (B : forall x gx, base_str_to_ker x = Ok gx -> is_sigmoid x = false) by (intros x gx Ex; unfold base_str_to_ker in Ex; destruct (is_sigmoid x); [discriminate Ex|reflexivity]).
      cbn [expansion] in I. apply in_app_or in I as [I|I]; apply in_map_iff in I as (n & <- & I); (apply in_app_or in J as [J|[<-|[]]]; [|split; discriminate]).
      + destruct l as [x|x]; [destruct I as [<-|[]]; destruct J as [<-|[]]; apply NS; eapply B, El|]. apply (IHl x eq_refl (ex_intro _ gl El)) with (m := n); [intros l' r' Hn; apply (W l' r'), node_left, Hn|exact I|exact J].
      + destruct r as [x|x]; [destruct I as [<-|[]]; destruct J as [<-|[]]; apply NS; eapply B, Er|]. apply (IHr x eq_refl (ex_intro _ gr Er)) with (m := n); [intros l' r' Hn; apply (W l' r'), node_right, Hn|exact I|exact J].
  Qed.
  Theorem windowless_interpretation fmt e k p : fit_of offset fixed e k p -> base_term_everywhere e -> windowless e ->
    exists s t, sum_of_prods_form offset p = Ok s /\ get_interpretation offset fixed fmt s = Ok t.
  Proof.
    intros F B W. destruct (sop_success e k p F B) as (cts & ms & E & P & C). exists (PComm KSum [] [] cts).
    destruct (fit_facts e k p F) as (Er & A & _ & _ & _). pose proof (fit_wf e k p F) as Wf. rewrite <- Er in Wf. destruct (monos_factors p k A Wf) as (L & PL & FL). rewrite Er in PL.
    assert (NW : forall m, In m (monos p) -> forall b, In b (factors m) -> b <> bSI /\ b <> bSIr).
    { intros m I b J. assert (X : exists m', In m' L /\ Permutation (factors m) m'). { clear -FL I. revert L FL. induction (monos p) as [|n l IH]; intros L FL; [destruct I|]. inversion FL as [|? n' ? L' Pn FL']; subst. destruct I as [->|I]; [exists n'; split; [left; reflexivity|exact Pn]|]. destruct (IH I L' FL') as (m' & J & Q). exists m'. split; [right; exact J|exact Q]. }
      destruct X as (m' & Im & Pm). destruct F as (g & _ & _ & Eg & _). apply (windowless_expansion e (ex_intro _ g Eg) W m'); [eapply Permutation_in; eassumption|eapply Permutation_in; eassumption]. }
    assert (NW' : forall m, In m ms -> forall b, In b (factors m) -> b <> bSI /\ b <> bSIr) by (intros m I; apply NW; eapply Permutation_in; eassumption).
    destruct (describe_all fmt cts) as (t & Et).
    - clear -C NW'. induction C as [|m ct ms cts Hc C IH]; constructor; [|apply IH; intros m' I; apply NW'; right; exact I].
      destruct (comp_facts m ct Hc) as (bts & ps & -> & HC & Hcomp & Hpar & Hsig & Hin). cbn [parameters_of].
      destruct (intervals_no_windows fixed ps Hsig) as (o & Eo & Ho); [intros b l I; apply (NW' m (or_introl eq_refl) b), (Hin b l I)|]. eapply description_ok; eassumption.
    - exists t. split; assumption.
  Qed.
End Final.

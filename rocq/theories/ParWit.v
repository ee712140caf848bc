(** Witnesses for C31-C34. *)
From Coq Require Import Ascii String Reals Lra List Bool Arith ZArith Lia Permutation.
From Verif Require Import Py KexModel KexSpec KexProofs KexSimp KexCheck OpsModel KernModel KernSpec SemModel SemSpec IvModel IvSpec IvProofs IvOk IvText IvWit ParModel ParSpec ParMatch2 ParSop ParProofs.
Import ListNotations.
Local Open Scope list_scope.
Local Open Scope R_scope.

(** * Every kernel object can be fitted *)
Definition ones (l : list pname) : pdict := map (fun n => (n, 1)) l.
Lemma ones_names l : map fst (ones l) = l.
Proof. unfold ones. rewrite map_map. apply map_id. Qed.
Lemma ones_pos l n v : In (n, v) (ones l) -> 0 < v.
Proof. intros I. apply in_map_iff in I as (m & E & _). injection E as _ <-. lra. Qed.
Lemma fitted_exists offset fixed g : exists k, fitted offset fixed g k.
Proof.
  induction g as [b f|g1 (k1 & F1) g2 (k2 & F2)|g1 (k1 & F1) g2 (k2 & F2)|c g1 (k1 & F1) g2 (k2 & F2)].
  - exists (VBase b (ones (filter (fun n => f || negb (is_variance n)) (base_params offset b)))). constructor. split; [apply ones_names|]. intros n v I _. eapply ones_pos, I.
  - exists (vadd k1 k2). now constructor.
  - exists (vmul k1 k2). now constructor.
  - exists (VChange c k1 k2 (ones (change_params fixed c))). constructor; [exact F1|exact F2|]. split; [apply ones_names|]. intros n v I _. eapply ones_pos, I.
Qed.
Lemma fit_exists offset fixed e : normalb offset e = true -> okb e = true -> (exists g, to_kernel e = Ok g) -> exists k p, fit_of offset fixed e k p.
Proof.
  intros N O (g & E). apply normalb_sound in N. apply okb_sound in O as (_ & NE & _). destruct (fitted_exists offset fixed g) as (k & F).
  destruct (matched_root offset fixed e g k N NE E F) as (p & Ep & _). exists k, p, g. repeat split; try assumption; apply N.
Qed.

(** * Membership in a computed list *)
Ltac member := vm_compute; repeat first [left; reflexivity | right].
(** One round of the default search: an expression of the expansion of a default start kernel. *)
Definition rules0 : list rule := rules_default true [bWN; bC; bLIN; bPER] [bWN; bLIN; bPER].
Definition starts0 : list kex := match start_default true ["WN"; "C"; "LIN"; "PER"]%string with Ok l => l | Raise _ => [] end.
Lemma starts0_ok : start_default true ["WN"; "C"; "LIN"; "PER"]%string = Ok starts0.
Proof. reflexivity. Qed.
Definition one_round (e : kex) : Prop := exists k0, In k0 starts0 /\ In e (expand true rules0 k0).

(** * A product of WN and LIN loses the parameters of LIN (C33) *)
Section WnLin.
  Definition wn_lin : kex := Comm KProd [(bLIN, 1%Z)] [Comm KSum [(bWN, 1%Z); (bC, 1%Z)] []].
  Lemma wn_lin_reached : one_round wn_lin.
  Proof. exists (Comm KSum [(bLIN, 1%Z)] []). split; member. Qed.
  Context (v o u w : R).
  Definition wn_lin_fit : vkern := VMul [VBase bLIN [(pVariance, v); (pOffset, o)]; VAdd [VBase bC [(pVariance, u)]; VBase bWN [(pVariance, w)]]].
  Definition wn_lin_pars : pkex :=
    Eval vm_compute in match fit_ker_to_kex_with_params true true wn_lin_fit wn_lin with Ok p => p | Raise _ => PComm KSum [] [] [] end.
  Definition wn_lin_terms : list pkex := Eval vm_compute in match sum_of_prods_form true wn_lin_pars with Ok (PComm _ _ _ cts) => cts | _ => [] end.
  Lemma wn_lin_fits : 0 < v -> 0 < u -> 0 < w -> fit_of true true wn_lin wn_lin_fit wn_lin_pars.
  Proof.
    intros Hv Hu Hw. exists (GMul (GBase bLIN true) (GAdd (GBase bC true) (GBase bWN true))).
    split; [apply normalb_sound; reflexivity|]. split; [apply okb_sound; reflexivity|]. split; [reflexivity|]. split; [|vm_compute; reflexivity].
    apply (fit_mul true true (GBase bLIN true) (GAdd (GBase bC true) (GBase bWN true)) (VBase bLIN [(pVariance, v); (pOffset, o)]) (VAdd [VBase bC [(pVariance, u)]; VBase bWN [(pVariance, w)]])).
    - constructor. split; [reflexivity|]. intros n x [E|[E|[]]] D; injection E as <- <-; [assumption|congruence].
    - apply (fit_add true true (GBase bC true) (GBase bWN true) (VBase bC [(pVariance, u)]) (VBase bWN [(pVariance, w)])); constructor; (split; [reflexivity|]); intros n x [E|[]] D; injection E as <- <-; assumption.
  Qed.
  Lemma wn_lin_form : sum_of_prods_form true wn_lin_pars = Ok (PComm KSum [] [] wn_lin_terms).
  Proof. vm_compute. reflexivity. Qed.
  Lemma wn_lin_cov : kernel_cov wn_lin_fit (fun _ => o + 2) 0%nat 0%nat = v * 4 * (u + w).
  Proof. cbn. ring. Qed.
  Lemma wn_lin_terms_cov : terms_cov wn_lin_terms (fun _ => o + 2) 0%nat 0%nat = v * 4 * u + v * w.
  Proof. cbn. ring. Qed.
End WnLin.
Lemma wn_lin_shape v o u w : Forall pure_product (wn_lin_terms v o u w).
Proof. repeat constructor; repeat eexists. Qed.

(** * The combined lengthscale of two SE factors (C33) *)
Section SeSe.
  Definition se_se : kex := Comm KProd [(bSE, 1%Z)] [Comm KSum [(bSE, 1%Z); (bC, 1%Z)] []].
  Context (a b c l m : R).
  Definition se_se_fit : vkern := VMul [VBase bSE [(pVariance, a); (pLengthscale, l)]; VAdd [VBase bSE [(pVariance, b); (pLengthscale, m)]; VBase bC [(pVariance, c)]]].
  Definition se_se_pars : pkex :=
    Eval vm_compute in match fit_ker_to_kex_with_params true true se_se_fit se_se with Ok p => p | Raise _ => PComm KSum [] [] [] end.
  Definition se_se_terms : list pkex := Eval cbv -[Rplus Rmult Rdiv sqrt pow IZR se_step] in match sum_of_prods_form true se_se_pars with Ok (PComm _ _ _ cts) => cts | _ => [] end.
  Lemma se_se_fits : 0 < a -> 0 < b -> 0 < c -> 0 < l -> 0 < m -> fit_of true true se_se se_se_fit se_se_pars.
  Proof.
    intros Ha Hb Hc Hl Hm. exists (GMul (GBase bSE true) (GAdd (GBase bSE true) (GBase bC true))).
    split; [apply normalb_sound; reflexivity|]. split; [apply okb_sound; reflexivity|]. split; [reflexivity|]. split; [|vm_compute; reflexivity].
    apply (fit_mul true true (GBase bSE true) (GAdd (GBase bSE true) (GBase bC true)) (VBase bSE [(pVariance, a); (pLengthscale, l)]) (VAdd [VBase bSE [(pVariance, b); (pLengthscale, m)]; VBase bC [(pVariance, c)]])).
    - constructor. split; [reflexivity|]. intros n x [E|[E|[]]] D; injection E as <- <-; assumption.
    - apply (fit_add true true (GBase bSE true) (GBase bC true) (VBase bSE [(pVariance, b); (pLengthscale, m)]) (VBase bC [(pVariance, c)])); constructor; (split; [reflexivity|]).
      + intros n x [E|[E|[]]] D; injection E as <- <-; assumption.
      + intros n x [E|[]] D; injection E as <- <-; assumption.
  Qed.
  Lemma se_se_form : sum_of_prods_form true se_se_pars = Ok (PComm KSum [] [] se_se_terms).
  Proof. cbv -[Rplus Rmult Rdiv sqrt pow IZR se_step]. reflexivity. Qed.
End SeSe.
Lemma se_se_shape a b c l m : Forall pure_product (se_se_terms a b c l m).
Proof. repeat constructor; repeat eexists. Qed.
Definition zero_one (i : nat) : R := match i with O => 0 | _ => 1 end.
Lemma se_se_cov : kernel_cov (se_se_fit 1 1 1 1 1) zero_one 0%nat 1%nat = exp (- (1 / 2)) * (exp (- (1 / 2)) + 1).
Proof. cbn. unfold value. cbn. replace (- ((0 - 1) * ((0 - 1) * 1)) / (2 * (1 * (1 * 1)))) with (- (1 / 2)) by field. ring. Qed.
Lemma se_step_one : se_step 1 1 ^ 2 = 2.
Proof.
  unfold se_step. replace (1 ^ 2 + 1 ^ 2) with 2 by ring. assert (Hs : sqrt 2 * sqrt 2 = 2) by (apply sqrt_sqrt; lra). assert (Hn : sqrt 2 <> 0) by (intros H; rewrite H in Hs; lra).
  replace (((1 + 1) / sqrt 2) ^ 2) with (4 / (sqrt 2 * sqrt 2)) by (field; exact Hn). rewrite Hs. field.
Qed.
Lemma se_se_terms_cov : terms_cov (se_se_terms 1 1 1 1 1) zero_one 0%nat 1%nat = exp (- (1 / 2)) + exp (- (1 / 4)).
Proof.
  unfold terms_cov, product_cov, se_se_terms. cbn -[se_step pow]. unfold value. cbn -[se_step pow]. rewrite se_step_one.
  replace (- (0 - 1) ^ 2 / (2 * 1 ^ 2)) with (- (1 / 2)) by field. replace (- (0 - 1) ^ 2 / (2 * 2)) with (- (1 / 4)) by field. ring.
Qed.
Lemma se_se_differ : kernel_cov (se_se_fit 1 1 1 1 1) zero_one 0%nat 1%nat < terms_cov (se_se_terms 1 1 1 1 1) zero_one 0%nat 1%nat.
Proof.
  rewrite se_se_cov, se_se_terms_cov. rewrite Rmult_plus_distr_l, Rmult_1_r, <- exp_plus. pose proof (exp_increasing (- (1 / 2) + - (1 / 2)) (- (1 / 4))). lra.
Qed.

(** * A node without base terms (C34) *)
Definition no_base_node : kex := Comm KProd [] [Comm KSum [(bPER, 1%Z); (bC, 1%Z)] []; Comm KSum [(bPER, 1%Z); (bC, 1%Z)] []].
Lemma no_base_reached : one_round no_base_node.
Proof. exists (Comm KSum [(bPER, 1%Z); (bC, 1%Z)] []). split; member. Qed.
Lemma no_base_not : ~ base_term_everywhere no_base_node.
Proof. intros H. destruct (H KProd [] _ (node_self _)) as (b & Hb). cbn in Hb. lia. Qed.
Lemma no_base_fit fixed : exists k p, fit_of true fixed no_base_node k p.
Proof. apply fit_exists; [reflexivity|reflexivity|]. eexists. reflexivity. Qed.

(** * Nested windows (C34) *)
Section Nested.
  Definition nested : kex := Change CW (inr (Change CW (inl bLIN) (inl bPER))) (inl bPER).
  Context (x y : R).
  Definition nested_fit : vkern :=
    VChange CW (VChange CW (VBase bLIN [(pVariance, 1); (pOffset, 0)]) (VBase bPER [(pVariance, 1); (pPeriod, 1); (pLengthscale, 1)]) [(pLocation, x); (pWidth, 1)])
      (VBase bPER [(pVariance, 1); (pPeriod, 1); (pLengthscale, 1)]) [(pLocation, y); (pWidth, 1)].
  Definition nested_pars : pkex :=
    Eval cbv -[IZR] in match fit_ker_to_kex_with_params true true nested_fit nested with Ok p => p | Raise _ => PComm KSum [] [] [] end.
  Definition nested_terms : list pkex := Eval cbv -[Rplus Rmult Rdiv sqrt pow IZR se_step] in match sum_of_prods_form true nested_pars with Ok (PComm _ _ _ cts) => cts | _ => [] end.
  Lemma nested_fits : fit_of true true nested nested_fit nested_pars.
  Proof.
    assert (P : base_values true bPER true [(pVariance, 1); (pPeriod, 1); (pLengthscale, 1)]) by (split; [reflexivity|]; intros n v [E|[E|[E|[]]]] D; injection E as <- <-; lra).
    assert (W : forall z, change_values true CW [(pLocation, z); (pWidth, 1)]) by (intros z; split; [reflexivity|]; intros n v [E|[E|[]]] D; injection E as <- <-; [congruence|lra]).
    exists (GChange CW (GChange CW (GBase bLIN true) (GBase bPER true)) (GBase bPER true)).
    split; [apply normalb_sound; reflexivity|]. split; [apply okb_sound; reflexivity|]. split; [reflexivity|]. split; [|cbv -[IZR]; reflexivity].
    constructor; [constructor; [constructor; split; [reflexivity|]; intros n v [E|[E|[]]] D; injection E as <- <-; [lra|congruence]|now constructor|apply W]|now constructor|apply W].
  Qed.
  Lemma nested_form : sum_of_prods_form true nested_pars = Ok (PComm KSum [] [] nested_terms).
  Proof. cbv -[Rplus Rmult Rdiv sqrt pow IZR se_step]. reflexivity. Qed.
End Nested.
Lemma nested_fail fmt : get_interpretation true true fmt (PComm KSum [] [] (nested_terms 5 0)) = Raise EKeyError.
Proof.
  unfold get_interpretation, nested_terms. cbn [csum map fold_right Z.eqb mapM parameters_of]. change (csum [] =? 0)%Z with true. cbv iota.
  match goal with |- context [base_factors_interpretation true true fmt ?d] => assert (E : base_factors_interpretation true true fmt d = Raise EKeyError) end.
  { unfold base_factors_interpretation. match goal with |- context [sigmoids_to_intervals true ?d] => assert (E : sigmoids_to_intervals true d = Raise EKeyError) by (unfold sigmoids_to_intervals; rl; reflexivity) end. rewrite E. reflexivity. }
  rewrite E. reflexivity.
Qed.
Lemma nested_base x y : base_term_everywhere nested /\ fit_of true true nested (nested_fit x y) (nested_pars x y).
Proof.
  split; [|apply nested_fits]. intros k bts cts H. inversion H as [| |? ? ? ? H1|? ? ? ? H1]; subst. inversion H1; subst.
Qed.

(** * Checking the conditions by computation *)
Fixpoint basesb (e : kex) : bool :=
  match e with
  | Comm _ bts cts => existsb (fun bn => (0 <? cget bts (fst bn))%Z) bts && forallb basesb cts
  | Change _ l r => (match l with inl _ => true | inr x => basesb x end) && (match r with inl _ => true | inr x => basesb x end)
  end.
Fixpoint windowlessb (e : kex) : bool :=
  match e with
  | Comm _ _ cts => forallb windowlessb cts
  | Change CW _ _ => false
  | Change CP l r => (match l with inl _ => true | inr x => windowlessb x end) && (match r with inl _ => true | inr x => windowlessb x end)
  end.
Lemma basesb_sound e : basesb e = true -> base_term_everywhere e.
Proof.
  intros H k bts cts N. revert H. remember (Comm k bts cts) as n. induction N as [e|n k' b' c' c I N IH|n c x r N IH|n c l x N IH]; subst; cbn [basesb]; intros H; apply andb_true_iff in H as [H1 H2].
  - apply existsb_exists in H1 as ((b & z) & _ & L). exists b. apply Z.ltb_lt, L.
  - apply (IH eq_refl). rewrite forallb_forall in H2. apply H2, I.
  - apply (IH eq_refl), H1.
  - apply (IH eq_refl), H2.
Qed.
Lemma windowlessb_sound e : windowlessb e = true -> windowless e.
Proof.
  intros H l r N. revert H. remember (Change CW l r) as n. induction N as [e|n k' b' c' c I N IH|n c x r' N IH|n c l' x N IH]; subst; cbn [windowlessb]; intros H; [discriminate H| | |].
  - apply (IH eq_refl). rewrite forallb_forall in H. apply H, I.
  - destruct c; [|discriminate H]. apply andb_true_iff in H as [H1 H2]. apply (IH eq_refl), H1.
  - destruct c; [|discriminate H]. apply andb_true_iff in H as [H1 H2]. apply (IH eq_refl), H2.
Qed.

(** * An expression with repeated base kernels, a change and a product (C31, C32) *)
Definition mixed : kex :=
  Comm KSum [(bLIN, 2%Z); (bPER, 1%Z)]
    [Comm KProd [(bPER, 2%Z)] [Comm KSum [(bWN, 1%Z); (bC, 1%Z)] []]; Change CP (inl bLIN) (inr (Comm KProd [(bLIN, 3%Z)] []))].
Lemma mixed_fit fixed : exists k p s, fit_of true fixed mixed k p /\ sum_of_prods_form true p = Ok s.
Proof.
  destruct (fit_exists true fixed mixed) as (k & p & F); [reflexivity|reflexivity|eexists; reflexivity|]. exists k, p.
  destruct (sop_success true fixed mixed k p F) as (cts & _ & E & _); [apply basesb_sound; reflexivity|]. exists (PComm KSum [] [] cts). split; [exact F|exact E].
Qed.
Lemma mixed_counts : number_of_terms mixed = 7%nat /\ well_mixed mixed /\ base_term_everywhere mixed /\ windowless mixed.
Proof.
  split; [reflexivity|]. split; [|split; [apply basesb_sound; reflexivity|apply windowlessb_sound; reflexivity]].
  intros m H. vm_compute in H. decompose [or] H; subst; try contradiction; (split; [intros [A B]; cbn in A, B; intuition discriminate|vm_compute; lia]).
Qed.

(** * The statements *)
Lemma wn_lin_witness : exists e k p cts, one_round e /\ fit_of true true e k p /\ sum_of_prods_form true p = Ok (PComm KSum [] [] cts) /\
  sum_of_products (PComm KSum [] [] cts) cts /\ exists x i j, terms_cov cts x i j <> kernel_cov k x i j.
Proof.
  exists wn_lin, (wn_lin_fit 1 0 1 1), (wn_lin_pars 1 0 1 1), (wn_lin_terms 1 0 1 1). split; [exact wn_lin_reached|]. split; [apply wn_lin_fits; lra|]. split; [apply wn_lin_form|]. split; [split; [reflexivity|apply wn_lin_shape]|].
  exists (fun _ => 0 + 2), 0%nat, 0%nat. rewrite wn_lin_cov, wn_lin_terms_cov. lra.
Qed.
Lemma se_se_witness : exists e k p cts, fit_of true true e k p /\ (forall m, In m (expansion e) -> ~ In bWN m) /\
  sum_of_prods_form true p = Ok (PComm KSum [] [] cts) /\
  sum_of_products (PComm KSum [] [] cts) cts /\ exists x i j, terms_cov cts x i j <> kernel_cov k x i j.
Proof.
  exists se_se, (se_se_fit 1 1 1 1 1), (se_se_pars 1 1 1 1 1), (se_se_terms 1 1 1 1 1). split; [apply se_se_fits; lra|]. split.
  { intros m H. vm_compute in H. decompose [or] H; subst; try contradiction; intros A; cbn in A; intuition discriminate. }
  split; [apply se_se_form|]. split; [split; [reflexivity|apply se_se_shape]|].
  exists zero_one, 0%nat, 1%nat. apply not_eq_sym, Rlt_not_eq, se_se_differ.
Qed.
Lemma no_base_witness : exists e, one_round e /\ (forall fixed, exists k p, fit_of true fixed e k p) /\
  forall fixed k p, fit_of true fixed e k p -> sum_of_prods_form true p = Raise EAssertionError.
Proof.
  exists no_base_node. split; [exact no_base_reached|]. split; [exact no_base_fit|]. intros fixed k p F. exact (sop_failure true fixed _ k p F no_base_not).
Qed.
Lemma nested_witness fmt : exists e k p s, fit_of true true e k p /\ base_term_everywhere e /\
  sum_of_prods_form true p = Ok s /\ get_interpretation true true fmt s = Raise EKeyError.
Proof.
  exists nested, (nested_fit 5 0), (nested_pars 5 0), (PComm KSum [] [] (nested_terms 5 0)). split; [apply nested_fits|]. split; [apply nested_base; exact 0|]. split; [apply nested_form|apply nested_fail].
Qed.
Lemma canonical_iff offset fixed e k p : fit_of offset fixed e k p ->
  (base_term_everywhere e -> exists s, sum_of_prods_form offset p = Ok s) /\
  (~ base_term_everywhere e -> sum_of_prods_form offset p = Raise EAssertionError).
Proof.
  intros F. split; [|intros B; exact (sop_failure offset fixed e k p F B)]. intros B. destruct (sop_success offset fixed e k p F B) as (cts & _ & E & _). exists (PComm KSum [] [] cts). exact E.
Qed.

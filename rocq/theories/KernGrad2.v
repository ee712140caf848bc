(** Gradients of the sigmoidal kernels. *)
From Coq Require Import Reals List Bool Arith Lra Lia.
From Coquelicot Require Import Coquelicot.
From Verif Require Import Py KernModel KernSpec KernSig KernGrad.
Import ListNotations.
Local Open Scope R_scope.

Lemma derive_sig (u : R -> R) p du : is_derive u p du -> is_derive (fun q => sigmoid_function (u q)) p (sigmoid_function_d (u p) * du).
Proof.
  intros H. rewrite Rmult_comm. apply (is_derive_comp sigmoid_function u p (sigmoid_function_d (u p)) du); [apply sigmoid_derive|exact H].
Qed.

Definition sign (reverse : bool) (r : R) : R := if reverse then - r else r.

Lemma derive_sign (f : R -> R) (rev : bool) p d : is_derive f p d -> is_derive (fun q => if rev then 1 - f q else f q) p (sign rev d).
Proof.
  intros H. destruct rev; [|exact H]. unfold sign. replace (- d) with (0 - d) by lra. apply (is_derive_minus (fun _ => 1) f p 0 d); [apply (is_derive_const (V := R_NormedModule) 1 p)|exact H].
Qed.

Lemma phi_S_dl l s rev x : s <> 0 -> is_derive (fun q => phi_S q s rev x) l (sign rev (sigmoid_function_d ((x - l) / s) / (- s))).
Proof.
  intros Hs. unfold phi_S. apply (derive_sign (fun q => sigmoid_function ((x - q) / s))). unfold Rdiv at 2. apply (derive_sig (fun q => (x - q) / s)).
  auto_derive; [trivial|]. field. exact Hs.
Qed.

Lemma phi_S_ds l s rev x : s <> 0 -> is_derive (fun q => phi_S l q rev x) s (sign rev (sigmoid_function_d ((x - l) / s) * (- ((x - l) / s) / s))).
Proof.
  intros Hs. unfold phi_S. apply (derive_sign (fun q => sigmoid_function ((x - l) / q))). apply (derive_sig (fun q => (x - l) / q)).
  auto_derive; [exact Hs|]. field. exact Hs.
Qed.

Lemma basis_gradient_sign rev v (phi : R -> R -> R) d n w x K p g :
  (forall q, computes (basis_K v (phi q) (column n x) (column n x)) n n (K q)) ->
  (forall i j, (i < n)%nat -> (j < n)%nat -> w i j = w j i) ->
  (forall i, (i < n)%nat -> is_derive (fun q => phi q (x i)) p (sign rev (d i))) ->
  g = v * (2 * sum_to n (fun i => sum_to n (fun j => w i j * (phi p (x i) * d j)))) ->
  is_gradient n n w K p (sign rev g).
Proof.
  intros HK Hw Hd ->. apply (basis_gradient v phi (fun i => sign rev (d i)) n w x K p _ HK Hw Hd). destruct rev; simpl; [|reflexivity].
  rewrite <- Ropp_mult_distr_r_reverse. f_equal. rewrite <- Ropp_mult_distr_r_reverse. f_equal.
  replace (- sum_to n _) with (-1 * sum_to n (fun i => sum_to n (fun j => w i j * (phi p (x i) * d j)))) by lra. rewrite <- sum_to_scal. apply sum_to_ext. intros i _. rewrite <- sum_to_scal. apply sum_to_ext. intros j _. ring.
Qed.

(** S with X2 = None and symmetric weights. *)
Lemma S_gradients v l s rev n x dL Kl Ks : s <> 0 -> array dL n n (ent dL) ->
  (forall i j, (i < n)%nat -> (j < n)%nat -> ent dL i j = ent dL j i) ->
  (forall q, computes (basis_K v (phi_S q s rev) (column n x) (column n x)) n n (Kl q)) ->
  (forall q, computes (basis_K v (phi_S l q rev) (column n x) (column n x)) n n (Ks q)) ->
  exists gl gs, S_update_gradients_full v l s rev dL (column n x) None = Ok (gl, gs)
                /\ is_gradient n n (ent dL) Kl l gl /\ is_gradient n n (ent dL) Ks s gs.
Proof.
  intros Hs HdL Hsym Hl Hk. unfold S_update_gradients_full, update_gradients_full_S_1.
  step. step. step. step. step.
  exists (sign rev (v * 2 * msum M0)), (sign rev (v * 2 * msum M3)). split; [destruct rev; reflexivity|].
  rewrite (array_sum _ _ _ _ H0), (array_sum _ _ _ _ H3). split.
  - apply (basis_gradient_sign rev v (fun q => phi_S q s rev) (fun i => sigmoid_function_d ((x i - l) / s) / (- s)) n _ x _ _ _ Hl Hsym).
    + intros i _. apply phi_S_dl, Hs.
    + ring.
  - apply (basis_gradient_sign rev v (fun q => phi_S l q rev) (fun i => sigmoid_function_d ((x i - l) / s) * (- ((x i - l) / s) / s)) n _ x _ _ _ Hk Hsym).
    + intros i _. apply phi_S_ds, Hs.
    + ring.
Qed.

(** The window function. *)
Lemma inv_core_derive a : 0 < a -> is_derive (fun q => 1 / core_sigmoid_function q) a (inv_core_sigmoid_d a).
Proof.
  intros Ha. apply (is_derive_ext_loc (fun t => (1 + t) / t)).
  - exists (mkposreal a Ha). intros t Ht. unfold ball in Ht. simpl in Ht. unfold AbsRing_ball, abs, minus, plus, opp in Ht. simpl in Ht. apply Rabs_lt_between in Ht.
    unfold core_sigmoid_function. rewrite Rabs_pos_eq by lra. change (@eq R ((1 + t) / t) (1 / (t / (1 + t)))). field. lra.
  - unfold inv_core_sigmoid_d. auto_derive; [lra|]. field. lra.
Qed.

Definition numer (l s w x : R) : R := sigmoid_function ((x - l) / s) + sigmoid_function ((x - l - w) / (- s)) - 1.

Lemma derive_numer (u uw : R -> R) p du duw : is_derive u p du -> is_derive uw p duw ->
  is_derive (fun q => sigmoid_function (u q) + sigmoid_function (uw q) - 1) p (sigmoid_function_d (u p) * du + sigmoid_function_d (uw p) * duw).
Proof.
  intros Hu Hw. rewrite <- (Rminus_0_r (_ + _)).
  apply (is_derive_minus (fun q => sigmoid_function (u q) + sigmoid_function (uw q)) (fun _ => 1) p (sigmoid_function_d (u p) * du + sigmoid_function_d (uw p) * duw) 0);
    [|apply (is_derive_const (V := R_NormedModule) 1 p)].
  apply (is_derive_plus (fun q => sigmoid_function (u q)) (fun q => sigmoid_function (uw q))); apply derive_sig; assumption.
Qed.

Lemma phi_SI_numer l s w rev x : phi_SI l s w rev x = if rev then 1 - numer l s w x * (1 / core_sigmoid_function (w / (2 * s))) else numer l s w x * (1 / core_sigmoid_function (w / (2 * s))).
Proof. unfold phi_SI, numer, Rdiv. rewrite !Rmult_1_l. reflexivity. Qed.

Lemma phi_SI_derive (rev : bool) (num h : R -> R) p dn dh : is_derive num p dn -> is_derive h p dh ->
  0 < h p -> is_derive (fun q => if rev then 1 - num q * (1 / core_sigmoid_function (h q)) else num q * (1 / core_sigmoid_function (h q))) p
    (sign rev (dn * (1 / core_sigmoid_function (h p)) + num p * (inv_core_sigmoid_d (h p) * dh))).
Proof.
  intros Hn Hh Hp. apply (derive_sign (fun q => num q * (1 / core_sigmoid_function (h q)))).
  apply (is_derive_mult num (fun q => 1 / core_sigmoid_function (h q)) p dn (inv_core_sigmoid_d (h p) * dh) Hn); [|intros; apply Rmult_comm].
  rewrite (Rmult_comm _ dh). apply (is_derive_comp (fun a => 1 / core_sigmoid_function a) h p _ dh); [apply inv_core_derive, Hp|exact Hh].
Qed.

Lemma height_pos w s : 0 < s -> 0 < w -> 0 < w / (2 * s).
Proof. intros. apply Rdiv_lt_0_compat; lra. Qed.

Section SI.
  Context (l s w : R) (rev : bool) (Hs : 0 < s) (Hw : 0 < w).
  Let a x := (x - l) / s.
  Let aw x := (x - l - w) / (- s).
  Let ih := 1 / core_sigmoid_function (w / (2 * s)).
  Let ihd := inv_core_sigmoid_d (w / (2 * s)).

  Lemma phi_SI_dl x : is_derive (fun q => phi_SI q s w rev x) l (sign rev (((- sigmoid_function_d (a x) + sigmoid_function_d (aw x)) / s) * ih)).
  Proof.
    eapply is_derive_ext; [intros q; symmetry; apply (phi_SI_numer q s w rev x)|].
    evar_last.
    - apply (phi_SI_derive rev (fun q => numer q s w x) (fun _ => w / (2 * s)) l).
      + apply (derive_numer (fun q => (x - q) / s) (fun q => (x - q - w) / (- s)) l (- / s) (/ s)); auto_derive; lra || (field; lra).
      + apply (is_derive_const (V := R_NormedModule) (w / (2 * s)) l).
      + apply height_pos; assumption.
    - unfold zero. simpl. f_equal. fold (a x) (aw x) ih. field. lra.
  Qed.

  Lemma phi_SI_ds x : is_derive (fun q => phi_SI l q w rev x) s
    (sign rev (((sigmoid_function_d (a x) * a x + sigmoid_function_d (aw x) * aw x) / (- s)) * ih + (sigmoid_function (a x) + sigmoid_function (aw x) - 1) * (ihd * (- (w / (2 * s)) / s)))).
  Proof.
    eapply is_derive_ext; [intros q; symmetry; apply (phi_SI_numer l q w rev x)|].
    evar_last.
    - apply (phi_SI_derive rev (fun q => numer l q w x) (fun q => w / (2 * q)) s).
      + apply (derive_numer (fun q => (x - l) / q) (fun q => (x - l - w) / (- q)) s (- (a x) / s) (- (aw x) / s)); unfold a, aw; auto_derive; try lra; field; lra.
      + instantiate (1 := - (w / (2 * s)) / s). auto_derive; [lra|]. field. lra.
      + apply height_pos; assumption.
    - f_equal. unfold numer. fold (a x) (aw x) ih ihd. field. lra.
  Qed.

  Lemma phi_SI_dw x : is_derive (fun q => phi_SI l s q rev x) w
    (sign rev ((sigmoid_function_d (aw x) / s) * ih + (sigmoid_function (a x) + sigmoid_function (aw x) - 1) * (ihd / (2 * s)))).
  Proof.
    eapply is_derive_ext; [intros q; symmetry; apply (phi_SI_numer l s q rev x)|].
    evar_last.
    - apply (phi_SI_derive rev (fun q => numer l s q x) (fun q => q / (2 * s)) w).
      + apply (derive_numer (fun q => (x - l) / s) (fun q => (x - l - q) / (- s)) w 0 (/ s)); [apply (is_derive_const (V := R_NormedModule) ((x - l) / s) w)|auto_derive; lra || (field; lra)].
      + instantiate (1 := / (2 * s)). auto_derive; [trivial|]. field. lra.
      + apply height_pos; assumption.
    - f_equal. unfold numer. fold (a x) (aw x) ih ihd. field. lra.
  Qed.
End SI.

Lemma SI_gradients v l s w rev n x dL Kl Ks Kw : 0 < s -> 0 < w -> array dL n n (ent dL) ->
  (forall i j, (i < n)%nat -> (j < n)%nat -> ent dL i j = ent dL j i) ->
  (forall q, computes (basis_K v (phi_SI q s w rev) (column n x) (column n x)) n n (Kl q)) ->
  (forall q, computes (basis_K v (phi_SI l q w rev) (column n x) (column n x)) n n (Ks q)) ->
  (forall q, computes (basis_K v (phi_SI l s q rev) (column n x) (column n x)) n n (Kw q)) ->
  exists gl gs gw, SI_update_gradients_full v l s w rev dL (column n x) None = Ok (gl, gs, gw)
    /\ is_gradient n n (ent dL) Kl l gl /\ is_gradient n n (ent dL) Ks s gs /\ is_gradient n n (ent dL) Kw w gw.
Proof.
  intros Hs Hw HdL Hsym HKl HKs HKw. unfold SI_update_gradients_full, update_gradients_full_SI.
  repeat step.
  exists (sign rev (v * msum M3)), (sign rev (v * msum M10)), (sign rev (v * msum M14)). split; [destruct rev; reflexivity|].
  rewrite (array_sum _ _ _ _ H3), (array_sum _ _ _ _ H10), (array_sum _ _ _ _ H14). clear - Hs Hw Hsym HKl HKs HKw. split; [|split].
  - eapply (basis_gradient_sign rev v (fun q => phi_SI q s w rev) _ n _ x _ _ _ HKl Hsym); [intros i _; apply phi_SI_dl; assumption|].
    f_equal. rewrite <- sum_to_scal. apply sum_to_ext. intros i _. rewrite <- sum_to_scal. apply sum_to_ext. intros j _. ring.
  - eapply (basis_gradient_sign rev v (fun q => phi_SI l q w rev) _ n _ x _ _ _ HKs Hsym); [intros i _; apply phi_SI_ds; assumption|].
    f_equal. rewrite <- sum_to_scal. apply sum_to_ext. intros i _. rewrite <- sum_to_scal. apply sum_to_ext. intros j _. ring.
  - eapply (basis_gradient_sign rev v (fun q => phi_SI l s q rev) _ n _ x _ _ _ HKw Hsym); [intros i _; apply phi_SI_dw; assumption|].
    f_equal. rewrite <- sum_to_scal. apply sum_to_ext. intros i _. rewrite <- sum_to_scal. apply sum_to_ext. intros j _. ring.
Qed.

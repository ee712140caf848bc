(** The covariance function of a fitted kernel object is what the kernel object computes. *)
From Coq Require Import Reals Lra List Bool Arith ZArith Lia.
From Verif Require Import Py KexModel KexSpec KexProofs KexSimp KexMore KernModel KernSpec SemModel SemSpec SemProofs SemSimp SemKernel IvModel ParModel ParSpec ParMatch.
Import ListNotations.
Local Open Scope R_scope.

Lemma rsums_app l m : rsums (l ++ m) = rsums l + rsums m.
Proof. unfold rsums. induction l as [|x l IH]; cbn; [ring|rewrite IH; ring]. Qed.
Lemma rprods_app l m : rprods (l ++ m) = rprods l * rprods m.
Proof. unfold rprods. induction l as [|x l IH]; cbn; [ring|rewrite IH; ring]. Qed.
Lemma cov_add_parts k x i j : rsums (map (fun k => kernel_cov k x i j) (add_parts k)) = kernel_cov k x i j.
Proof. destruct k; cbn; try ring. reflexivity. Qed.
Lemma cov_mul_parts k x i j : rprods (map (fun k => kernel_cov k x i j) (mul_parts k)) = kernel_cov k x i j.
Proof. destruct k; cbn; try ring. reflexivity. Qed.
Lemma cov_vadd a b x i j : kernel_cov (vadd a b) x i j = kernel_cov a x i j + kernel_cov b x i j.
Proof. unfold vadd. cbn [kernel_cov]. now rewrite map_app, rsums_app, !cov_add_parts. Qed.
Lemma cov_vmul a b x i j : kernel_cov (vmul a b) x i j = kernel_cov a x i j * kernel_cov b x i j.
Proof. unfold vmul. cbn [kernel_cov]. now rewrite map_app, rprods_app, !cov_mul_parts. Qed.

Fixpoint actual (g : gkern) : Prop :=
  match g with GBase b _ => is_sigmoid b = false | GAdd a b | GMul a b | GChange _ a b => actual a /\ actual b end.
Lemma actual_fold k t : forall x, actual x -> Forall actual t -> actual (fold_left (gop k) t x).
Proof. induction t as [|y t IH]; intros x A F; [exact A|]. inversion F; subst. cbn. apply IH; [destruct k; split; assumption|assumption]. Qed.
Lemma actual_bases L bs : mapM base_str_to_ker L = Ok bs -> Forall actual bs /\ Forall actual (keep_first_variance bs).
Proof.
  revert bs. induction L as [|b L IH]; intros bs E; cbn in E; [injection E as <-; split; constructor|].
  unfold base_str_to_ker at 1 in E. destruct (is_sigmoid b) eqn:S; [discriminate E|]. cbn [bind] in E. destruct (mapM base_str_to_ker L) as [ys|]; [|discriminate E]. injection E as <-.
  destruct (IH ys eq_refl) as [A _]. split; [constructor; assumption|]. cbn [keep_first_variance]. constructor; [exact S|].
  clear -A. induction A as [|y ys H A IH]; cbn; constructor; [destruct y; exact H|exact IH].
Qed.
Lemma to_kernel_actual e : forall g, to_kernel e = Ok g -> actual g.
Proof.
  induction e as [kd bts cts IH|c l r IHl IHr] using kex_ind'; intros g E.
  - rewrite to_kernel_comm in E. destruct (mapM base_str_to_ker _) as [bs|] eqn:Eb; [|discriminate E]. cbn [bind] in E. apply actual_bases in Eb as [A1 A2].
    destruct (seqM (map to_kernel cts)) as [gs|] eqn:Es; [|discriminate E]. cbn [bind] in E. apply seqM_inv in Es.
    assert (A3 : Forall actual gs). { clear -Es IH. induction Es as [|c g cts gs H F IHF]; constructor; [eapply IH; [left; reflexivity|exact H]|apply IHF; intros x I; apply IH; right; exact I]. }
    assert (A : Forall actual ((match kd with KSum => bs | KProd => keep_first_variance bs end) ++ gs)) by (apply Forall_app; split; [destruct kd; assumption|exact A3]).
    destruct (_ ++ gs) as [|x t]; [discriminate E|]. cbn in E. injection E as <-. inversion A; subst. apply actual_fold; assumption.
  - cbn [to_kernel] in E.
    assert (B : forall (b : branch) gb, (forall x, b = inr x -> forall g, to_kernel x = Ok g -> actual g) -> (match b with inl b => base_str_to_ker b | inr x => to_kernel x end) = Ok gb -> actual gb).
    { intros [b|x] gb H Eb; [|apply (H x eq_refl _ Eb)]. unfold base_str_to_ker in Eb. destruct (is_sigmoid b) eqn:S; [discriminate Eb|]. injection Eb as <-. exact S. }
    destruct (match l with inl b => base_str_to_ker b | inr x => to_kernel x end) as [gl|] eqn:El; [|discriminate E]. cbn [bind] in E.
    destruct (match r with inl b => base_str_to_ker b | inr x => to_kernel x end) as [gr|] eqn:Er; [|discriminate E]. cbn [bind] in E. injection E as <-.
    split; [eapply B; [|exact El]; exact IHl|eapply B; [|exact Er]; exact IHr].
Qed.

Section Cov.
  Context (offset : bool).
  Lemma value_in (q : pdict) n d : In n (map fst q) -> In (n, value q n d) q.
  Proof.
    unfold value. induction q as [|[m v] q IH]; cbn; intros H; [destruct H|]. destruct (pname_eqb m n) eqn:E; [apply pname_eqb_spec in E; subst; left; reflexivity|].
    right. apply IH. destruct H as [->|H]; [|exact H]. assert (D : pname_eqb n n = true) by (now apply pname_eqb_spec). congruence.
  Qed.
  Lemma value_absent (q : pdict) n d : ~ In n (map fst q) -> value q n d = d.
  Proof. intros H. unfold value. now rewrite dict_get_absent. Qed.
  Lemma values_variance b f q : is_sigmoid b = false -> base_values offset b f q -> variance_value f (value q pVariance 1).
  Proof.
    intros S [E P]. assert (I : In pVariance (base_params offset b)) by (destruct b; try discriminate S; cbn; try destruct offset; left; reflexivity).
    destruct f.
    - split; [|discriminate]. apply (P pVariance); [|discriminate]. apply value_in. rewrite E. apply filter_In. split; [exact I|reflexivity].
    - assert (V : value q pVariance 1 = 1) by (apply value_absent; rewrite E; intros J; apply filter_In in J as [_ J]; discriminate J). rewrite V. split; [lra|reflexivity].
  Qed.
  Lemma values_positive b f q n d : base_values offset b f q -> n <> pVariance -> n <> pOffset -> In n (base_params offset b) -> 0 < value q n d.
  Proof.
    intros [E P] V O I. apply (P n); [|exact O]. apply value_in. rewrite E. apply filter_In. split; [exact I|]. destruct n; try contradiction; cbn; now rewrite orb_true_r.
  Qed.
  Lemma fitted_computes g k : actual g -> fitted offset true g k -> exists K, instance offset g K /\ computes_kern K (kernel_cov k).
  Proof.
    intros A F. revert A. induction F as [b f q V|g1 g2 k1 k2 F1 IH1 F2 IH2|g1 g2 k1 k2 F1 IH1 F2 IH2|c g1 g2 k1 k2 q F1 IH1 F2 IH2 V]; intros A.
    - pose proof (values_variance b f q A V) as VV. destruct b; try discriminate A.
      + exists (white_kernel (value q pVariance 1)). split; [constructor; exact VV|]. apply white_computes.
      + exists (bias_kernel (value q pVariance 1)). split; [constructor; exact VV|]. apply bias_computes.
      + exists (if offset then lin_kernel (value q pVariance 1) (value q pOffset 0) else lin0_kernel (value q pVariance 1)). split; [apply (in_LIN offset f _ (value q pOffset 0) VV)|].
        eapply computes_kern_ext; [|apply (lin_computes offset)]. intros x i j. cbn. destruct offset eqn:O; [reflexivity|].
        rewrite (value_absent q pOffset); [reflexivity|]. destruct V as [V _]. rewrite V. cbn. destruct f; cbn; intros H; intuition discriminate.
      + exists (rbf_kernel (value q pVariance 1) (value q pLengthscale 1)). split; [constructor; [exact VV|]|apply rbf_computes].
        eapply values_positive; [exact V|discriminate|discriminate|right; left; reflexivity].
      + exists (per_kernel bessel0 bessel1 (value q pVariance 1) (value q pPeriod 1) (value q pLengthscale 1)). split; [|apply per_computes].
        constructor; [exact VV| |]; (eapply values_positive; [exact V|discriminate|discriminate|]); cbn; auto.
    - destruct A as [A1 A2]. destruct (IH1 A1) as (K1 & I1 & C1). destruct (IH2 A2) as (K2 & I2 & C2). exists (add_kernel K1 K2). split; [constructor; assumption|].
      eapply computes_kern_ext; [|apply add_computes; [exact C1|exact C2]]. intros x i j. cbv beta. symmetry. apply cov_vadd.
    - destruct A as [A1 A2]. destruct (IH1 A1) as (K1 & I1 & C1). destruct (IH2 A2) as (K2 & I2 & C2). exists (prod_kernel K1 K2). split; [constructor; assumption|].
      eapply computes_kern_ext; [|apply mul_computes; [exact C1|exact C2]]. intros x i j. cbv beta. symmetry. apply cov_vmul.
    - destruct A as [A1 A2]. destruct (IH1 A1) as (K1 & I1 & C1). destruct (IH2 A2) as (K2 & I2 & C2).
      assert (SL : value q pSlope (1 / 2) = 1 / 2) by (apply value_absent; destruct V as [V _]; rewrite V; destruct c; cbn; intuition discriminate).
      destruct c.
      + exists (change_kernel (ChangePoint (value q pLocation 0) (1 / 2)) K1 K2). split; [constructor; assumption|].
        eapply computes_kern_ext; [|apply change_computes; [exact C1|exact C2]]. intros x i j. cbn [kernel_cov base_cov change_phi]. now rewrite SL.
      + exists (change_kernel (ChangeWindow (value q pLocation 0) (1 / 2) (value q pWidth 1)) K1 K2). split.
        * constructor; [|assumption|assumption]. destruct V as [V P]. apply (P pWidth); [|discriminate]. apply value_in. rewrite V. right. left. reflexivity.
        * eapply computes_kern_ext; [|apply change_computes; [exact C1|exact C2]]. intros x i j. cbn [kernel_cov base_cov change_phi]. now rewrite SL.
  Qed.
  Lemma expression_computes e g k : to_kernel e = Ok g -> fitted offset true g k -> exists K, instance offset g K /\ computes_kern K (kernel_cov k).
  Proof. intros E F. eapply fitted_computes; [eapply to_kernel_actual, E|exact F]. Qed.
End Cov.

(** Covariance functions of expressions up to limits: C02, C07. *)
From Coq Require Import Reals Lra List Bool Arith ZArith Lia.
From Verif Require Import Py KexModel KexSpec KexProofs KexSimp KexMore OpsModel KernModel KernSpec SemModel SemSpec SemProofs SemSimp SemMore SemOps SemKernel KexCheck SemLimSpec SemLimit.
Import ListNotations.
Local Open Scope Z_scope.

(** C02 is false even up to limits: LIN + C has covariance functions which those of its simplified form, LIN, do not approximate. *)
Theorem C02_limits_refuted : exists bts, wf_counter bts /\ sigmoid_free (Comm KSum bts []) /\
  exists K, covariances true (Comm KSum bts []) K /\ ~ approximated (covariances true (mk true KSum bts [])) K.
Proof. exact lin_c_apart. Qed.
Print Assumptions C02_limits_refuted.
(** But nothing new is gained, with no condition on the rule LIN + C: on every finite data set, every covariance function of the
    simplified expression is a limit of covariance functions of the expression given.  Missing: the converse (false, above), and products
    with a factor C nested in products. *)
Theorem C02_limits_partial : forall offset k bts cts,
  wf_counter bts -> sigmoid_free (Comm k bts cts) -> (forall c, In c cts -> built offset c /\ non_empty c /\ no_c_product k c) ->
  forall K, covariances offset (mk offset k bts cts) K -> approximated (covariances offset (Comm k bts cts)) K.
Proof. exact mk_limits. Qed.
Print Assumptions C02_limits_partial.
Theorem C02_change_limits_partial : forall offset c l r,
  sigmoid_free (Change c l r) -> (forall x, l = inr x \/ r = inr x -> built offset x /\ non_empty x) ->
  forall K, covariances offset (mk_change offset c l r) K -> approximated (covariances offset (Change c l r)) K.
Proof. exact mk_change_limits. Qed.
Print Assumptions C02_change_limits_partial.
Theorem C02_initialise_limits_partial : forall offset e, built offset e -> non_empty e -> sigmoid_free e ->
  forall K, covariances offset (initialise offset e) K -> approximated (covariances offset e) K.
Proof. exact initialise_limits. Qed.
Print Assumptions C02_initialise_limits_partial.
(** PER * LIN + (WN + LIN) + WN + C + C: the constants disappear; and a covariance function that is not a limit. *)
Definition ex_lim_parts : list kex := [Comm KProd [(bLIN, 1); (bPER, 1)] []; Comm KSum [(bWN, 1); (bLIN, 1)] []].
Example C02_limits_example : (forall c, In c ex_lim_parts -> built true c /\ non_empty c /\ no_c_product KSum c)
  /\ mk true KSum [(bWN, 1); (bC, 2)] ex_lim_parts = Comm KSum [(bWN, 1); (bLIN, 1)] [Comm KProd [(bLIN, 1); (bPER, 1)] []]
  /\ mk true KSum [(bWN, 1); (bC, 2)] ex_lim_parts <> mk false KSum [(bWN, 1); (bC, 2)] ex_lim_parts
  /\ ~ approximated (covariances true (Comm KSum [(bLIN, 1); (bC, 1)] [])) (fun _ _ _ => (-1)%R).
Proof.
  split; [|split; [reflexivity|split; [discriminate|]]].
  - intros c [<-|[<-|[]]]; (split; [apply normalb_built; reflexivity|]); (split; [apply okb_sound; reflexivity|]); intros E; discriminate E.
  - change (covariances true (Comm KSum [(bLIN, 1); (bC, 1)] [])) with (combine_all KSum [base_family true bC; base_family true bLIN]).
    intros A. destruct (A (fun _ => 0%R) 1%nat 1%R) as (K' & (K3 & K4 & (c & Hc & E3) & (K5 & K6 & (v' & o' & Hv' & _ & E5) & H6 & H4) & H3) & B); [lra|].
    specialize (B 0%nat 0%nat ltac:(lia) ltac:(lia)). rewrite H3, H4, E3, E5, H6 in B. cbn [op unit] in B. apply Rabs_def2 in B.
    assert (0 <= v' * ((0 - o') * (0 - o')))%R by (apply Rmult_le_pos; [lra|apply Rle_0_sqr]). lra.
Qed.

(** C07 up to limits, with no condition on the rule LIN + C and for operands which need not be initialised: every covariance function of
    add(a, b) is a limit of sums of one of a and one of b, and the same for multiply. *)
Theorem C07_add_limits_partial : forall offset a b, operand offset a -> operand offset b ->
  forall K, covariances offset (add offset a b) K -> approximated (combine2 KSum (branch_covariances offset a) (branch_covariances offset b)) K.
Proof. exact add_limits. Qed.
Print Assumptions C07_add_limits_partial.
Theorem C07_multiply_limits_partial : forall offset a b, operand offset a -> operand offset b ->
  forall K, covariances offset (multiply offset a b) K -> approximated (combine2 KProd (branch_covariances offset a) (branch_covariances offset b)) K.
Proof. exact multiply_limits. Qed.
Print Assumptions C07_multiply_limits_partial.
Definition ex_lim_add : kex := Comm KSum [(bLIN, 1)] [Comm KProd [(bLIN, 1); (bPER, 1)] []].
Example C07_limits_example : operand true (inl bC) /\ operand true (inr ex_lim_add)
  /\ add true (inl bC) (inr ex_lim_add) = ex_lim_add /\ add false (inl bC) (inr ex_lim_add) <> ex_lim_add.
Proof.
  split; [reflexivity|]. split; [split; [apply normalb_built; reflexivity|apply okb_sound; reflexivity]|]. split; [reflexivity|discriminate].
Qed.

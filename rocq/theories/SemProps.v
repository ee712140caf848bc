(** Covariance functions of expressions: C02, C07, C12, C30. *)
From Coq Require Import Reals Lra List Bool Arith ZArith Lia.
From Verif Require Import Py KexModel KexSpec KexProofs KexSimp KexMore OpsModel KernModel KernSpec SemModel SemSpec SemProofs SemSimp SemMore SemOps SemKernel KexCheck.
Import ListNotations.
Local Open Scope Z_scope.

(** C02: false under the default configuration: the constructor rewrites LIN + C to LIN, and no covariance function of one is a
    covariance function of the other; and the product of a product of C becomes an empty product. *)
Theorem C02_refuted : exists bts, wf_counter bts /\ sigmoid_free (Comm KSum bts []) /\
  (exists K, covariances true (Comm KSum bts []) K) /\
  forall K, covariances true (mk true KSum bts []) K -> ~ covariances true (Comm KSum bts []) K.
Proof. exact lin_c_witness. Qed.
Print Assumptions C02_refuted.
Theorem C02_empty_product_refuted : exists cts, (forall c, In c cts -> built true c /\ non_empty c) /\
  ~ same_family (covariances true (mkl true KProd [] cts)) (covariances true (Comm KProd [] cts)).
Proof. exact empty_product_witness. Qed.
Print Assumptions C02_empty_product_refuted.
(** What holds: every constructor call in which the rule LIN + C is not used (the result is the one obtained with the
    configuration flag off) and no product with a factor C is nested in a product keeps the family.  Missing: those two cases. *)
Theorem C02_partial : forall offset k bts cts,
  wf_counter bts -> sigmoid_free (Comm k bts cts) -> (forall c, In c cts -> built offset c /\ non_empty c /\ no_c_product k c) ->
  mk offset k bts cts = mk false k bts cts ->
  same_family (covariances offset (mk offset k bts cts)) (covariances offset (Comm k bts cts)).
Proof. exact mk_family. Qed.
Print Assumptions C02_partial.
Theorem C02_change_partial : forall offset c l r,
  sigmoid_free (Change c l r) -> (forall x, l = inr x \/ r = inr x -> built offset x /\ non_empty x) ->
  mk_change offset c l r = mk_change false c l r ->
  same_family (covariances offset (mk_change offset c l r)) (covariances offset (Change c l r)).
Proof. exact mk_change_family. Qed.
Print Assumptions C02_change_partial.
Theorem C02_initialise_partial : forall offset e, built offset e -> non_empty e -> sigmoid_free e ->
  initialise offset e = initialise false e -> same_family (covariances offset (initialise offset e)) (covariances offset e).
Proof. exact initialise_family. Qed.
Print Assumptions C02_initialise_partial.
(** With the configuration flag off the condition on the rule LIN + C is void. *)
Theorem C02_initialise_no_offset_partial : forall e, built false e -> non_empty e -> sigmoid_free e ->
  same_family (covariances false (initialise false e)) (covariances false e).
Proof. exact (fun e B N S => initialise_family false e B N S eq_refl). Qed.
Print Assumptions C02_initialise_no_offset_partial.
(** SE * SE * C * PER + (WN + PER) + WN + WN + C: idempotent terms, absorbed constants and nested sums. *)
Definition ex_sem_parts : list kex := [Comm KProd [(bSE, 1); (bPER, 1)] []; Comm KSum [(bWN, 1); (bPER, 1)] []].
Example C02_example : (forall c, In c ex_sem_parts -> built true c /\ non_empty c /\ no_c_product KSum c)
  /\ mk true KSum [(bWN, 2); (bC, 3)] ex_sem_parts = mk false KSum [(bWN, 2); (bC, 3)] ex_sem_parts
  /\ mk true KSum [(bWN, 2); (bC, 3)] ex_sem_parts = Comm KSum [(bWN, 1); (bC, 1); (bPER, 1)] [Comm KProd [(bSE, 1); (bPER, 1)] []]
  /\ mkl true KProd [bSE; bSE; bC; bPER] [] = Comm KProd [(bSE, 1); (bPER, 1)] [].
Proof.
  split; [|repeat split; reflexivity]. intros c [<-|[<-|[]]]; (split; [apply normalb_built; reflexivity|]); (split; [apply okb_sound; reflexivity|]); intros E; discriminate E.
Qed.

(** C07: false for add: LIN + C is LIN. *)
Theorem C07_refuted : exists a b, operand true a /\ operand true b /\
  exists K, combine2 KSum (branch_covariances true a) (branch_covariances true b) K /\ ~ covariances true (add true a b) K.
Proof. exact add_lin_c. Qed.
Print Assumptions C07_refuted.
(** What holds for add: whenever the rule LIN + C is not used. *)
Theorem C07_add_partial : forall offset a b, operand offset a -> operand offset b -> add offset a b = add false a b ->
  same_family (covariances offset (add offset a b)) (combine2 KSum (branch_covariances offset a) (branch_covariances offset b)).
Proof. exact (fun offset => operate_family offset KSum). Qed.
Print Assumptions C07_add_partial.
(** multiply: always, for initialised operands. *)
Theorem C07_multiply : forall offset a b, operand offset a -> operand offset b -> (forall x, a = inr x \/ b = inr x -> normal offset x) ->
  same_family (covariances offset (multiply offset a b)) (combine2 KProd (branch_covariances offset a) (branch_covariances offset b)).
Proof. exact multiply_family. Qed.
Print Assumptions C07_multiply.
(** Both commute up to ==. *)
Theorem C07_commutative : forall offset a b, (forall x, a = inr x \/ b = inr x -> wf x) ->
  keq (add offset a b) (add offset b a) = true /\ keq (multiply offset a b) (multiply offset b a) = true.
Proof. exact operations_commute. Qed.
Print Assumptions C07_commutative.
Definition ex_factor : kex := Comm KProd [(bPER, 1); (bSE, 1)] [Change CP (inl bWN) (inr (Comm KSum [(bLIN, 1); (bPER, 1)] []))].
Example C07_example : operand true (inl bSE) /\ operand true (inr ex_factor) /\ normal true ex_factor
  /\ multiply true (inl bSE) (inr ex_factor) = ex_factor
  /\ multiply true (inl bWN) (inr ex_factor) = Comm KProd [(bWN, 1)] [Change CP (inl bWN) (inr (Comm KSum [(bLIN, 1); (bPER, 1)] []))]
  /\ add true (inl bSE) (inr ex_factor) = Comm KSum [(bSE, 1)] [ex_factor].
Proof.
  split; [reflexivity|]. split; [split; [apply normalb_built; reflexivity|apply okb_sound; reflexivity]|]. split; [apply normalb_sound; reflexivity|]. repeat split.
Qed.

(** C12: every covariance function of an expression reported stationary is invariant under shifts of the inputs. *)
Theorem C12_stationary : forall offset e, wf e -> is_stationary e = true ->
  forall K, covariances offset e K -> translation_invariant K.
Proof. exact stationary_invariant. Qed.
Print Assumptions C12_stationary.
Definition ex_stat : kex := Comm KSum [(bWN, 1); (bC, 1)] [Comm KProd [(bPER, 2); (bSE, 1)] []].
Example C12_example : wf ex_stat /\ is_stationary ex_stat = true /\ is_stationary ex_factor = false.
Proof. split; [apply okb_sound; reflexivity|split; reflexivity]. Qed.

(** C30: to_kernel succeeds, and the kernel object, in which each product has a single free variance, expresses exactly the covariance
    functions of the expression in which every base kernel has its own. *)
Theorem C30_expressiveness : forall offset e, wf e -> non_empty e -> sigmoid_free e ->
  exists g, to_kernel e = Ok g /\ same_family (kernel_family offset g) (covariances offset e).
Proof. exact to_kernel_family. Qed.
Print Assumptions C30_expressiveness.
(** The free variances of the kernel object of a product are one, plus those of the kernel objects of its composites. *)
Theorem C30_one_variance : forall bts cts g, wf_counter bts -> (exists b, 0 < cget bts b) -> to_kernel (Comm KProd bts cts) = Ok g ->
  exists gs, Forall2 (fun c gc => to_kernel c = Ok gc) cts gs /\ free_variances g = S (fold_right (fun gc n => free_variances gc + n)%nat 0%nat gs).
Proof. exact product_one_variance. Qed.
Print Assumptions C30_one_variance.
Definition ex_tk : kex := Comm KProd [(bPER, 2); (bLIN, 1)] [Change CP (inl bWN) (inr (Comm KSum [(bLIN, 1); (bSE, 1)] []))].
Example C30_example : wf ex_tk /\ non_empty ex_tk /\ sigmoid_free ex_tk
  /\ to_kernel ex_tk = Ok (GMul (GMul (GMul (GBase bPER true) (GBase bPER false)) (GBase bLIN false)) (GChange CP (GBase bWN true) (GAdd (GBase bSE true) (GBase bLIN true)))).
Proof. destruct (okb_sound ex_tk eq_refl) as (W & N & S). split; [exact W|]. split; [exact N|]. split; [exact S|reflexivity]. Qed.

(** C41 for expressions: every kernel object of an expression without PER computes symmetric positive semidefinite matrices, whatever its
    parameters. *)
Theorem C41_expressions : forall offset e g k, wf e -> ~ occurs bPER e -> to_kernel e = Ok g -> instance offset g k -> proper k.
Proof. exact expression_proper. Qed.
Print Assumptions C41_expressions.
Example C41_expressions_example : exists g k, to_kernel ex_nonper = Ok g /\ instance true g k /\ wf ex_nonper /\ ~ occurs bPER ex_nonper.
Proof. exact ex_nonper_ok. Qed.

(** After a fit: parameters of the terms, sum-of-products form and description: C31-C34. *)
From Coq Require Import String Reals List Bool Arith ZArith Permutation.
From Verif Require Import Py KexModel KexSpec OpsModel KernModel KernSpec SemModel SemSpec IvModel IvSpec ParModel ParSpec ParMatch2 ParCov ParProofs ParWit ParMore ParOrder3.
Import ListNotations.
Local Open Scope R_scope.

(** C31: for every expression in normal form and every choice of values for the free parameters of its kernel object, all names that are
    looked up exist and every base term, product and Change node gets the values of its own part of the kernel object. *)
Theorem C31_assigned : forall offset fixed e g k, normal offset e -> non_empty e -> to_kernel e = Ok g -> fitted offset fixed g k ->
  exists p, fit_ker_to_kex_with_params offset fixed k e = Ok p /\ erase p = e /\ assigned p k.
Proof. exact matched_root. Qed.
Print Assumptions C31_assigned.
(** The kernel objects that are quantified over are those of the expression: their covariance functions are computed by instances of
    the result of to_kernel. *)
Theorem C31_instance : forall offset e g k, to_kernel e = Ok g -> fitted offset true g k ->
  exists K, instance offset g K /\ computes_kern K (kernel_cov k).
Proof. exact expression_computes. Qed.
Print Assumptions C31_instance.
Example C31_example : forall fixed, exists k p s, fit_of true fixed mixed k p /\ sum_of_prods_form true p = Ok s.
Proof. exact mixed_fit. Qed.

(** C32: the canonical form, when there is one, is a sum of pure products: one for each term that is obtained by distributing products
    over sums and changes, equal to the product of the factors of that term (unless both WN and LIN are among them). *)
Theorem C32_sum_of_products : forall offset fixed e k p s, fit_of offset fixed e k p -> sum_of_prods_form offset p = Ok s ->
  exists cts terms, sum_of_products s cts /\ Permutation terms (expansion e) /\ Forall2 (component_of offset) terms cts /\ length cts = number_of_terms e.
Proof. exact sum_of_products_shape. Qed.
Print Assumptions C32_sum_of_products.
Example C32_example : (forall fixed, exists k p s, fit_of true fixed mixed k p /\ sum_of_prods_form true p = Ok s) /\ number_of_terms mixed = 7%nat.
Proof. exact (conj mixed_fit (proj1 mixed_counts)). Qed.

(** C33 is false: the product of WN and LIN loses LIN's parameters, already for an expression that the default search
    fits in its first round, *)
Theorem C33_refuted : exists e k p cts, one_round e /\ fit_of true true e k p /\ sum_of_prods_form true p = Ok (PComm KSum [] [] cts) /\
  sum_of_products (PComm KSum [] [] cts) cts /\ exists x i j, terms_cov cts x i j <> kernel_cov k x i j.
Proof. exact wn_lin_witness. Qed.
Print Assumptions C33_refuted.
(** and the lengthscale for two factors SE is not that of their product. *)
Theorem C33_lengthscale_refuted : exists e k p cts, fit_of true true e k p /\ (forall m, In m (expansion e) -> ~ In bWN m) /\
  sum_of_prods_form true p = Ok (PComm KSum [] [] cts) /\
  sum_of_products (PComm KSum [] [] cts) cts /\ exists x i j, terms_cov cts x i j <> kernel_cov k x i j.
Proof. exact se_se_witness. Qed.
Print Assumptions C33_lengthscale_refuted.
(** What holds: the covariance functions are the same at all inputs if no term has both WN and LIN, or SE twice.  Missing: those terms. *)
Theorem C33_partial : forall offset fixed e k p s cts, fit_of offset fixed e k p -> well_mixed e ->
  sum_of_prods_form offset p = Ok s -> sum_of_products s cts -> forall x i j, terms_cov cts x i j = kernel_cov k x i j.
Proof. exact sum_of_products_cov. Qed.
Print Assumptions C33_partial.
Example C33_example : (forall fixed, exists k p s, fit_of true fixed mixed k p /\ sum_of_prods_form true p = Ok s) /\ well_mixed mixed.
Proof. exact (conj mixed_fit (proj1 (proj2 mixed_counts))). Qed.

(** C34 is false: no fit of an expression with a sum or product of composites only has a canonical form; the default search fits such
    expressions in its first round. *)
Theorem C34_refuted : exists e, one_round e /\ (forall fixed, exists k p, fit_of true fixed e k p) /\
  forall fixed k p, fit_of true fixed e k p -> sum_of_prods_form true p = Raise EAssertionError.
Proof. exact no_base_witness. Qed.
Print Assumptions C34_refuted.
(** Also, with nested windows the canonical form cannot always be described. *)
Theorem C34_windows_refuted : forall fmt, exists e k p s, fit_of true true e k p /\ base_term_everywhere e /\
  sum_of_prods_form true p = Ok s /\ get_interpretation true true fmt s = Raise EKeyError.
Proof. exact nested_witness. Qed.
Print Assumptions C34_windows_refuted.
(** There is a canonical form exactly if every sum and product has a base term; otherwise AssertionError is raised. *)
Theorem C34_canonical_partial : forall offset fixed e k p, fit_of offset fixed e k p ->
  (base_term_everywhere e -> exists s, sum_of_prods_form offset p = Ok s) /\
  (~ base_term_everywhere e -> sum_of_prods_form offset p = Raise EAssertionError).
Proof. exact canonical_iff. Qed.
Print Assumptions C34_canonical_partial.
(** If there is one, its description succeeds if the expression has no change window, *)
Theorem C34_windowless_partial : forall offset fixed fmt e k p, fit_of offset fixed e k p -> base_term_everywhere e -> windowless e ->
  exists s t, sum_of_prods_form offset p = Ok s /\ get_interpretation offset fixed fmt s = Ok t.
Proof. exact windowless_interpretation. Qed.
Print Assumptions C34_windowless_partial.
(** or if its sigmoids can be reduced to intervals (C36), *)
Theorem C34_partial : forall offset fixed fmt e k p, fit_of offset fixed e k p -> base_term_everywhere e ->
  exists s cts, sum_of_prods_form offset p = Ok s /\ sum_of_products s cts /\
    ((forall ct, In ct cts -> describable (parameters_of ct)) -> exists t, get_interpretation offset fixed fmt s = Ok t).
Proof. exact interpretation_succeeds. Qed.
Print Assumptions C34_partial.
(** or if, in each term of the multiplied-out expression that has windows, there is at most one of each type and at most one more type
    of sigmoid. *)
Theorem C34_few_windows_partial : forall offset fixed fmt e k p, fit_of offset fixed e k p -> base_term_everywhere e -> few_windows e ->
  exists s t, sum_of_prods_form offset p = Ok s /\ get_interpretation offset fixed fmt s = Ok t.
Proof. exact few_windows_interpretation. Qed.
Print Assumptions C34_few_windows_partial.
(** Exactly: every fit of an expression has a canonical form that can be described if and only if every sum and product has a base term and, in
    each term of the multiplied-out expression, there is at most one window of each type and these come among the first two types of its sigmoids
    (innermost change first). *)
Theorem C34_exactly : forall offset fixed e, (exists k p, fit_of offset fixed e k p) ->
  (forall fmt k p, fit_of offset fixed e k p -> exists s t, sum_of_prods_form offset p = Ok s /\ get_interpretation offset fixed fmt s = Ok t)
  <-> base_term_everywhere e /\ windows_come_first e.
Proof. exact interpretation_exact. Qed.
Print Assumptions C34_exactly.
Example C34_exactly_example : (forall fixed, (exists k p, fit_of true fixed window_inside k p) /\ (exists k p, fit_of true fixed window_around k p))
  /\ base_term_everywhere window_inside /\ windows_come_first window_inside /\ base_term_everywhere window_around /\ ~ windows_come_first window_around.
Proof. exact windows_example. Qed.
Example C34_few_windows_example : (forall fixed, exists k p, fit_of true fixed window_in_point k p) /\ base_term_everywhere window_in_point /\ few_windows window_in_point /\ ~ windowless window_in_point.
Proof. exact window_in_point_ok. Qed.
Example C34_example : (forall fixed, exists k p s, fit_of true fixed mixed k p /\ sum_of_prods_form true p = Ok s) /\ base_term_everywhere mixed /\ windowless mixed.
Proof. exact (conj mixed_fit (proj2 (proj2 mixed_counts))). Qed.

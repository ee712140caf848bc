{
 "claims": [
  {
   "property": "C01",
   "status": "proved",
   "theorems": [
    "C01_eq_is_reordering",
    "C01_eq_equivalence"
   ],
   "note": "Model of __eq__/eq_elems coincides with an inductive 'equal up to reordering' relation; equivalence relation."
  },
  {
   "property": "C02",
   "status": "partial",
   "theorems": [
    "C02_refuted",
    "C02_empty_product_refuted",
    "C02_limits_refuted",
    "C02_partial",
    "C02_change_partial",
    "C02_initialise_partial",
    "C02_initialise_no_offset_partial",
    "C02_limits_partial",
    "C02_change_limits_partial",
    "C02_initialise_limits_partial"
   ],
   "note": "False as stated: LIN + C becomes LIN (disjoint families, and LIN does not even approximate LIN + C) and a product of a product of C becomes an empty product. Proved for every constructor call and _initialise outside those two cases; and, with no condition on LIN + C, that every covariance function of the simplified expression is a limit, on every finite data set, of covariance functions of the original."
  },
  {
   "property": "C03",
   "status": "partial",
   "theorems": [
    "C03_refuted",
    "C03_exactly",
    "C03_partial",
    "C03_change",
    "C03_initialise"
   ],
   "note": "Full claim is false of the code: ProductKE([], [ProductKE(['C'])]) is an empty product. C03_exactly: a call of SumKE or ProductKE with some term and non-empty composites gives an empty expression exactly if it is of ProductKE, all base terms are C and all composites (at least one) are products of C only. Nothing else (ChangeKE, _initialise) makes one."
  },
  {
   "property": "C04",
   "status": "proved",
   "theorems": [
    "C04_initialise_normal_form"
   ],
   "note": "For every constructor history (and sub-expressions of built expressions)."
  },
  {
   "property": "C05",
   "status": "partial",
   "theorems": [
    "C05_refuted",
    "C05_partial",
    "C05_exactly",
    "C05_constructor",
    "C05_change"
   ],
   "note": "Full claim is false: SumKE(['WN'], [ProductKE([], [SumKE(['LIN','PER'])])]) is changed by a second simplify. Proved: the second simplify changes nothing exactly if no Sum is directly in a Sum and no Product in a Product; which constructor calls give such expressions (exactly those with a composite that simplifies to something holding only an expression of the kind being made); change points and windows are always fixed; and a second pass always reaches a fixed point."
  },
  {
   "property": "C06",
   "status": "proved",
   "theorems": [
    "C06_cardinality"
   ],
   "note": "At every node of simplify of any expression whose Counters have positive counts."
  },
  {
   "property": "C07",
   "status": "partial",
   "theorems": [
    "C07_refuted",
    "C07_add_partial",
    "C07_multiply",
    "C07_commutative",
    "C07_add_limits_partial",
    "C07_multiply_limits_partial"
   ],
   "note": "multiply proved for initialised operands, commutativity for all; add is false when it merges LIN with C (witness LIN + C), proved otherwise; in all cases the covariance functions of the result are limits of sums (products) of those of the operands."
  },
  {
   "property": "C08",
   "status": "partial",
   "theorems": [
    "C08_refuted",
    "C08_partial",
    "C08_adds_base",
    "C08_change"
   ],
   "note": "False when the new base B already occurs: the dictionary {bt: -1, B: 1} collapses for bt = B, so LIN+PER with LIN gives LIN+LIN+PER. Proved for every base other than B; C08_adds_base states what happens at B."
  },
  {
   "property": "C09",
   "status": "proved",
   "theorems": [
    "C09_remove_one",
    "C09_single_term",
    "C09_change"
   ],
   "note": "All Sums, Products and Changes."
  },
  {
   "property": "C10",
   "status": "proved",
   "theorems": [
    "C10_traverse",
    "C10_reduce"
   ],
   "note": ""
  },
  {
   "property": "C11",
   "status": "proved",
   "theorems": [
    "C11_contains_base",
    "C11_wf_of_built"
   ],
   "note": "wf (positive stored counts) holds for every built expression."
  },
  {
   "property": "C12",
   "status": "proved",
   "theorems": [
    "C12_stationary"
   ],
   "note": ""
  },
  {
   "property": "C13",
   "status": "proved",
   "theorems": [
    "C13_round_trip"
   ],
   "note": "repr is modelled as a string; it is read by a lexer and an unambiguous grammar of the needed part of python (PySpec.v) and evaluated with the simplifying constructors. The result is exactly the expression, for every initialised expression."
  },
  {
   "property": "C14",
   "status": "proved",
   "theorems": [
    "C14_str",
    "C14_unrefined",
    "C14_unambiguous"
   ],
   "note": "str is modelled as a string. C14_str: it has exactly one reading and that formula expresses exactly the covariance functions of the expression, for every well-formed non-empty expression. C14_unrefined: for expressions in normal form the kernel object that the reading evaluates to (to_kernel_unrefined, with its regular expression) is that of to_kernel part by part, except that no variance is fixed, so the covariance function is the same for the same parameters."
  },
  {
   "property": "C15",
   "status": "proved",
   "theorems": [
    "C15_expand_different"
   ],
   "note": "Any rules, any expression."
  },
  {
   "property": "C16",
   "status": "proved",
   "theorems": [
    "C16_order_independent"
   ],
   "note": "All four built-in rule groups, every iteration order of both sets."
  },
  {
   "property": "C17",
   "status": "partial",
   "theorems": [
    "C17_refuted",
    "C17_partial",
    "C17_actual",
    "C17_builtin_rules"
   ],
   "note": "False for a Change with a base kernel as left branch: its replacement overwrites the right branch (CP(WN, LIN) gives CP(WN, WN + PER)). Proved (soundness and completeness) for trees without such branches; C17_actual states the behaviour for all trees."
  },
  {
   "property": "C18",
   "status": "partial",
   "theorems": [
    "C18_refuted",
    "C18_partial",
    "C18_own_kind_partial",
    "C18_exactly"
   ],
   "note": "False: PER*(WN + LIN*PER) expands to PER*(LIN*PER) with a Product in a Product. Proved: a result is in normal form exactly if it has no Sum directly in a Sum and no Product in a Product, and results are in normal form unless, on the way to the replaced node, a composite of a Sum (Product) simplifies to something holding only a Sum (Product)."
  },
  {
   "property": "C19",
   "status": "proved",
   "theorems": [
    "C19_expand",
    "C19_expand_initialised",
    "C19_expand_general",
    "C19_sum_or_product",
    "C19_change",
    "C19_initialise"
   ],
   "note": "Objects with identities, root/parent pointers, deepcopy and in-place updates. For every expression in normal form (in particular every result of the constructors and _initialise) and any list of rules, expand returns the expressions of the tree model, each made of new objects with consistent links, and leaves all existing objects unchanged. C19_expand_general: the same without normal form, if equal changes within one Sum or Product are in normal form."
  },
  {
   "property": "C20",
   "status": "proved",
   "theorems": [
    "C20_accepts",
    "C20_rejects",
    "C20_normal",
    "C20_start_default",
    "C20_start_extended",
    "C20_start_original"
   ],
   "note": "Start lists for every iteration order of the set of base kernels."
  },
  {
   "property": "C21",
   "status": "proved",
   "theorems": [
    "C21_ranked",
    "C22_continued"
   ],
   "note": "For any total preorder of scores, fitter returning new model objects, rules, utility; C22_continued: also after continuing with the same utility."
  },
  {
   "property": "C22",
   "status": "proved",
   "theorems": [
    "C22_partition",
    "C22_continued"
   ],
   "note": "As C21."
  },
  {
   "property": "C23",
   "status": "proved",
   "theorems": [
    "C23_no_repeats"
   ],
   "note": ""
  },
  {
   "property": "C24",
   "status": "proved",
   "theorems": [
    "C24_continue",
    "C24_continue_rounds"
   ],
   "note": "Same results and the same sequence of effects on the world and score cache (verbose=False; see C48 for printing)."
  },
  {
   "property": "C25",
   "status": "proved",
   "theorems": [
    "C25_best_improves"
   ],
   "note": ""
  },
  {
   "property": "C26",
   "status": "proved",
   "theorems": [
    "C26_beam_values",
    "C26_rounds",
    "C26_type_error",
    "C26_empty_list"
   ],
   "note": ""
  },
  {
   "property": "C27",
   "status": "proved",
   "theorems": [
    "C27_retries",
    "C27_list"
   ],
   "note": ""
  },
  {
   "property": "C28",
   "status": "proved",
   "theorems": [
    "C28_parallel"
   ],
   "note": "Pool.map modelled as chunks of n // cpus + 1 tasks completed in any order."
  },
  {
   "property": "C29",
   "status": "partial",
   "theorems": [
    "C29_refuted",
    "C29_unfitted",
    "C29_partial",
    "C29_later_partial",
    "C29_latest_partial"
   ],
   "note": "False: the canonical form is cached at the first interpret/sum_of_prods_kex and not invalidated by a refit. Proved: ValueError before any fit; the first description is of the current fit; later ones are of the fit current at some earlier describing call."
  },
  {
   "property": "C30",
   "status": "proved",
   "theorems": [
    "C30_expressiveness",
    "C30_one_variance"
   ],
   "note": ""
  },
  {
   "property": "C31",
   "status": "proved",
   "theorems": [
    "C31_assigned",
    "C31_instance",
    "C31_random"
   ],
   "note": "For every normal-form expression and all values of the free parameters. Names follow paramz (duplicate part names get _1, _2, ...; GPy sums and products flatten), which is modelled, not verified. C31_random is the same for init_rand_params."
  },
  {
   "property": "C32",
   "status": "proved",
   "theorems": [
    "C32_sum_of_products"
   ],
   "note": "Shape, number of terms and the factors of each term (equal to the simplified product of the distributed term unless it has both WN and LIN)."
  },
  {
   "property": "C33",
   "status": "partial",
   "theorems": [
    "C33_refuted",
    "C33_lengthscale_refuted",
    "C33_partial",
    "C33_different"
   ],
   "note": "False: LIN*(WN+C), reachable in one round of the default search, loses the parameters of LIN in its WN*LIN term; SE*(SE+C) gets the wrong lengthscale. Proved for expressions none of whose distributed terms has both WN and LIN, or SE twice. C33_different: between different observations the covariances are right also then, unless a term without WN has SE twice."
  },
  {
   "property": "C34",
   "status": "partial",
   "theorems": [
    "C34_refuted",
    "C34_windows_refuted",
    "C34_exactly",
    "C34_canonical_partial",
    "C34_windowless_partial",
    "C34_partial",
    "C34_few_windows_partial"
   ],
   "note": "False: a Sum or Product node with composites only, e.g. (PER+C)*(PER+C) of the first round of the default search, raises AssertionError for every fit; nested windows raise KeyError. C34_exactly: every fit of an expression can be described if and only if every Sum and Product has a base term and no multiplied-out term has two windows of the same type or a window that comes after two other types of sigmoids. The other theorems say which exception is raised and give simpler sufficient conditions."
  },
  {
   "property": "C35",
   "status": "proved",
   "theorems": [
    "C35_intervals",
    "C35_reported"
   ],
   "note": "Reported intervals are read as open intervals and None as the empty set."
  },
  {
   "property": "C36",
   "status": "partial",
   "theorems": [
    "C36_refuted",
    "C36_windows_refuted",
    "C36_none_refuted",
    "C36_description_refuted",
    "C36_partial",
    "C36_lines_partial",
    "C36_exactly",
    "C36_exactly_described"
   ],
   "note": "False: KeyError 'slope' for two SIr sigmoids (witness: windows at 5 and 0 of width 1), TypeError for disjoint SI windows with a further sigmoid, None among the intervals of an active component (which makes the description raise TypeError). C36_exactly: the kinds of components that can be reduced whatever their parameters are exactly those with at most one SI and at most one SIr, each among the first two types of sigmoids; C36_exactly_described: the same for their descriptions. For given parameters it is proved to succeed with actual intervals for at most one SIr sigmoid, the others having a common active point, and no SI sigmoid unless SIr comes last."
  },
  {
   "property": "C37",
   "status": "proved",
   "theorems": [
    "C37_no_valueerror",
    "C37_described"
   ],
   "note": ""
  },
  {
   "property": "C38",
   "status": "proved",
   "theorems": [
    "C38_sigmoid"
   ],
   "note": ""
  },
  {
   "property": "C39",
   "status": "proved",
   "theorems": [
    "C39_window"
   ],
   "note": ""
  },
  {
   "property": "C40",
   "status": "partial",
   "theorems": [
    "C40_refuted",
    "C40_offset_refuted",
    "C40_lengthscale_refuted",
    "C40_other_refuted",
    "C40_linear_partial",
    "C40_sigmoid_partial",
    "C40_window_partial",
    "C40_change_partial",
    "C40_plain_linear_partial",
    "C40_periodic_partial",
    "C40_lengthscale_partial",
    "C40_square_partial",
    "C40_own_partial"
   ],
   "note": "False: the location gradient of a change kernel leaves out the first kernel's side (witness: change point at 0 with equal sides); the linear kernel's offset gradient is wrong for non-symmetric dL_dK; the periodic lengthscale gradient is 1e-4/l instead of 0 above 1e4; with X2 of another size the linear and sigmoidal kernels raise. Proved: every other gradient, each for all data sets, parameters and (symmetric, or all where stated) dL_dK. C40_own_partial says what a change kernel's own gradients are instead: the derivatives of the second kernel's part alone."
  },
  {
   "property": "C41",
   "status": "partial",
   "theorems": [
    "C41_refuted",
    "C41_covariance",
    "C41_periodic_exact",
    "C41_periodic_conditional",
    "C41_expressions",
    "C41_cross"
   ],
   "note": "False for the periodic kernel with lengthscale 1/2 (C41_refuted): the polynomial the code uses for exp(-z) I0(z) is slightly too large there. C41_periodic_exact says for which lengthscales it holds. Proved for all other kernels and all combinations; C41_expressions covers every expression without PER."
  },
  {
   "property": "C42",
   "status": "proved",
   "theorems": [
    "C42_periodic"
   ],
   "note": "With the true Bessel functions for scipy's i0 and i1."
  },
  {
   "property": "C43",
   "status": "partial",
   "theorems": [
    "C43_refuted",
    "C43_parameters_refuted",
    "C43_LOO_refuted",
    "C43_likelihood",
    "C43_parameters_partial",
    "C43_partial",
    "C43_LOO",
    "C43_LOO_mean"
   ],
   "note": "False for AICc when n <= k + 1 (witness n = 2, k = 3) and of searches with LA_LOO (higher is better, but lower ranks first). Proved: all claims for BIC and AIC, for AICc when n > k + 1, and what LA_LOO's entries are."
  },
  {
   "property": "C44",
   "status": "proved",
   "theorems": [
    "C44_topological_sort_correct"
   ],
   "note": ""
  },
  {
   "property": "C45",
   "status": "proved",
   "theorems": [
    "C45_partition",
    "C45_unique",
    "C45_eq_elems",
    "C45_chunk",
    "C45_group_by",
    "C45_update_dict_with",
    "C45_interval_overlap"
   ],
   "note": "interval_overlap over rationals (finite floats, no rounding)"
  },
  {
   "property": "C46",
   "status": "partial",
   "theorems": [
    "C46_diff_refuted",
    "C46_diff_partial",
    "C46_diff_exactly",
    "C46_diff_removes"
   ],
   "note": "The full claim is false of the code: removal stops at the first absent element. Proved when every listed element occurs in the list; C46_diff_removes says what is removed in general, and C46_diff_exactly when this is as claimed."
  },
  {
   "property": "C47",
   "status": "proved",
   "theorems": [
    "C47_continuous",
    "C47_values",
    "C47_window_values"
   ],
   "note": ""
  },
  {
   "property": "C48",
   "status": "partial",
   "theorems": [
    "C48_refuted",
    "C48_partial",
    "C48_exact_partial",
    "C48_no_rounds"
   ],
   "note": "False: with verbose=True (the default) a round without new models, or rounds=0, raises IndexError in print_k_list arguments. Proved: printing either changes nothing or raises IndexError; with positive beams and at least one round it changes nothing exactly if every round fitted a new model, and without rounds it always raises."
  },
  {
   "property": "C49",
   "status": "partial",
   "theorems": [
    "C49_refuted",
    "C49_partial",
    "C49_mixed"
   ],
   "note": "False: cached scores of earlier rounds are kept. Proved for the same utility; C49_mixed says what another one does: models of the first search are ranked by its utility, later ones by the new one."
  },
  {
   "property": "C50",
   "status": "partial",
   "theorems": [
    "C50_refuted",
    "C50_partial"
   ],
   "note": "False: expanded etc. are modified in place. Proved for the first continuation."
  },
  {
   "property": "C51",
   "status": "proved",
   "theorems": [
    "C51_restarts"
   ],
   "note": ""
  },
  {
   "property": "C52",
   "status": "partial",
   "theorems": [
    "C52_refuted",
    "C52_partial",
    "C52_failures"
   ],
   "note": "False: self.model is replaced before optimisation. Proved: the previous regression is kept for failures before the optimisation and replaced by what the optimisation left for the others; the score and the canonical form remain those of the previous fit in every case."
  },
  {
   "property": "C53",
   "status": "proved",
   "theorems": [
    "C53_bessel_difference"
   ],
   "note": ""
  },
  {
   "property": "C54",
   "status": "partial",
   "theorems": [
    "C54_refuted",
    "C54_change_free_partial",
    "C54_operands_partial",
    "C54_operand_gradients",
    "C54_assign"
   ],
   "note": "False for expressions with a change operator: ChangeKernelBase links copies of its operands and computes with the originals, so assigned (fitted) values of the operands' parameters do not reach the covariance and their gradients are never written. Proved: it holds without change operators; with them the covariance is that of the listed values except that operands' parameters keep their construction values; any array can be assigned and is listed. Rests on stated assumptions about GPy and paramz (copy, linking)."
  },
  {
   "property": "C55",
   "status": "partial",
   "theorems": [
    "C55_refuted",
    "C55_partial"
   ],
   "note": "False of the location (also slope, width) of a change operator; proved for all kernels and all other parameters, the operands' parameters included (the covariance does not depend on them and their gradient stays 0)."
  },
  {
   "property": "C56",
   "status": "proved",
   "theorems": [
    "C56_point",
    "C56_window"
   ],
   "note": "For arbitrary kernels inside (anything that computes matrices), with the explicit distance 2*slope/eps."
  },
  {
   "property": "C57",
   "status": "partial",
   "theorems": [
    "C57_refuted",
    "C57_location_refuted",
    "C57_regions_partial",
    "C57_covariance_partial",
    "C57_gradients_partial",
    "C57_own_partial"
   ],
   "note": "False: the sides become independent of each other, even without a shift (C57_refuted), and the gradients of location, slope and width leave out the sides (C57_location_refuted, C57_own_partial). Proved: what the covariances are in each region, positive semidefiniteness (also of the three-kernel window), the gradients of the inner kernels and of the shift."
  },
  {
   "property": "C58",
   "status": "proved",
   "theorems": [
    "C58_complete",
    "C58_groups"
   ],
   "note": "For any rule list with plus_base, times_base, replace_base, replace_with_singleton and either the two LIN change rules or change_same; simplified means a normal form whose root has several terms or is the sum of one base."
  },
  {
   "property": "C59",
   "status": "proved",
   "theorems": [
    "C59_expand_respects_eq",
    "C59_groups"
   ],
   "note": ""
  },
  {
   "property": "C60",
   "status": "proved",
   "theorems": [
    "C60_only_reachable",
    "C60_all_reachable",
    "C60_finds"
   ],
   "note": "The fitter is external: assumed to return one new model per expression (and, in C60_finds, not to raise)."
  },
  {
   "property": "C61",
   "status": "proved",
   "theorems": [
    "C61_expand",
    "C61_search"
   ],
   "note": ""
  },
  {
   "property": "C62",
   "status": "proved",
   "theorems": [
    "C62_same_outcome",
    "C62_any_rules",
    "C62_ties_matter"
   ],
   "note": "Fitters are external: each is assumed to return one new model per expression, in order (C28 shows that of the process pool). Both runs are assumed to return."
  },
  {
   "property": "C63",
   "status": "partial",
   "theorems": [
    "C63_refuted",
    "C63_total",
    "C63_best",
    "C63_ordered",
    "C63_quantiles_noise",
    "C63_quantiles_partial"
   ],
   "note": "False of the quantiles if include_likelihood is False: they still include the noise (C63_refuted, C63_quantiles_noise). The rest is proved. GPy's formulas for exact inference and prediction are modelled from its documentation; norm.ppf is assumed to be the normal quantile function at the two levels."
  },
  {
   "property": "C64",
   "status": "partial",
   "theorems": [
    "C64_refuted",
    "C64_polynomial",
    "C64_partial"
   ],
   "note": "Proved for lengthscales for which the code uses the Bessel function or the cosine. For shorter ones it uses a polynomial approximation; C64_polynomial gives the mean, which is not 0 (C64_refuted: lengthscale 1/2)."
  },
  {
   "property": "C65",
   "status": "proved",
   "theorems": [
    "C65_count",
    "C65_equal",
    "C65_simplify",
    "C65_score",
    "C65_operations"
   ],
   "note": "That GPy's _size_transformed counts the linked parameters of the kernel and the noise variance is assumed."
  },
  {
   "property": "C66",
   "status": "partial",
   "theorems": [
    "C66_inputs_refuted",
    "C66_origin_refuted",
    "C66_outputs",
    "C66_origin",
    "C66_inputs_partial",
    "C66_likelihood_partial",
    "C66_ranking_partial"
   ],
   "note": "False for rescaled inputs of expressions with change points or windows, whose slope is fixed in units of the input (C66_inputs_refuted), and for another origin without the horizontal offset of LIN (C66_origin_refuted). True for other units of the outputs, for another origin with the offset (the default), and for rescaled inputs without changes. Optimal parameters are in the sense of the least upper bound of the likelihoods; what GPy's optimiser finds is not modelled."
  },
  {
   "property": "C67",
   "status": "proved",
   "theorems": [
    "C67_add",
    "C67_change",
    "C67_multiply",
    "C67_noise",
    "C67_add_likelihood",
    "C67_multiply_likelihood",
    "C67_change_likelihood",
    "C67_simplify_likelihood"
   ],
   "note": "Expressible covariance functions of kernels with free parameters; limits are of the covariance matrices on each finite data set. The likelihood is that of exact inference with a free noise variance; best means least upper bound. The theorems about products are for LIN with its horizontal offset (the default)."
  },
  {
   "property": "C68",
   "status": "proved",
   "theorems": [
    "C68_component",
    "C68_model"
   ],
   "note": "For every number format. Which intervals they are is C36/C37; when describing succeeds is C34."
  },
  {
   "property": "C69",
   "status": "partial",
   "theorems": [
    "C69_refuted",
    "C69_partial",
    "C69_two_ends"
   ],
   "note": "False: the test of the option is inverted for intervals with two ends, so their fitted slopes are not printed (and fixed ones are). Proved: the slopes are in the description for intervals with one end, and the description does not depend on those of intervals with two ends."
  },
  {
   "property": "C70",
   "status": "proved",
   "theorems": [
    "C70_rejects",
    "C70_covariance",
    "C70_variance_gradient",
    "C70_variance_gradient_diag",
    "C70_input_gradient",
    "C70_sensitivity"
   ],
   "note": "Arrays as functions of indices with numpy's broadcasting rules; inputs have as many columns as the kernel has dimensions. The psi statistics are not modelled."
  },
  {
   "property": "C71",
   "status": "partial",
   "theorems": [
    "C71_refuted",
    "C71_partial"
   ],
   "note": "False: zeros are returned, while the mixed derivative is the variance. The zeros are the second derivatives with respect to two coordinates of the second input."
  },
  {
   "property": "C72",
   "status": "partial",
   "theorems": [
    "C72_refuted",
    "C72_last_round_partial",
    "C72_exhaustive_partial"
   ],
   "note": "False: with two rounds, beam 2 can end with a worse best model than beam 1 (default rules). Proved when only the last round is wider (so for one round), and when the second search's beam is never exceeded."
  },
  {
   "property": "C73",
   "status": "proved",
   "theorems": [
    "C73_default_size",
    "C73_size",
    "C73_doubling",
    "C73_count",
    "C73_search_default",
    "C73_search"
   ],
   "note": "Sizes and numbers of expansions, and of the models of a search; C73_doubling shows that the groups with the duplicating rule have no bound better than exponential on the size. Beams are assumed non-negative."
  },
  {
   "property": "C74",
   "status": "proved",
   "theorems": [
    "C74_upper",
    "C74_groups",
    "C74_lower_default",
    "C74_lower",
    "C74_search_default",
    "C74_search"
   ],
   "note": "The step count of the construction of C58; the number of models a search can have after r rounds whatever its beam (at most the start kernels times the r-th power of one more than the expansions of the largest expression), which a beam must reach for the search to be exhaustive (C60)."
  },
  {
   "property": "C75",
   "status": "proved",
   "theorems": [
    "C75_raises",
    "C75_returns",
    "C75_unscored"
   ],
   "note": "Without printing (the printing search is C48). Fitting (pool, GPy) and utilities are parameters; the rules of a search are the modelled ones. C75_unscored: continuing from at least two models, one of them never scored, always raises TypeError."
  },
  {
   "property": "C76",
   "status": "proved",
   "theorems": [
    "C76_from_base",
    "C76_exactly",
    "C76_stays",
    "C76_finds",
    "C76_misses"
   ],
   "note": "The construction of C58 with other moves for what the missing rules did (a sum or product is collapsed by exchanging its terms for WN); the converse by an invariant of the expansions, the number of change operators. Start expressions of C76_exactly are simplified, non-empty and over the base set; base sets without WN are not covered."
  },
  {
   "property": "C77",
   "status": "proved",
   "theorems": [
    "C77_counts",
    "C77_equal",
    "C77_removable",
    "C77_singleton"
   ],
   "note": "On expressions with well-formed Counters (all expressions made by the API, C11)."
  },
  {
   "property": "C78",
   "status": "partial",
   "theorems": [
    "C78_refuted",
    "C78_exactly",
    "C78_truncated",
    "C78_changepoint",
    "C78_changewindow",
    "C78_inputs"
   ],
   "note": "False: np.vectorize takes the type of all results from the first one, so if that is an int later float values are cut off to whole numbers (witness: an int-valued function before the change, a float-valued one after). The statement holds exactly if the first value is a float or all values are whole. Floats are rationals here (no rounding); the noise is an arbitrary list. Columns of inputs only."
  },
  {
   "property": "C79",
   "status": "partial",
   "theorems": [
    "C79_refuted",
    "C79_partial"
   ],
   "note": "False: the columns selected are range(n)[1:] while the curves are in columns 1..n, so the last curve is never drawn. Proved: exactly the last is left out."
  },
  {
   "property": "C80",
   "status": "proved",
   "theorems": [
    "C80_total",
    "C80_best",
    "C80_quantiles",
    "C80_additive"
   ],
   "note": "GPy's formulas for exact inference and prediction are modelled from its documentation; norm.ppf is assumed to be the normal quantile function at the two levels. If include_likelihood is False the quantiles still include the noise, as in C63_refuted."
  },
  {
   "property": "C81",
   "status": "proved",
   "theorems": [
    "C81_rules",
    "C81_expansion"
   ],
   "note": "The documented rewritings are written as a relation between a node and its replacement that does not use the rule functions; C81_rules is per node, C81_expansion for whole expansions, the place written to being that of C17. Group All, Default, Original_ABCD and Minimal."
  },
  {
   "property": "C82",
   "status": "partial",
   "theorems": [
    "C82_refuted",
    "C82_rows",
    "C82_all_partial",
    "C82_raises",
    "C82_merge"
   ],
   "note": "False: functions whose runs after the first took no measurable time are left out (the comprehension tests ratios for truth). C82_rows says what is returned in general, C82_raises what is raised; complete if all times are positive. Merging: for positive times and different means."
  },
  {
   "property": "C83",
   "status": "proved",
   "theorems": [
    "C83_exactly"
   ],
   "note": "Stated as an equivalence with C12. The sigmoid base kernels, which only occur in sum-of-products forms, are excluded."
  },
  {
   "property": "C84",
   "status": "proved",
   "theorems": [
    "C84_result",
    "C84_columns",
    "C84_refused"
   ],
   "note": "GPy's regression and optimisation are arbitrary functions with side effects. Arrays are a shape and the elements in row-major order."
  }
 ]
}

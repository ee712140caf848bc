# Design of the GPy-ABCD model in Rocq

Source: `/repo` (python, read as text, never run). Prover: Coq 8.16.1. Standard library; Coquelicot only inside proofs about
derivatives and integrals (it adds no axioms of its own).

## Method

The code is modelled by total, computable Gallina functions that mirror the python functions branch by branch
(`rocq/theories/*Model.v`, each definition citing file and lines). Properties are stated against small specifications
(`*Spec.v`) that do not use the model's own helpers, and proved by induction over expressions, lists, histories or schedules
(`*Proofs.v` and others). The theorems that count are in `*Props.v`, which contain nothing but theorems (each `exact` a lemma),
`Print Assumptions`, and examples showing that hypotheses can be met. `*Wit.v` hold witnesses.

* Exceptions are values (`Py.res`: `Ok` or `Raise e`; messages are not modelled).
* python `Counter` = ordered association list with integer counts; dictionaries = association lists in insertion order; python sets
  (`base_kerns_for_prod`) = a list in an arbitrary order, over which the theorems quantify.
* Expression trees: `KexModel`/`OpsModel` work on plain trees. `HeapModel` has objects with identities, `root`/`parent` pointers, in-place
  updates and `deepcopy`; C19 shows that the two agree (see below).
* External code (GPy fitting, optimisers, log-likelihoods, scipy's Bessel functions, number formatting, the process pool) enters as universally
  quantified functions (section variables discharged into the theorems), never as axioms.
* Floats: comparison-only utilities use rationals `Q`; kernels, parameters and descriptions use the reals `R` of the standard library.
  Rounding, NaN, infinities and overflow are not modelled.
* Recursion without a structural argument takes a recursion limit; theorems say "for every sufficient limit" (`HeapSpec.evaluates`) or the
  limit is shown to suffice (`OpsModel.standardise`, `UtilModel.foldq`).

Naming: `Cnn_…` proves the property or a self-contained part of it; `Cnn_…_partial` proves it under hypotheses that exclude real cases (the
comment above it says which); `Cnn_…_refuted` proves that the property is false of the model, with a witness. `MANIFEST.json` gives the status of
each property; a property that is false of the code is listed as partial, with its refutation and what remains true.

## What is modelled, file by file

| /repo/GPy_ABCD | modelled | model | not modelled |
|---|---|---|---|
| KernelExpressions/base.py | constructor fields, is_root, set_parent, _initialise, new_tree_with_self_replaced, to_kernel_unrefined, bs, _new_parameters, get_interpretation | KexModel, HeapModel, StrModel, ParModel | `_check_all_parents` (only an assertion helper) |
| KernelExpressions/commutative_base.py | all methods | KexModel, HeapModel, StrModel, SemModel, ParModel | |
| KernelExpressions/commutatives.py | all methods | KexModel, SemModel, StrModel, ParModel | |
| KernelExpressions/change.py | all methods | KexModel, HeapModel, StrModel, SemModel, ParModel | |
| KernelExpansion/kernelExpressionOperations.py | all functions | OpsModel, HeapModel | |
| KernelExpansion/grammar.py | standardise_singleton_root, roots, expand, expand_node, deep_apply, all rules and rule groups, start kernels, make_simple_kexs | OpsModel, HeapModel | |
| KernelExpansion/kernelInterpretation.py | all functions | IvModel | the digits printed by `{:.2f}` (an arbitrary function) |
| KernelExpansion/kernelOperations.py | base_str_to_ker, the parameter name tables, get_param_dict, fit_ker_to_kex_with_params, init_rand_params | SemModel, ParModel, ParInitModel | remove_top_level_variance (unused) |
| Kernels/baseKernels.py | kernel names, default kernels and their initial values, stationarity, order | KexModel, SemModel, ObjModel | |
| Kernels/sigmoidalKernels.py | `_phi`, gradients of both sigmoids | KernModel | constructors' bookkeeping |
| Kernels/linearKernel.py | constructor, K, Kdiag, update_gradients_full, update_gradients_diag, gradients_X, gradients_X_diag, gradients_XX, input_sensitivity | LinModel (any dimension), KernModel (one dimension) | psi statistics, (de)serialisation |
| Kernels/linearOffsetKernel.py | K, Kdiag, gradients | KernModel | gradients_X, psi statistics, (de)serialisation |
| Kernels/periodicKernel.py | Bessel approximations, K, Kdiag, gradients | KernModel | commented-out variants, (de)serialisation |
| Kernels/changeOperators.py | change point, change window (constructors, linking, K, Kdiag, update_gradients_full) | KernModel, ObjModel | the two unused window variants |
| Kernels/changeWindowShiftedSides.py | parameters_changed, K, Kdiag, update_gradients_full | CwModel | the constructor's linking, update_gradients_diag |
| Kernels/changeWindowThreePart.py | K, Kdiag | CwModel | gradients (they replace parameters by bounded ones) |
| Models/model.py | constructor, fit, sum_of_prods_kex, interpret, predict, compute_utility, _k | GpModel, SearchModel, PredModel, CountModel | plotting |
| Models/modelSearch.py | all functions | SearchModel | text that is printed |
| Util/genericUtil.py | foldq, foldq_, partition, group_by, first, topological_sort, flatten, unzip, unique, eq_elems, diff, chunk, update_dict_with, interval_overlap | UtilModel | the one-line wrappers on, on_m, on_a, fst, snd, `*_h` |
| Util/modelUtil.py | BIC, AIC, AICc, LA_LOO, fit_kex | DataModel, PredModel, FitModel | fit_GPy_kern, printing |
| Util/dataAndPlottingUtil.py | cp_f_maker, cw_f_maker; generate_data, generate_changepoint_data, generate_changewindow_data, gg_f_plot's points | DataModel, VecModel | the distribution of the noise (an argument), plotting |
| Util/kernelUtil.py | sortOutTypePair; which curves sampleCurves draws | OpsModel, VecModel | sampling and plotting |
| config.py | USE_LIN_KERNEL_HORIZONTAL_OFFSET is a parameter (`offset`) of the models; the other flags have their shipped values (INCLUDE_SE false, NON_PURE_PER false, FIX_SIGMOIDAL_SLOPE true, INDEPENDENT_SIDES_CW false) unless a definition says otherwise | | |
| Util/benchmarking.py | timethis, compare_implementations, merge_bench_tables | BenchModel | numba_comparisons (which compiles with numba), printing and waiting |
| Util/numba_types.py, showcaseAllKernels.py | - | - | type abbreviations; plots |

Assumptions about external libraries, built into definitions rather than stated as axioms:

* GPy: `Add` and `Prod` kernels flatten nested parts of their own kind, evaluate to the sum and product of their parts' matrices, and pass
  `dL_dK` resp. `dL_dK * (K of the other parts)` on to them; White, Bias and RBF have their documented covariances and gradients
  (`KernModel`: white_kernel, bias_kernel, rbf_kernel, add_kernel, prod_kernel).
* GPy `BasisFuncKernel`: K = variance * phi(X) phi(X2)^T, Kdiag its diagonal.
* GPy exact inference: after fitting, woodbury_inv is the inverse of K(X) + s I (s the noise variance and jitter) and woodbury_vector is
  woodbury_inv Y; predict, predict_quantiles and LOO are the formulas in `PredModel`; `log_likelihood()` is the log-density of Y under that covariance (`UnitSpec`).  The mean is 0 (GPRegression's default).
* paramz: parameters are listed in link order; of several parts with the same name the k-th (k > 1) gets the suffix `_{k-1}`; the model's prefix is
  `GP_regression.` (`ParModel`).
* GPy and paramz objects (`ObjModel`): `kern.copy()` is an independent deep copy, `CombinationKernel.__init__` links the kernels it is given, `Add`
  and `Prod` link copies of their operands and compute with them, setting a parameter array sets the listed (linked) parameters and nothing else,
  assigning a kernel to an attribute does not link it, caching of K does not change results.
* python: `sorted` and `list.sort` are stable, `list.remove` removes the first equal element, `Counter` keeps insertion order and its `+`, `-` and
  unary `+` drop non-positive counts, `copy.deepcopy` copies each reachable object once, dictionary order is insertion order.
* numpy: `np.vectorize` without otypes gives all results the type of the first one (float values become ints by truncation towards 0) and raises
  ValueError for empty input; an array of ints and floats is an array of floats. pandas: `melt` keeps the order of value_vars (`VecModel`).
* multiprocessing: `Pool.map` splits the tasks into chunks, completes them in any order, and returns the results in task order (C28).
* The part of python's grammar needed to read `repr` and `str` output back is specified in `PySpec.v`.

## Per property

| id | model | proof |
|----|-------|-------|
| C01 | `keq` mirrors `__eq__`/`eq_elems` (greedy removal, swapped arguments) | spec = inductive "equal up to reordering"; induction on trees |
| C02 | `simplify`; denotation of expressions as sets of real covariance functions (SemSpec) | induction; refutations LIN + C -> LIN and the empty product; in the LIN + C case, the result's covariance functions are limits of the original's (SemLimSpec) |
| C03 | constructors | refutation by computation; exactly the products in which everything is C, some of it in a product given as a composite |
| C04, C05 | `simplify`, constructors | normal-form invariant through constructor histories; refutation of one-pass idempotence |
| C06 | `simplify` | invariant on every node |
| C07-C09 | `add`, `multiply`, `swap_base`, `remove_a_term` | equality of covariance families; multiset specifications; refutation for swapping a base with itself |
| C10-C12 | `traverse`, `reduce`, `contains_base`, `is_stationary` | induction over addresses; stationarity against the denotation |
| C13, C14 | strings; lexer and grammar of the needed part of python | unique readability; evaluation of the reading gives the expression back / the same covariances |
| C15-C18 | `expand`, production rules, `standardise_singleton_root` | lists without duplicates; permutation invariance; addresses of replaced nodes; refutations for left string branches and for normal forms |
| C19 | heap of objects with pointers, deepcopy, in-place updates | separation: each result occupies new objects of its own; simulation of the tree model |
| C20 | `make_simple_kexs`, start kernels | case analysis |
| C21-C26, C48-C50 | search loop with an arbitrary fitter, utility and printer, state passed explicitly | invariants by induction on rounds |
| C27, C28 | retry loop over an outcome stream, pool with arbitrary completion order | induction on the stream / permutation of chunks |
| C29, C51, C52 | `GPModel` as a state machine over call histories | invariants; refutations |
| C30 | `to_kernel`, fixed variances | families of covariance functions with and without the removed variances |
| C31-C34 | parameter names, `match_up_fit_parameters`, `sum_of_prods_form`, descriptions | the assignment is the inverse of listing; shape by distributing; covariance of the canonical form; exact success condition |
| C35-C37 | interval reduction and text | pointwise semantics of intervals; refutations; exact condition on the types of sigmoids, by case analysis on the results of each pair and, conversely, parameters that fail for each of the other orders |
| C38, C39, C42, C53 | sigmoids, periodic kernel over R | real analysis; Bessel functions as integrals/series |
| C40 | gradients of all kernels | Coquelicot derivatives of `sum dL_dK * K`; refutations |
| C41 | K of all kernels and expressions | symmetric and positive semidefinite for all data sets |
| C43 | scores | direct |
| C44-C46 | generic utilities | induction |
| C47 | data generators | continuity |
| C54 | kernel objects with linked and unlinked parts, assignment, stored gradients | invariant over optimisation runs; refutation for change operators |
| C55 | the gradients those objects store | Coquelicot derivatives through sums, products and changes; refutation for the location |
| C56 | change point and change window over arbitrary kernels | bounds on the sigmoids away from the change, with rate |
| C57 | the independent-sides window | the same bounds with three weights; sums of Schur products; Coquelicot derivatives; refutations |
| C58 | expand with the built-in rules, iterated | a derivation for every target: contexts, growth of sums, products and change operators, replacement of seeds |
| C59 | expand on reordered expressions | corresponding addresses; each operation is a congruence |
| C60 | explore_model_space and its loop | invariants of the loop: tried = reachable; C58 and C59 for the last part |
| C61 | expand, explore_model_space | occurrences through every operation, simplify and standardise |
| C62 | two runs of explore_model_space | relational invariant over the two loops; sorted lists with distinct scores are determined by their multisets; C16 and C59 for the new expressions |
| C63 | predict, over GPy's prediction formulas | completing the square with the normal equations; cross-covariances are blocks of one covariance matrix (C41_cross); the normal distribution function is increasing and symmetric |
| C64 | the periodic kernel's K | sums of cosines over equidistant points vanish; series of exp(z cos); rational bounds on I0(4) and exp(4) for the refutation, which also refutes C41 |
| C65 | to_kernel, the parameters its object lists, _k and the scores | the count of the object is the sum over the tree; simplification: sums over base counts, step by step |
| C66 | kernel objects of expressions (covariance functions over all parameters), the log-density of a regression model, the scores | closure of each family under scaling and shifting, by induction over the tree; determinants and inverses of scaled arrays; refuted by comparing two rational functions |
| C67 | covariance functions of expressions and of kernel objects, add, multiply, changes, the log-density | limits: scaling terms to zero, factors to one (long lengthscales, far offsets), changes moved away; the log-density is continuous in the covariances (determinants by induction, inverses by a Neumann series) |
| C68 | base_factors_interpretation, get_interpretation | the expected text as a relation between parameters and text, independent of sorting by item_order; sorted lists determined by their ranks |
| C69 | postmodifier_interpretation with the slope option off | two components with different slopes and the same text; for the other intervals the phrase is found in the text of C68 |
| C70 | class Linear with and without ARD in any dimension (LinModel) | entries of broadcast operations; entrywise derivatives summed; sums of rank-one matrices are positive semidefinite |
| C71 | gradients_XX | the mixed derivative computed and compared; uniqueness of derivatives |
| C72 | explore_model_space | two runs with the default rules evaluated; a run that tries at least the expressions of another has a best model at least as good |
| C73 | grammar, expression operations, explore_model_space | symbol count under simplify and under each rule; widths of the nodes summed over the expression; induction over the rounds |
| C74 | grammar, explore_model_space | the moves of C58 counted: 3 * symbols - 5 from a seed, by induction over the target; width of a run by induction over the rounds |
| C75 | explore_model_space, model_search_rounds, compute_utility | case analysis of each round; cached scores exist by the search invariant |
| C76 | grammar (minimal rules), explore_model_space | the moves of C58 with costs 4, 5 and 3 for wrapping, changing type and collapsing; any change-free start shrinks to a seed (induction); number of changes as an invariant of simplify, standardise and the rules |
| C77 | term_count, remove_a_term | Counter sums |
| C78 | typed numbers, `np.vectorize`, the three generators | element-wise; exact condition on the types; refutation by an int-then-float change |
| C79 | sampleCurves (column selection) | list reasoning; refutation |
| C80 | `predict` with `kern`, terms of sums of kernels | the covariances of the other terms are positive semidefinite; normal equations; linearity |
| C81 | the rules of the four groups, `expand`, against a relation written from the docstrings | rule by rule; congruence of == under the constructors for the converse |
| C82 | `compare_implementations`, `merge_bench_tables` on lists of rows with rational times | induction over the comprehension with its stored values; refutation by computation; sorted lists with distinct keys are unique |
| C83 | `is_stationary` against the covariance families of C02 | induction: every expression has a member whose variance at 2 is at least that at 1, and larger if there is a LIN or a change; for a change the first member is scaled down |
| C84 | `fit_kex` over the GPModel state machine, with data arrays and keyword arguments | case analysis of the calls; a column is determined by its elements |

Agreement of trees and objects (C19): the plain-tree models (`OpsModel`) describe the code exactly as long as no object occurs twice in a tree.
`C19_sum_or_product`, `C19_change` and `C19_expand` show that no result of the code has such sharing. One intermediate tree does:
when a Sum or Product contains two equal changes, `remove_some_term` at the second one replaces it by its own branch, `list.remove` drops the
first instead, and the tree then contains the branch twice. The proof follows such trees through `standardise_singleton_root` (`HeapMix`,
`HeapSpoil`: a relation in which a normal-form part may occur twice) and shows that each repeats an earlier, clean result (`HeapCover`), so
the final `unique` drops it. This needs the equal changes to be in normal form, which `_initialise` ensures (C04);
`C19_expand_general` states exactly this hypothesis.

## Findings (behaviour of the code that a user would not expect; each is a theorem)

* `ProductKE([], [ProductKE(['C'])])` is an empty product (C03_refuted). LIN + C loses the constant (C02_refuted, C07_refuted).
* One pass of `simplify` can leave a Sum in a Sum (C05_refuted; C05_constructor says for which calls), and `expand` can return such trees
  (C18_refuted); nothing else can be wrong with them (C18_exactly).
* `swap_base` with a base that is already there adds a term (C08_refuted).
* Expanding the left base kernel of a change overwrites the right one (C17_refuted).
* The canonical form is not refreshed by a refit (C29_refuted); a failed fit discards the previous one (C52_refuted).
* WN*LIN terms lose the parameters of LIN; SE*SE gets a wrong lengthscale (C33_refuted, C33_lengthscale_refuted).
* Descriptions raise for nodes with composites only and for some combinations of windows (C34_refuted, C36_refuted and others).
* Gradients: the location of change kernels, the offset of the linear kernel (C40_refuted, C40_offset_refuted and others).
* Change kernels link copies of their operands but compute with the originals: the fitted parameters of the operands have no effect on the
  covariance, and their gradients are never written (C54_refuted, C54_operands_partial, C54_operand_gradients).
* AICc with few data points (C43_refuted); `diff` stops at the first absent element (C46_diff_refuted).
* A wider beam can give a worse best model (C72_refuted).
* Generated change data are cut off to whole numbers if the first value is an int (C78_refuted); `sampleCurves` leaves out the last curve
  (C79_refuted).
* `verbose=True` can raise IndexError (C48_refuted); continuing with another utility mixes scores (C49_refuted); continuing twice from the same
  results does not work (C50_refuted).
* `fit_kex` refuses the keywords verbose, num_restarts and optimizer, although keywords are documented as passed on (C84_refused).
* Benchmark tables leave out functions whose later runs took no measurable time (C82_refuted).

## Testing the theorems

`seeded/LOG.jsonl` records edits of the model (each a realistic bug), made in a scratch copy, with the theorems that no longer prove, and what was
tightened when a theorem survived an edit that makes its claim false.

## Trusted base

* Coq's kernel (8.16.1) and its standard library.
* The axioms listed by `Print Assumptions`, all from the standard library: D = `ClassicalDedekindReals.sig_forall_dec`,
  N = `ClassicalDedekindReals.sig_not_dec`, F = `functional_extensionality_dep`, C = `Classical_Prop.classic`; `-` = closed under the global
  context. D, N and F come with the real numbers; C from parts of the standard library's analysis and Coquelicot.
* The reading of the code described in the comments of the model files, and the assumptions about libraries listed above.

No axioms, `Admitted`, functors or module types are used; no kernel check is switched off.

| property | theorem | file | assumptions |
|---|---|---|---|
| C01 | `C01_eq_is_reordering` | KexProps.v | - |
| C01 | `C01_eq_equivalence` | KexProps.v | - |
| C02 | `C02_refuted` | SemProps.v | DNF |
| C02 | `C02_empty_product_refuted` | SemProps.v | DNF |
| C02 | `C02_limits_refuted` | SemLimitProps.v | DNF |
| C02 | `C02_partial` | SemProps.v | DNF |
| C02 | `C02_change_partial` | SemProps.v | DNF |
| C02 | `C02_initialise_partial` | SemProps.v | DNF |
| C02 | `C02_initialise_no_offset_partial` | SemProps.v | DNF |
| C02 | `C02_limits_partial` | SemLimitProps.v | DNF |
| C02 | `C02_change_limits_partial` | SemLimitProps.v | DNF |
| C02 | `C02_initialise_limits_partial` | SemLimitProps.v | DNF |
| C03 | `C03_refuted` | KexProps.v | - |
| C03 | `C03_exactly` | HollowProps.v | - |
| C03 | `C03_partial` | KexProps.v | - |
| C03 | `C03_change` | KexProps.v | - |
| C03 | `C03_initialise` | KexProps.v | - |
| C04 | `C04_initialise_normal_form` | KexProps.v | - |
| C05 | `C05_refuted` | KexProps.v | - |
| C05 | `C05_partial` | KexProps.v | - |
| C05 | `C05_exactly` | KexIdemProps.v | - |
| C05 | `C05_constructor` | KexIdemProps.v | - |
| C05 | `C05_change` | KexIdemProps.v | - |
| C06 | `C06_cardinality` | KexProps.v | - |
| C07 | `C07_refuted` | SemProps.v | DNF |
| C07 | `C07_add_partial` | SemProps.v | DNF |
| C07 | `C07_multiply` | SemProps.v | DNF |
| C07 | `C07_commutative` | SemProps.v | - |
| C07 | `C07_add_limits_partial` | SemLimitProps.v | DNF |
| C07 | `C07_multiply_limits_partial` | SemLimitProps.v | DNF |
| C08 | `C08_refuted` | OpsProps.v | - |
| C08 | `C08_partial` | OpsProps.v | - |
| C08 | `C08_adds_base` | OpsProps.v | - |
| C08 | `C08_change` | OpsProps.v | - |
| C09 | `C09_remove_one` | OpsProps.v | - |
| C09 | `C09_single_term` | OpsProps.v | - |
| C09 | `C09_change` | OpsProps.v | - |
| C10 | `C10_traverse` | KexProps.v | - |
| C10 | `C10_reduce` | KexProps.v | - |
| C11 | `C11_contains_base` | KexProps.v | - |
| C11 | `C11_wf_of_built` | KexProps.v | - |
| C12 | `C12_stationary` | SemProps.v | DNF |
| C13 | `C13_round_trip` | StrProps.v | - |
| C14 | `C14_str` | StrProps.v | DNF |
| C14 | `C14_unrefined` | StrProps.v | DNF |
| C14 | `C14_unambiguous` | StrProps.v | - |
| C15 | `C15_expand_different` | OpsProps.v | - |
| C16 | `C16_order_independent` | OpsProps.v | - |
| C17 | `C17_refuted` | OpsProps.v | - |
| C17 | `C17_partial` | OpsProps.v | - |
| C17 | `C17_actual` | OpsProps.v | - |
| C17 | `C17_builtin_rules` | OpsProps.v | - |
| C18 | `C18_refuted` | OpsProps.v | - |
| C18 | `C18_partial` | OpsProps.v | - |
| C18 | `C18_own_kind_partial` | KexIdemProps.v | - |
| C18 | `C18_exactly` | KexIdemProps.v | - |
| C19 | `C19_expand` | HeapProps.v | - |
| C19 | `C19_expand_initialised` | HeapProps.v | - |
| C19 | `C19_expand_general` | HeapProps.v | - |
| C19 | `C19_sum_or_product` | HeapProps.v | - |
| C19 | `C19_change` | HeapProps.v | - |
| C19 | `C19_initialise` | HeapProps.v | - |
| C20 | `C20_accepts` | OpsProps.v | - |
| C20 | `C20_rejects` | OpsProps.v | - |
| C20 | `C20_normal` | OpsProps.v | - |
| C20 | `C20_start_default` | OpsProps.v | - |
| C20 | `C20_start_extended` | OpsProps.v | - |
| C20 | `C20_start_original` | OpsProps.v | - |
| C21 | `C21_ranked` | SearchProps.v | - |
| C21 | `C22_continued` | SearchProps.v | - |
| C22 | `C22_partition` | SearchProps.v | - |
| C22 | `C22_continued` | SearchProps.v | - |
| C23 | `C23_no_repeats` | SearchProps.v | - |
| C24 | `C24_continue` | SearchProps.v | - |
| C24 | `C24_continue_rounds` | SearchProps.v | - |
| C25 | `C25_best_improves` | SearchProps.v | - |
| C26 | `C26_beam_values` | SearchProps.v | - |
| C26 | `C26_rounds` | SearchProps.v | - |
| C26 | `C26_type_error` | SearchProps.v | - |
| C26 | `C26_empty_list` | SearchProps.v | - |
| C27 | `C27_retries` | SearchProps.v | - |
| C27 | `C27_list` | SearchProps.v | - |
| C28 | `C28_parallel` | SearchProps.v | - |
| C29 | `C29_refuted` | GpProps.v | - |
| C29 | `C29_unfitted` | GpProps.v | - |
| C29 | `C29_partial` | GpProps.v | - |
| C29 | `C29_later_partial` | GpProps.v | - |
| C29 | `C29_latest_partial` | GpProps.v | - |
| C30 | `C30_expressiveness` | SemProps.v | DNF |
| C30 | `C30_one_variance` | SemProps.v | - |
| C31 | `C31_assigned` | ParProps.v | D |
| C31 | `C31_instance` | ParProps.v | DNF |
| C31 | `C31_random` | ParInitProps.v | D |
| C32 | `C32_sum_of_products` | ParProps.v | DNF |
| C33 | `C33_refuted` | ParProps.v | DNF |
| C33 | `C33_lengthscale_refuted` | ParProps.v | DNFC |
| C33 | `C33_partial` | ParProps.v | DNF |
| C33 | `C33_different` | ParOffProps.v | DNF |
| C34 | `C34_refuted` | ParProps.v | DNF |
| C34 | `C34_windows_refuted` | ParProps.v | DNF |
| C34 | `C34_exactly` | ParProps.v | DNF |
| C34 | `C34_canonical_partial` | ParProps.v | DNF |
| C34 | `C34_windowless_partial` | ParProps.v | DNF |
| C34 | `C34_partial` | ParProps.v | DNF |
| C34 | `C34_few_windows_partial` | ParProps.v | DNF |
| C35 | `C35_intervals` | IvProps.v | DF |
| C35 | `C35_reported` | IvProps.v | DF |
| C36 | `C36_refuted` | IvProps.v | DF |
| C36 | `C36_windows_refuted` | IvProps.v | DF |
| C36 | `C36_none_refuted` | IvProps.v | DF |
| C36 | `C36_description_refuted` | IvProps.v | DF |
| C36 | `C36_partial` | IvProps.v | DF |
| C36 | `C36_lines_partial` | IvProps.v | DF |
| C36 | `C36_exactly` | IvProps.v | DF |
| C36 | `C36_exactly_described` | IvProps.v | DF |
| C37 | `C37_no_valueerror` | IvProps.v | DF |
| C37 | `C37_described` | IvProps.v | DF |
| C38 | `C38_sigmoid` | KernProps.v | DNFC |
| C39 | `C39_window` | KernProps.v | DF |
| C40 | `C40_refuted` | KernProps.v | DNFC |
| C40 | `C40_offset_refuted` | KernProps.v | DNFC |
| C40 | `C40_lengthscale_refuted` | KernProps.v | DNF |
| C40 | `C40_other_refuted` | KernProps.v | DF |
| C40 | `C40_linear_partial` | KernProps.v | DNFC |
| C40 | `C40_sigmoid_partial` | KernProps.v | DNFC |
| C40 | `C40_window_partial` | KernProps.v | DNFC |
| C40 | `C40_change_partial` | KernProps.v | DNFC |
| C40 | `C40_plain_linear_partial` | KernProps.v | DNFC |
| C40 | `C40_periodic_partial` | KernProps.v | DNFC |
| C40 | `C40_lengthscale_partial` | KernProps.v | DNFC |
| C40 | `C40_square_partial` | KernProps.v | DNFC |
| C40 | `C40_own_partial` | CwProps.v | DNFC |
| C41 | `C41_refuted` | PerProps.v | DNF |
| C41 | `C41_covariance` | KernProps.v | DNF |
| C41 | `C41_periodic_exact` | PerProps.v | DNF |
| C41 | `C41_periodic_conditional` | KernProps.v | DNF |
| C41 | `C41_expressions` | SemProps.v | DNF |
| C41 | `C41_cross` | PredProps.v | DNF |
| C42 | `C42_periodic` | KernProps.v | DNF |
| C43 | `C43_refuted` | DataProps.v | DF |
| C43 | `C43_parameters_refuted` | DataProps.v | DF |
| C43 | `C43_LOO_refuted` | PredProps.v | DNFC |
| C43 | `C43_likelihood` | DataProps.v | DNFC |
| C43 | `C43_parameters_partial` | DataProps.v | DNFC |
| C43 | `C43_partial` | DataProps.v | DF |
| C43 | `C43_LOO` | PredProps.v | DNFC |
| C43 | `C43_LOO_mean` | PredProps.v | DNFC |
| C44 | `C44_topological_sort_correct` | UtilProps.v | - |
| C45 | `C45_partition` | UtilProps.v | - |
| C45 | `C45_unique` | UtilProps.v | - |
| C45 | `C45_eq_elems` | UtilProps.v | - |
| C45 | `C45_chunk` | UtilProps.v | - |
| C45 | `C45_group_by` | UtilProps.v | - |
| C45 | `C45_update_dict_with` | UtilProps.v | - |
| C45 | `C45_interval_overlap` | UtilProps.v | - |
| C46 | `C46_diff_refuted` | UtilProps.v | - |
| C46 | `C46_diff_partial` | UtilProps.v | - |
| C46 | `C46_diff_exactly` | MixProps.v | - |
| C46 | `C46_diff_removes` | MixProps.v | - |
| C47 | `C47_continuous` | DataProps.v | DF |
| C47 | `C47_values` | DataProps.v | DF |
| C47 | `C47_window_values` | DataProps.v | DF |
| C48 | `C48_refuted` | SearchProps.v | - |
| C48 | `C48_partial` | SearchProps.v | - |
| C48 | `C48_exact_partial` | VerbProps.v | - |
| C48 | `C48_no_rounds` | VerbProps.v | - |
| C49 | `C49_refuted` | SearchProps.v | - |
| C49 | `C49_partial` | SearchProps.v | - |
| C49 | `C49_mixed` | MixProps.v | - |
| C50 | `C50_refuted` | SearchProps.v | - |
| C50 | `C50_partial` | SearchProps.v | - |
| C51 | `C51_restarts` | GpProps.v | - |
| C52 | `C52_refuted` | GpProps.v | - |
| C52 | `C52_partial` | GpProps.v | - |
| C52 | `C52_failures` | GpFailProps.v | - |
| C53 | `C53_bessel_difference` | KernProps.v | DNF |
| C54 | `C54_refuted` | ObjProps.v | DNF |
| C54 | `C54_change_free_partial` | ObjProps.v | DNF |
| C54 | `C54_operands_partial` | ObjProps.v | DNF |
| C54 | `C54_operand_gradients` | ObjProps.v | DNF |
| C54 | `C54_assign` | ObjProps.v | DNF |
| C55 | `C55_refuted` | ObjGradProps.v | DNFC |
| C55 | `C55_partial` | ObjGradProps.v | DNFC |
| C56 | `C56_point` | CwProps.v | DF |
| C56 | `C56_window` | CwProps.v | DF |
| C57 | `C57_refuted` | CwProps.v | DF |
| C57 | `C57_location_refuted` | CwProps.v | DNFC |
| C57 | `C57_regions_partial` | CwProps.v | DF |
| C57 | `C57_covariance_partial` | CwProps.v | DF |
| C57 | `C57_gradients_partial` | CwProps.v | DNFC |
| C57 | `C57_own_partial` | CwProps.v | DNFC |
| C58 | `C58_complete` | ReachProps.v | - |
| C58 | `C58_groups` | ReachProps.v | - |
| C59 | `C59_expand_respects_eq` | ReachProps.v | - |
| C59 | `C59_groups` | ReachProps.v | - |
| C60 | `C60_only_reachable` | ReachProps.v | - |
| C60 | `C60_all_reachable` | ReachProps.v | - |
| C60 | `C60_finds` | ReachProps.v | - |
| C61 | `C61_expand` | ReachProps.v | - |
| C61 | `C61_search` | ReachProps.v | - |
| C62 | `C62_same_outcome` | RunProps.v | - |
| C62 | `C62_any_rules` | RunProps.v | - |
| C62 | `C62_ties_matter` | RunProps.v | - |
| C63 | `C63_refuted` | PredProps.v | DNFC |
| C63 | `C63_total` | PredProps.v | DNF |
| C63 | `C63_best` | PredProps.v | DNF |
| C63 | `C63_ordered` | PredProps.v | DNFC |
| C63 | `C63_quantiles_noise` | PredProps.v | DNF |
| C63 | `C63_quantiles_partial` | PredProps.v | DNF |
| C64 | `C64_refuted` | PerProps.v | DNF |
| C64 | `C64_polynomial` | PerProps.v | DNF |
| C64 | `C64_partial` | PerProps.v | DNF |
| C65 | `C65_count` | CountProps.v | DNF |
| C65 | `C65_equal` | CountProps.v | DNF |
| C65 | `C65_simplify` | CountProps.v | DNF |
| C65 | `C65_score` | CountProps.v | DNFC |
| C65 | `C65_operations` | CountProps.v | DNF |
| C66 | `C66_inputs_refuted` | UnitProps.v | DNF |
| C66 | `C66_origin_refuted` | UnitProps.v | DNF |
| C66 | `C66_outputs` | UnitProps.v | DNF |
| C66 | `C66_origin` | UnitProps.v | DNF |
| C66 | `C66_inputs_partial` | UnitProps.v | DNF |
| C66 | `C66_likelihood_partial` | UnitProps.v | DNFC |
| C66 | `C66_ranking_partial` | UnitProps.v | DNFC |
| C67 | `C67_add` | GrowProps.v | DNF |
| C67 | `C67_change` | GrowProps.v | DNF |
| C67 | `C67_multiply` | GrowProps.v | DNFC |
| C67 | `C67_noise` | GrowProps.v | DNF |
| C67 | `C67_add_likelihood` | GrowProps.v | DNFC |
| C67 | `C67_multiply_likelihood` | GrowProps.v | DNFC |
| C67 | `C67_change_likelihood` | GrowProps.v | DNFC |
| C67 | `C67_simplify_likelihood` | GrowProps.v | DNFC |
| C68 | `C68_component` | TextProps.v | DF |
| C68 | `C68_model` | TextProps.v | DNF |
| C69 | `C69_refuted` | TextProps.v | DF |
| C69 | `C69_partial` | TextProps.v | DF |
| C69 | `C69_two_ends` | TextSlopeProps.v | DF |
| C70 | `C70_rejects` | LinProps.v | D |
| C70 | `C70_covariance` | LinProps.v | DNF |
| C70 | `C70_variance_gradient` | LinProps.v | DNFC |
| C70 | `C70_variance_gradient_diag` | LinProps.v | DNFC |
| C70 | `C70_input_gradient` | LinProps.v | DNFC |
| C70 | `C70_sensitivity` | LinProps.v | DF |
| C71 | `C71_refuted` | LinProps.v | DNFC |
| C71 | `C71_partial` | LinProps.v | DNFC |
| C72 | `C72_refuted` | BeamProps.v | - |
| C72 | `C72_last_round_partial` | BeamProps.v | - |
| C72 | `C72_exhaustive_partial` | BeamProps.v | - |
| C73 | `C73_default_size` | CostProps.v | - |
| C73 | `C73_size` | CostProps.v | - |
| C73 | `C73_doubling` | CostProps.v | - |
| C73 | `C73_count` | CostProps.v | - |
| C73 | `C73_search_default` | CostProps.v | - |
| C73 | `C73_search` | CostProps.v | - |
| C74 | `C74_upper` | RoundProps.v | - |
| C74 | `C74_groups` | RoundProps.v | - |
| C74 | `C74_lower_default` | RoundProps.v | - |
| C74 | `C74_lower` | RoundProps.v | - |
| C74 | `C74_search_default` | RoundProps.v | - |
| C74 | `C74_search` | RoundProps.v | - |
| C75 | `C75_raises` | RoundProps.v | - |
| C75 | `C75_returns` | RoundProps.v | - |
| C75 | `C75_unscored` | RoundProps.v | - |
| C76 | `C76_from_base` | MinProps.v | - |
| C76 | `C76_exactly` | MinProps.v | - |
| C76 | `C76_stays` | MinProps.v | - |
| C76 | `C76_finds` | MinProps.v | - |
| C76 | `C76_misses` | MinProps.v | - |
| C77 | `C77_counts` | TermProps.v | - |
| C77 | `C77_equal` | TermProps.v | - |
| C77 | `C77_removable` | TermProps.v | - |
| C77 | `C77_singleton` | TermProps.v | - |
| C78 | `C78_refuted` | VecProps.v | - |
| C78 | `C78_exactly` | VecProps.v | - |
| C78 | `C78_truncated` | VecProps.v | - |
| C78 | `C78_changepoint` | VecProps.v | - |
| C78 | `C78_changewindow` | VecProps.v | - |
| C78 | `C78_inputs` | VecProps.v | - |
| C79 | `C79_refuted` | VecProps.v | - |
| C79 | `C79_partial` | VecProps.v | - |
| C80 | `C80_total` | PredProps.v | DNF |
| C80 | `C80_best` | PredProps.v | DNF |
| C80 | `C80_quantiles` | PredProps.v | DNF |
| C80 | `C80_additive` | PredProps.v | DNF |
| C81 | `C81_rules` | GramProps.v | - |
| C81 | `C81_expansion` | GramProps.v | - |
| C82 | `C82_refuted` | BenchProps.v | - |
| C82 | `C82_rows` | BenchProps.v | - |
| C82 | `C82_all_partial` | BenchProps.v | - |
| C82 | `C82_raises` | BenchProps.v | - |
| C82 | `C82_merge` | BenchProps.v | - |
| C83 | `C83_exactly` | StatProps.v | DNFC |
| C84 | `C84_result` | FitProps.v | - |
| C84 | `C84_columns` | FitProps.v | - |
| C84 | `C84_refused` | FitProps.v | - |

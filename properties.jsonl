{"id": "C01", "title": "Expression equality is equality up to reordering", "statement": "For any two kernel expressions a and b, a == b is true exactly when b can be obtained from a by reordering the base terms and the composite terms of Sum and Product nodes at any depth (Change branches keep their sides). Hence == is reflexive, symmetric and transitive.", "quantifier": "all pairs/triples of kernel expressions of any size and nesting", "why_tests_cant": "The space of nested expressions is infinite; the implementation is a greedy removal matching that recursively calls itself with swapped arguments, and an asymmetric or greedy mismatch would only show on particular nestings.", "anchors": ["GPy_ABCD/KernelExpressions/commutative_base.py:SumOrProductKE.__eq__", "GPy_ABCD/KernelExpressions/change.py:ChangeKE.__eq__", "GPy_ABCD/Util/genericUtil.py:eq_elems"]}
{"id": "C02", "title": "Simplification does not change what covariance functions an expression can express", "statement": "Building or simplifying an expression leaves unchanged the set of covariance functions reachable by choosing its (positive) kernel parameters.", "quantifier": "all expressions of any size, all parameter values, all data sets", "why_tests_cant": "Universally quantified over expressions and over real parameter values; a test only compares finitely many structures and never the families of functions.", "anchors": ["GPy_ABCD/KernelExpressions/commutative_base.py:SumOrProductKE.simplify", "GPy_ABCD/KernelExpressions/commutatives.py:SumKE.simplify_base_terms", "GPy_ABCD/KernelExpressions/commutatives.py:ProductKE.simplify_base_terms", "GPy_ABCD/KernelExpressions/change.py:ChangeKE.simplify"]}
{"id": "C03", "title": "Construction never produces an empty expression", "statement": "If every Sum and Product passed to the constructors has at least one term, the constructed expression has no Sum or Product node without terms (so to_kernel can always be called on it).", "quantifier": "all constructor calls on non-empty terms, any nesting", "why_tests_cant": "Requires checking every nesting of constructors and every interleaving of the absorbing steps.", "anchors": ["GPy_ABCD/KernelExpressions/commutative_base.py:SumOrProductKE.absorb_homogeneous_composites", "GPy_ABCD/KernelExpressions/commutatives.py:ProductKE.simplify_base_terms"]}
{"id": "C04", "title": "_initialise yields a normal form", "statement": "For every expression made with the public constructors, the result of _initialise() is in normal form: no Sum directly inside a Sum, no Product directly inside a Product, no child with a single term, simplified base terms everywhere; and simplifying it again changes nothing.", "quantifier": "all expressions built by any finite nesting of SumKE/ProductKE/ChangeKE constructor calls", "why_tests_cant": "Infinite set of nestings; one pass of simplify is not idempotent, so the claim depends on how passes accumulate along the construction.", "anchors": ["GPy_ABCD/KernelExpressions/base.py:KernelExpression._initialise", "GPy_ABCD/KernelExpressions/commutative_base.py:SumOrProductKE.simplify", "GPy_ABCD/KernelExpressions/commutative_base.py:SumOrProductKE.extract_if_singleton"]}
{"id": "C05", "title": "simplify is idempotent", "statement": "Calling simplify() on any expression produced by a constructor returns an equal expression (a second simplification does nothing).", "quantifier": "all expressions built with the constructors", "why_tests_cant": "Needs a counterexample search or a proof over all nestings.", "anchors": ["GPy_ABCD/KernelExpressions/commutative_base.py:SumOrProductKE.simplify"]}
{"id": "C06", "title": "Simplified base terms obey the algebraic cardinality rules", "statement": "After simplification, at every node: a Sum has at most one WN and at most one C, and no C next to LIN when the offset flag is on; a Product with a WN has exactly one WN and otherwise only LIN and sigmoids as base terms, a Product has at most one SE, and at most one C, which appears only if all its other factors are sigmoids.", "quantifier": "every node of every simplified expression", "why_tests_cant": "Universally quantified over expressions; cardinalities interact with absorption order.", "anchors": ["GPy_ABCD/KernelExpressions/commutatives.py:SumKE.simplify_base_terms", "GPy_ABCD/KernelExpressions/commutatives.py:ProductKE.simplify_base_terms"]}
{"id": "C07", "title": "add and multiply denote addition and multiplication of covariances", "statement": "add(k1,k2) (non-nested result) is the expression whose covariance functions are exactly the sums of one of k1 and one of k2; multiply(k1,k2) likewise for products; both are commutative up to ==.", "quantifier": "all pairs of operands: base names, Sums, Products and Changes", "why_tests_cant": "16 type-pair cases times unbounded operand structure.", "anchors": ["GPy_ABCD/KernelExpansion/kernelExpressionOperations.py:add", "GPy_ABCD/KernelExpansion/kernelExpressionOperations.py:multiply", "GPy_ABCD/Util/kernelUtil.py:sortOutTypePair"]}
{"id": "C08", "title": "swap_base exchanges exactly one base term", "statement": "Every result of swap_base(S, B) for a Sum or Product S has, before simplification, the same number of terms as S: one occurrence of one base is replaced with B.", "quantifier": "all Sum/Product expressions and all base kernels B", "why_tests_cant": "Must hold for every expression and base, including B already present.", "anchors": ["GPy_ABCD/KernelExpansion/kernelExpressionOperations.py:swap_base"]}
{"id": "C09", "title": "remove_a_term removes exactly one term", "statement": "remove_a_term(S) returns, for a Sum or Product with at least two terms, one candidate per distinct base term and per composite, each being S with exactly one occurrence of that term deleted; nothing for a single-term node; and the two branches for a Change.", "quantifier": "all expressions", "why_tests_cant": "Quantified over all expressions.", "anchors": ["GPy_ABCD/KernelExpansion/kernelExpressionOperations.py:remove_a_term"]}
{"id": "C10", "title": "Traversal visits every node exactly once and reduce folds in traversal order", "statement": "traverse() lists every Sum/Product/Change node of the tree once in pre-order, plus one single-term Sum for each bare-string branch of a Change; reduce(f, acc) equals folding f over that list.", "quantifier": "all expressions and all fold functions", "why_tests_cant": "Unbounded trees and arbitrary functions.", "anchors": ["GPy_ABCD/KernelExpressions/commutative_base.py:traverse,reduce", "GPy_ABCD/KernelExpressions/change.py:traverse,reduce"]}
{"id": "C11", "title": "contains_base is exact", "statement": "contains_base(bs) is true iff one of the given base names occurs somewhere in the expression.", "quantifier": "all expressions and all lists of base names", "why_tests_cant": "Unbounded nesting.", "anchors": ["GPy_ABCD/KernelExpressions/commutative_base.py:contains_base", "GPy_ABCD/KernelExpressions/change.py:contains_base"]}
{"id": "C12", "title": "is_stationary is sound", "statement": "If is_stationary() is true then every covariance function the expression can express is invariant under translation of all inputs.", "quantifier": "all expressions, parameters, data sets and shifts", "why_tests_cant": "Real-valued quantification over shifts and parameters.", "anchors": ["GPy_ABCD/KernelExpressions/commutative_base.py:is_stationary", "GPy_ABCD/KernelExpressions/change.py:is_stationary", "GPy_ABCD/Kernels/baseKernels.py:stationary_kerns"]}
{"id": "C13", "title": "repr round-trips", "statement": "Evaluating repr(k) for an expression k returned by _initialise() rebuilds an expression equal to k.", "quantifier": "all initialised expressions", "why_tests_cant": "Unbounded expressions; the constructor re-simplifies, so the round trip needs normal-form stability.", "anchors": ["GPy_ABCD/KernelExpressions/commutative_base.py:__repr__", "GPy_ABCD/KernelExpressions/change.py:__repr__"]}
{"id": "C14", "title": "str is an unambiguous infix rendering", "statement": "Reading str(k) with ordinary precedence (* binds tighter than +) yields an expression with the same covariance function as k for the same parameters, so brackets are never missing.", "quantifier": "all non-empty expressions", "why_tests_cant": "Unbounded nesting; a missing bracket only shows for specific nestings.", "anchors": ["GPy_ABCD/KernelExpressions/commutative_base.py:__str__", "GPy_ABCD/KernelExpressions/commutatives.py:ProductKE.bracket_if_needed", "GPy_ABCD/KernelExpressions/base.py:to_kernel_unrefined"]}
{"id": "C15", "title": "expand returns pairwise different expressions", "statement": "No two expressions in the list returned by expand(k, rules) are == to each other.", "quantifier": "all expressions and all production rule lists", "why_tests_cant": "Quantified over all inputs and rules.", "anchors": ["GPy_ABCD/KernelExpansion/grammar.py:expand", "GPy_ABCD/Util/genericUtil.py:unique"]}
{"id": "C16", "title": "expand's result does not depend on set iteration order", "statement": "The set of expressions (up to ==) returned by expand for the built-in production rules is the same for every iteration order of the frozenset of base kernels, i.e. for every hash seed.", "quantifier": "all orders of the base-kernel set, all expressions", "why_tests_cant": "String hashing is randomised per process; a test sees a single order.", "anchors": ["GPy_ABCD/KernelExpansion/grammar.py:plus_base,times_base,replace_base,...", "GPy_ABCD/KernelExpansion/grammar.py:expand"]}
{"id": "C17", "title": "Expanding a node changes only that node", "statement": "Every expression in expand(k, rules) is k with exactly one traversed node (or bare-string branch of a Change) replaced by one of the rule's results for that node, up to simplification; the rest of the tree is unchanged.", "quantifier": "all expressions, all nodes, all rules", "why_tests_cant": "Quantified over positions in unbounded trees; it depends on object identity versus equality.", "anchors": ["GPy_ABCD/KernelExpressions/base.py:new_tree_with_self_replaced", "GPy_ABCD/KernelExpressions/change.py:reassign_child", "GPy_ABCD/KernelExpressions/change.py:traverse", "GPy_ABCD/KernelExpansion/grammar.py:deep_apply"]}
{"id": "C18", "title": "expand returns normal forms", "statement": "Every expression returned by expand(k, rules) for a normal-form k is in normal form, so two differently derived but identical kernels are recognised as ==.", "quantifier": "all normal-form expressions and rules", "why_tests_cant": "Needs all positions and rules.", "anchors": ["GPy_ABCD/KernelExpansion/grammar.py:standardise_singleton_root", "GPy_ABCD/KernelExpansion/grammar.py:expand"]}
{"id": "C19", "title": "Trees returned by expand have consistent root and parent links and expand leaves its argument untouched", "statement": "In every tree returned by expand every node's root is the top node, whose parent is None, and every other node's parent is the node that contains it; the expanded tree's nodes are not modified and share no node with the results.", "quantifier": "all initialised expressions, all nodes and rules", "why_tests_cant": "Aliasing through deepcopy of parent/root cycles depends on the whole object graph.", "anchors": ["GPy_ABCD/KernelExpressions/base.py:new_tree_with_self_replaced", "GPy_ABCD/KernelExpressions/commutative_base.py:set_root,_set_all_parents,reassign_child", "GPy_ABCD/KernelExpansion/grammar.py:expand"]}
{"id": "C20", "title": "Only recognised start kernels are accepted", "statement": "make_simple_kexs succeeds exactly on lists whose items are kernel expressions or one of the five base kernel names, and raises ValueError otherwise; the default start lists contain pairwise different normal forms.", "quantifier": "all input lists", "why_tests_cant": "Arbitrary input lists.", "anchors": ["GPy_ABCD/KernelExpansion/grammar.py:pseudo_to_real_kex,make_simple_kexs,start_kernels"]}
{"id": "C21", "title": "Every explored model is ranked exactly once, best first", "statement": "After any number of rounds, sorted_models is a permutation of all models in tested_models and is sorted by score (ties keep test order).", "quantifier": "all fitter results (scores), all numbers of rounds, beams and rules", "why_tests_cant": "Unbounded histories of rounds and arbitrary scores.", "anchors": ["GPy_ABCD/Models/modelSearch.py:explore_model_space,model_search_rounds"]}
{"id": "C22", "title": "expanded and not_expanded partition the models", "statement": "After any number of rounds expanded plus not_expanded is a permutation of sorted_models and not_expanded is sorted by score.", "quantifier": "all fitter results, rounds and beams", "why_tests_cant": "Unbounded histories.", "anchors": ["GPy_ABCD/Models/modelSearch.py:model_search_rounds", "GPy_ABCD/Util/genericUtil.py:diff"]}
{"id": "C23", "title": "No expression is fitted twice", "statement": "If the start expressions are pairwise different, all expressions in tested_k_exprs are pairwise different (==) after any number of rounds, and they are exactly the expressions of the fitted models.", "quantifier": "all rules, scores, rounds and beams", "why_tests_cant": "Unbounded histories.", "anchors": ["GPy_ABCD/Models/modelSearch.py:model_search_rounds"]}
{"id": "C24", "title": "A search can be continued", "statement": "Running n rounds and then continuing with model_search_rounds for m more rounds on the returned values gives the same five results as running n+m rounds.", "quantifier": "all n, m, beams and fitters", "why_tests_cant": "Unbounded n and m.", "anchors": ["GPy_ABCD/Models/modelSearch.py:model_search_rounds"]}
{"id": "C25", "title": "More rounds never make the best model worse", "statement": "The score of sorted_models[0] is non-increasing in the number of rounds.", "quantifier": "all fitters, rounds and beams", "why_tests_cant": "Unbounded histories.", "anchors": ["GPy_ABCD/Models/modelSearch.py:model_search_rounds"]}
{"id": "C26", "title": "Beam argument normalisation", "statement": "For a list of integers (non-empty, or there are no rounds) or an integer, the beam used in round i is beam[i] if given, else the last given value, and exactly `rounds` rounds are run; an empty list with rounds > 0 raises IndexError and anything else raises TypeError.", "quantifier": "all beams and round counts", "why_tests_cant": "All list lengths versus all round counts.", "anchors": ["GPy_ABCD/Models/modelSearch.py:explore_model_space"]}
{"id": "C27", "title": "Fit retries are bounded and return the first success", "statement": "fit_one_model makes at most max_retries + 1 attempts, returns the first attempt that succeeds and raises the last error if all fail; fit_mods_not_parallel returns the models in the order of the given expressions.", "quantifier": "all (infinite) sequences of attempt outcomes and all max_retries", "why_tests_cant": "Any failure history.", "anchors": ["GPy_ABCD/Models/modelSearch.py:fit_one_model,fit_mods_not_parallel"]}
{"id": "C28", "title": "Parallel fitting returns the sequential result for every completion order", "statement": "fit_mods_parallel_processes returns the models in the order of the given expressions whichever order the pool's chunks complete in, for every number of CPUs; if some fits fail, the exception of one of them is raised.", "quantifier": "all completion orders, CPU counts and list lengths", "why_tests_cant": "Schedules cannot be enumerated by tests.", "anchors": ["GPy_ABCD/Models/modelSearch.py:fit_mods_parallel_processes"]}
{"id": "C29", "title": "interpret describes the latest fit", "statement": "After any sequence of fit and interpret calls, interpret() describes the parameters of the most recent fit, and raises ValueError before the first fit.", "quantifier": "all call histories", "why_tests_cant": "Unbounded histories of calls.", "anchors": ["GPy_ABCD/Models/model.py:GPModel.fit,sum_of_prods_kex,interpret"]}
{"id": "C30", "title": "Each product keeps exactly one variance and loses no expressiveness", "statement": "The kernel built by to_kernel for a product of base kernels has exactly one free variance parameter, and expresses exactly the same covariance functions as the product of the fully parametrised base kernels.", "quantifier": "all expressions and parameter values", "why_tests_cant": "Quantified over real parameters.", "anchors": ["GPy_ABCD/KernelExpressions/commutatives.py:ProductKE.to_kernel"]}
{"id": "C31", "title": "Fitted parameters are matched to the right terms", "statement": "For a fitted normal-form expression, match_up_fit_parameters finds every name it looks up and assigns to each base term and Change node the values of its own kernel object.", "quantifier": "all normal-form expressions and parameter values", "why_tests_cant": "Name postfixing of repeated sub-kernels in unbounded trees.", "anchors": ["GPy_ABCD/KernelExpressions/commutative_base.py:match_up_fit_parameters", "GPy_ABCD/KernelExpressions/change.py:match_up_fit_parameters", "GPy_ABCD/KernelExpressions/commutatives.py:ProductKE.match_up_fit_parameters", "GPy_ABCD/KernelExpansion/kernelOperations.py:get_param_dict"]}
{"id": "C32", "title": "The canonical form is a sum of pure products with the distributive number of terms", "statement": "Whenever sum_of_prods_form returns for a fitted expression (see C34 for when it does) it returns a Sum without base terms whose composites are Products without composites; its number of terms is the sum over the terms of a Sum or the branches of a Change, and the product over the composite factors of a Product; each term has the factors of its distributed term.", "quantifier": "all fitted normal-form expressions and parameter values", "why_tests_cant": "Unbounded nesting.", "anchors": ["GPy_ABCD/KernelExpressions/commutatives.py:sum_of_prods_form", "GPy_ABCD/KernelExpressions/change.py:sum_of_prods_form"]}
{"id": "C33", "title": "The canonical form has the same covariance function as the fitted kernel", "statement": "The covariance computed from the canonical form's parameters equals that of the fitted kernel at all inputs.", "quantifier": "all expressions, parameter values and inputs", "why_tests_cant": "Real-valued quantification and unbounded nesting.", "anchors": ["GPy_ABCD/KernelExpressions/commutatives.py:sum_of_prods_form,new_bases_with_parameters,simplify_base_terms_params,multiply_pure_prods_with_params", "GPy_ABCD/KernelExpressions/change.py:sum_of_prods_form,add_sum_of_prods_terms"]}
{"id": "C34", "title": "interpret succeeds on every fitted model", "statement": "Producing the canonical form and its description never raises for a fitted normal-form expression.", "quantifier": "all normal-form expressions and parameter values", "why_tests_cant": "Partial functions, assertions and missing dictionary keys over unbounded inputs.", "anchors": ["GPy_ABCD/KernelExpressions/commutatives.py:sum_of_prods_form", "GPy_ABCD/KernelExpansion/kernelInterpretation.py:base_factors_interpretation,sigmoids_to_intervals"]}
{"id": "C35", "title": "Described intervals are the intersection of the change windows", "statement": "Whenever a component's sigmoid parameters are reduced to intervals without an error, a point lies in one of the resulting intervals iff it lies on the active side of every sigmoid of the component.", "quantifier": "all numbers of sigmoids of each kind, in any order, all locations and widths", "why_tests_cant": "Real-valued case analysis over arbitrarily many intervals.", "anchors": ["GPy_ABCD/KernelExpansion/kernelInterpretation.py:sigmoids_to_intervals,SIr_overlap,intersect_segment_hole,intersect_semiline_hole,simplify_sigmoidal_interval_pair"]}
{"id": "C36", "title": "Interval reduction never fails", "statement": "sigmoids_to_intervals succeeds for every product of sigmoids.", "quantifier": "all sigmoid parameter lists", "why_tests_cant": "Failing key lookups only show for particular orderings of locations.", "anchors": ["GPy_ABCD/KernelExpansion/kernelInterpretation.py:intersect_semiline_hole,intersect_segment_hole,SI_overlap,simplify_sigmoidal_interval_pair"]}
{"id": "C37", "title": "A simplified product always has a valid opening and modifiers in its description", "statement": "For any simplified pure product with at least one non-sigmoid factor, the first described factor is one of WN, C, SE, PER, LIN and all others are legal modifiers, so no ValueError is raised.", "quantifier": "all simplified pure products", "why_tests_cant": "Unbounded multisets of factors.", "anchors": ["GPy_ABCD/KernelExpansion/kernelInterpretation.py:first_term_interpretation,postmodifier_interpretation,order_base_kerns"]}
{"id": "C38", "title": "Sigmoids are complementary smooth steps", "statement": "The ascending sigmoid is strictly increasing with values strictly between 0 and 1 and value 1/2 at the location, the reverse one is its complement to 1, and the coded derivative is its derivative.", "quantifier": "all real arguments, locations and positive slopes", "why_tests_cant": "Real-valued quantification.", "anchors": ["GPy_ABCD/Kernels/sigmoidalKernels.py:_sigmoid_function,_sigmoid_function_d,_phi_S"]}
{"id": "C39", "title": "The indicator bump is between 0 and 1 and peaks at the window centre", "statement": "For positive width and slope the window function takes values in [0,1], equals 1 exactly at the centre of the window, is symmetric about it, and the reverse one is its complement.", "quantifier": "all real inputs and parameters", "why_tests_cant": "Real-valued quantification.", "anchors": ["GPy_ABCD/Kernels/sigmoidalKernels.py:_phi_SI,_core_sigmoid_function"]}
{"id": "C40", "title": "Coded kernel gradients are the true derivatives", "statement": "The gradients set by update_gradients_full equal the derivatives of sum(dL_dK * K) with respect to each kernel parameter.", "quantifier": "all inputs, parameters and dL_dK matrices, any number of points", "why_tests_cant": "Real-valued quantification and arbitrary matrix sizes.", "anchors": ["GPy_ABCD/Kernels/linearOffsetKernel.py:update_gradients_full", "GPy_ABCD/Kernels/sigmoidalKernels.py:_update_gradients_full_S_1,_update_gradients_full_S_2,_update_gradients_full_SI", "GPy_ABCD/Kernels/periodicKernel.py:update_gradients_full", "GPy_ABCD/Kernels/changeOperators.py:update_gradients_full"]}
{"id": "C41", "title": "Covariance matrices are symmetric and positive semidefinite", "statement": "K(X) is symmetric positive semidefinite, and Kdiag(X) is the diagonal of K(X), for white noise, the constant, the linear kernels, the squared exponential, the sigmoidal kernels, the periodic kernel (for the lengthscales for which the exact formula is used), and for every nesting of sums, products and change points or windows of such kernels. Cross-covariances K(X, X2) are the off-diagonal blocks of the covariance of the two data sets together.", "quantifier": "all data sets of any size and all parameters", "why_tests_cant": "Quantified over all vectors and data sets.", "anchors": ["GPy_ABCD/Kernels/linearOffsetKernel.py:K,Kdiag", "GPy_ABCD/Kernels/changeOperators.py:K,Kdiag", "GPy_ABCD/Kernels/sigmoidalKernels.py:_phi"]}
{"id": "C42", "title": "The periodic kernel is periodic with the stated variance", "statement": "The purely periodic kernel is symmetric, invariant under shifting either argument by the period, and has variance on the diagonal, in all three lengthscale regimes.", "quantifier": "all inputs and positive parameters", "why_tests_cant": "Real-valued quantification.", "anchors": ["GPy_ABCD/Kernels/periodicKernel.py:PureStdPeriodicKernel.K,Kdiag,_embi0,_embi1,_embi0min1"]}
{"id": "C43", "title": "Model scores order models correctly", "statement": "BIC, AIC and AICc decrease when the log-likelihood increases at fixed n and k, increase with k at fixed log-likelihood (n > 1 for BIC), and AICc is at least AIC. LA_LOO is the average log density of each observation under its best prediction from the others, and a search using it ranks a model that predicts every held-out observation better before one that predicts it worse.", "quantifier": "all log-likelihoods, data set sizes and parameter counts; all fitted regressions with the package's kernels", "why_tests_cant": "Real-valued quantification.", "anchors": ["GPy_ABCD/Util/modelUtil.py:BIC,AIC,AICc,LA_LOO", "GPy_ABCD/Models/modelSearch.py:explore_model_space"]}
{"id": "C44", "title": "Topological sort is correct", "statement": "topological_sort returns an ordering of all nodes in which every node comes after all the nodes it depends on, and raises ValueError exactly when no such ordering exists.", "quantifier": "all finite dependency lists", "why_tests_cant": "All graphs.", "anchors": ["GPy_ABCD/Util/genericUtil.py:topological_sort,foldq,foldq_"]}
{"id": "C45", "title": "Generic list utilities meet their specifications", "statement": "partition splits by the predicate keeping order; unique keeps the first of each == class; eq_elems is multiset equality; chunk concatenates back to the input with pieces of length n (last shorter); group_by groups in order; update_dict_with merges; interval_overlap is the length of the intersection.", "quantifier": "all inputs", "why_tests_cant": "Arbitrary lists.", "anchors": ["GPy_ABCD/Util/genericUtil.py:partition,unique,eq_elems,chunk,group_by,update_dict_with,interval_overlap"]}
{"id": "C46", "title": "diff removes every listed element", "statement": "diff(xs, ys) removes from xs one occurrence of each element of ys (elements of ys not in xs being ignored).", "quantifier": "all lists", "why_tests_cant": "Arbitrary lists.", "anchors": ["GPy_ABCD/Util/genericUtil.py:diff"]}
{"id": "C47", "title": "Synthetic change data is continuous when lined up", "statement": "The functions made by cp_f_maker and cw_f_maker with line_up=True are continuous at the change points when the given functions are.", "quantifier": "all functions and change locations", "why_tests_cant": "Real-valued quantification over functions.", "anchors": ["GPy_ABCD/Util/dataAndPlottingUtil.py:cp_f_maker,cw_f_maker"]}
{"id": "C48", "title": "Verbosity changes only what is printed", "statement": "explore_model_space with verbose=True returns the same five lists as with verbose=False.", "quantifier": "all fitters, rules, utilities, start kernels, rounds and beams", "why_tests_cant": "Whether a round yields no new expressions depends on arbitrary rules and scores.", "anchors": ["GPy_ABCD/Models/modelSearch.py:explore_model_space,model_search_rounds,print_k_list"]}
{"id": "C49", "title": "A continued search ranks by the utility it was given", "statement": "After model_search_rounds is called on the results of an earlier search, the returned sorted_models are sorted by the utility function passed to it.", "quantifier": "all utility functions, fitters and histories", "why_tests_cant": "Arbitrary pairs of utility functions and scores.", "anchors": ["GPy_ABCD/Models/modelSearch.py:model_search_rounds", "GPy_ABCD/Models/model.py:GPModel.compute_utility"]}
{"id": "C50", "title": "The results of a search can be continued more than once", "statement": "Calling model_search_rounds a second time with the variables returned by the first search again yields expanded and not_expanded lists that partition sorted_models.", "quantifier": "all histories of calls", "why_tests_cant": "Depends on aliasing over arbitrary histories of calls.", "anchors": ["GPy_ABCD/Models/modelSearch.py:model_search_rounds"]}
{"id": "C51", "title": "fit() without an argument repeats the last restarts value", "statement": "After any sequence of calls, fit() without a restarts value uses the last value given to fit, and raises ValueError if none was ever given.", "quantifier": "all call histories, including failing fits", "why_tests_cant": "Unbounded call histories.", "anchors": ["GPy_ABCD/Models/model.py:GPModel.fit"]}
{"id": "C52", "title": "A failed fit leaves the previous fit in place", "statement": "If fit raises, the model object keeps the regression model of the last successful fit.", "quantifier": "all call histories and failure points", "why_tests_cant": "Failure points inside external optimisers cannot be enumerated.", "anchors": ["GPy_ABCD/Models/model.py:GPModel.fit"]}
{"id": "C53", "title": "The periodic kernel's three Bessel approximations are consistent", "statement": "The coded approximation of the difference of the two scaled Bessel functions equals the difference of the coded approximations of the two.", "quantifier": "all real arguments", "why_tests_cant": "Rounding hides small inconsistencies of the coefficients and the arguments are a continuum.", "anchors": ["GPy_ABCD/Kernels/periodicKernel.py:_embi0,_embi1,_embi0min1"]}
{"id": "C54", "title": "A kernel computes with the parameter values it lists", "statement": "Take the kernel that an expression converts to. After any sequence of assignments of its listed parameter values and gradient computations (what an optimiser does), its covariance matrix is the one of a kernel of the same expression with the listed values, and every array of the right length can be assigned.", "quantifier": "all expressions, all sequences of assigned values and gradient computations, all data, both settings of the slope and offset options", "why_tests_cant": "It quantifies over all expressions and optimisation runs; a test compares a few numbers after one fit.", "anchors": ["GPy_ABCD/Kernels/changeOperators.py:ChangeKernelBase.__init__,K,update_gradients_full", "GPy_ABCD/KernelExpressions/change.py:ChangeKE.to_kernel", "GPy_ABCD/KernelExpressions/commutatives.py:to_kernel"]}
{"id": "C55", "title": "The gradients an optimiser reads from an expression's kernel are the derivatives", "statement": "Take the kernel that an expression converts to, after any assignments of parameter values and gradient computations. Computing gradients for a symmetric weight matrix then succeeds, leaves the listed values unchanged, and the gradient listed for each parameter is the derivative of the weighted sum of the covariance matrix with respect to that listed value, with all other listed values held fixed.", "quantifier": "all expressions, all sequences of assigned values and gradient computations ending at allowed values, all data, all symmetric weights, every listed parameter, both settings of the slope and offset options", "why_tests_cant": "Derivatives are limits; a test compares finite differences at a few points for a few expressions.", "anchors": ["GPy_ABCD/Kernels/changeOperators.py:ChangeKernelBase.update_gradients_full", "GPy_ABCD/Kernels/linearOffsetKernel.py:update_gradients_full", "GPy_ABCD/Kernels/periodicKernel.py:update_gradients_full", "GPy_ABCD/KernelExpressions/commutatives.py:to_kernel", "GPy_ABCD/KernelExpressions/change.py:to_kernel"]}
{"id": "C56", "title": "A change operator is its first kernel on one side of the change and its second on the other", "statement": "Away from a change point the covariance of two points is that of the first kernel if both lie before it, that of the second if both lie after it, and zero if one lies on each side. Away from the edges of a change window it is that of the first kernel if both lie outside (also on different sides), that of the second if both lie inside, and zero otherwise. Each holds up to a fraction eps of the two kernels' covariances once the points are at least 2*slope/eps from the change.", "quantifier": "all kernels inside the operator, locations, widths, slopes, accuracies and data sets", "why_tests_cant": "It quantifies over all kernels and real parameters, with a rate of convergence; a test sees a few matrices.", "anchors": ["GPy_ABCD/Kernels/changeOperators.py:ChangeKernelBase.K,ChangePointKernel,ChangeWindowKernel", "GPy_ABCD/Kernels/sigmoidalKernels.py:SigmoidalKernel,SigmoidalIndicatorKernel"]}
{"id": "C57", "title": "The independent-sides change window is the first kernel, shifted on the right side, with the second kernel inside", "statement": "With the independent-sides option, a change window is a covariance function whose two sides are one function of the first kernel, except for a vertical shift of the right side; in particular with a zero shift the covariance across the window is that of the first kernel. The gradients it sets are the derivatives.", "quantifier": "all kernels inside the operator, locations, widths, slopes, non-negative shifts and data sets, all symmetric weights", "why_tests_cant": "It quantifies over all kernels and real parameters; the option is off by default, so no test or search reaches it.", "anchors": ["GPy_ABCD/Kernels/changeWindowShiftedSides.py:ChangeWindowShiftedSidesBase", "GPy_ABCD/Kernels/changeWindowThreePart.py:K,Kdiag", "GPy_ABCD/Kernels/baseKernels.py:CW"]}
{"id": "C58", "title": "The grammar can reach every simplified expression", "statement": "With the all, default or original production rules, every non-empty simplified expression over the grammar's base kernels is, up to ==, obtained from any start expression by finitely many expansions: no expression is out of reach of a search.", "quantifier": "all simplified expressions over the grammar's bases (any size and nesting), all start expressions, both LIN offset settings, any iteration order of the bases", "why_tests_cant": "It is an existence claim about infinitely many targets, each needing a path of its own; a test sees the expansions of a few expressions.", "anchors": ["GPy_ABCD/KernelExpansion/grammar.py:expand,production_rules", "GPy_ABCD/KernelExpressions/kernelExpressionOperations.py"]}
{"id": "C59", "title": "Equal expressions expand to equal expressions", "statement": "If two expressions are ==, every expansion of one is == to an expansion of the other. So it does not matter which of several equal expressions a search keeps.", "quantifier": "all pairs of equal expressions, all built-in rule groups (and any rules that treat equal nodes alike), both LIN offset settings", "why_tests_cant": "It quantifies over all reorderings of all expressions.", "anchors": ["GPy_ABCD/KernelExpansion/grammar.py:expand,expand_node,deep_apply,production_rules", "GPy_ABCD/KernelExpressions/commutative_base.py:__eq__"]}
{"id": "C60", "title": "A search tries only, and with a wide enough beam all, the expressions within its number of rounds", "statement": "Every expression explore_model_space tries is a start expression or is reached from one by at most as many expansions as there are rounds. If the beam is never narrower than the number of models, everything reachable within that many expansions is tried, up to ==. So every simplified expression is tried by all searches with enough rounds and a wide enough beam.", "quantifier": "all rule sets (for the last part: the all, default and original groups), start lists, rounds, beams, utility functions and fitting outcomes", "why_tests_cant": "It is about all searches, and about what they do not try.", "anchors": ["GPy_ABCD/Models/modelSearch.py:explore_model_space,model_search_rounds", "GPy_ABCD/KernelExpansion/grammar.py:expand"]}
{"id": "C61", "title": "Expansions and searches introduce no base kernels but the grammar's", "statement": "If the start expressions are over some base kernels that include those of the grammar and LIN, PER and C, so is everything expand returns and everything a search tries; in particular no sigmoidal kernels, and no SE when it is excluded.", "quantifier": "all sets of base kernels, expressions, rule groups, searches, both LIN offset settings", "why_tests_cant": "It quantifies over all expressions and all searches.", "anchors": ["GPy_ABCD/KernelExpansion/grammar.py:base_kerns_for_prod,expand,production_rules", "GPy_ABCD/Models/modelSearch.py:explore_model_space"]}
{"id": "C62", "title": "A search's outcome depends only on the scores", "statement": "Two calls of explore_model_space with the same production rules, rounds and beam that give equal expressions equal scores and different expressions different scores return the same ranking, the same models per round, the same tried expressions and the same expanded and not expanded models, up to the order of terms and the models' identities. This holds whatever order Python iterates over the sets of base kernels (hash seed), whatever order the start kernels come in, whichever way the models are fitted (one by one or in parallel), and whether or not progress is printed. Without distinct scores it does not hold: ties are broken by order.", "quantifier": "all fitters, utility functions, worlds, rule groups, iteration orders of the base kernels, start lists, rounds, beams and verbosity settings of two runs", "why_tests_cant": "It relates every pair of runs, including runs under all hash seeds and schedules; tests see a few runs under one seed.", "anchors": ["GPy_ABCD/Models/modelSearch.py:explore_model_space,model_search_rounds", "GPy_ABCD/KernelExpansion/grammar.py:expand,production_rules,base_kerns_for_prod"]}
{"id": "C63", "title": "Predictions are the best linear predictions, with their error variance and quantiles", "statement": "predict of a fitted model returns for every input the weighted sum of the observations with the least mean squared error under the model's covariance, with that error as its variance (never negative, never above the prior variance). The two returned quantiles are those of the returned distribution: they are in the order of their levels, lie on the expected sides of the mean and, for symmetric levels, are centred on it.", "quantifier": "all kernels built from the package's kernels and operators, data sets, noise levels, prediction inputs, pairs of quantile levels, and settings of full_cov and include_likelihood", "why_tests_cant": "Optimality ranges over all weight vectors and the quantile identities over all reals.", "anchors": ["GPy_ABCD/Models/model.py:predict"]}
{"id": "C64", "title": "The periodic kernel has no constant part", "statement": "The covariance of a PER kernel averages to zero over a period, from any starting point, so that PER models purely periodic functions and its parameters and variances are not traded off against a constant.", "quantifier": "all variances, periods, lengthscales and pairs of starting points", "why_tests_cant": "It is about limits of averages for all real parameters; the error, where there is one, is below the tolerance of any numerical test.", "anchors": ["GPy_ABCD/Kernels/periodicKernel.py:PureStdPeriodicKernel.K,_embi0"]}
{"id": "C65", "title": "The number of parameters that models are scored with", "statement": "The number of parameters given to BIC, AIC and AICc counts the noise variance and: one variance for each base kernel that is a term of a sum or a branch of a change, one variance for all base kernels of a product together, the other parameters of each base kernel, and those of each change. Equal expressions have the same number, simplifying never increases it (so never worsens BIC or AIC at the same likelihood), and a sum or product of two expressions has no more than the two together.", "quantifier": "all kernel expressions, configurations, likelihoods and numbers of data points", "why_tests_cant": "Expressions are unbounded trees, and simplification rewrites them at every level; tests can only compare counts for a few.", "anchors": ["GPy_ABCD/Models/model.py:_k,compute_utility", "GPy_ABCD/KernelExpressions/commutatives.py:to_kernel,simplify_base_terms", "GPy_ABCD/KernelExpressions/change.py:to_kernel", "GPy_ABCD/Util/modelUtil.py:BIC,AIC"]}
{"id": "C66", "title": "The units in which data are given do not matter", "statement": "An expression's kernel can express the same covariance functions after the outputs are multiplied by a constant, after the origin of the inputs is moved, and after the inputs are multiplied by a constant; so the log-likelihoods it can reach only change by a constant common to all expressions, and expressions with optimal parameters are ranked in the same way by BIC, AIC and AICc.", "quantifier": "all kernel expressions, data sets, scales and origins", "why_tests_cant": "It compares two infinite sets of covariance functions, for unbounded expressions and every choice of units.", "anchors": ["GPy_ABCD/KernelExpressions/commutatives.py:to_kernel", "GPy_ABCD/KernelExpressions/change.py:to_kernel", "GPy_ABCD/Kernels/baseKernels.py:CP,CW,LIN", "GPy_ABCD/Models/model.py:compute_utility", "GPy_ABCD/Util/modelUtil.py:BIC,AIC,AICc"]}
{"id": "C67", "title": "Growing an expression loses nothing it could express", "statement": "The sum of two kernel expressions, and a change point or window between them, can express (up to limits on every finite data set) every covariance function that either operand can; a product can express what its first operand can exactly when the second is not only white noise; so on any data set the best log-likelihood does not decrease when an expression is grown, and does not increase when it is simplified.", "quantifier": "all pairs of initialised kernel expressions or base kernels, all data sets, all parameter values", "why_tests_cant": "It compares infinite sets of covariance functions and suprema of likelihoods, for unbounded expressions and every data set.", "anchors": ["GPy_ABCD/KernelExpansion/kernelExpressionOperations.py:add,multiply,one_change", "GPy_ABCD/KernelExpressions/commutatives.py:simplify_base_terms,to_kernel", "GPy_ABCD/KernelExpressions/change.py:to_kernel", "GPy_ABCD/Models/model.py:_ll"]}
{"id": "C68", "title": "The description of a component says what it is", "statement": "Whenever describing a fitted model succeeds, the text gives the number of terms of the multiplied-out expression and then describes each component of the canonical form on its own line: its leading factor (periodic, smooth, constant, noise or linear, in this order) with its periods by decreasing period, lengthscale or roots, then how the other factors modify it, then all intervals in which it applies and its variance, each with the component's own parameter values.", "quantifier": "all fitted expressions, all numbers of components, factors and intervals, all parameter values, all number formats", "why_tests_cant": "The text depends on an unbounded combination of factors, multiplicities, orders of periods and intervals; tests see a few strings.", "anchors": ["GPy_ABCD/KernelExpansion/kernelInterpretation.py:base_factors_interpretation,first_term_interpretation,postmodifier_interpretation", "GPy_ABCD/KernelExpressions/base.py:get_interpretation"]}
{"id": "C69", "title": "Fitted slopes of changes are in the description", "statement": "When the slopes of sigmoids are fitted (not fixed), the description of a component gives the slopes with which it starts and ends to apply.", "quantifier": "all components, all intervals, all slopes", "why_tests_cant": "It says that two components that differ in a slope never have the same text, for all parameters; the default configuration never reaches it.", "anchors": ["GPy_ABCD/KernelExpansion/kernelInterpretation.py:postmodifier_interpretation", "GPy_ABCD/config.py:FIX_SIGMOIDAL_KERNELS_SLOPE"]}
{"id": "C70", "title": "The linear kernel is a covariance with correct gradients in any number of dimensions", "statement": "A linear kernel takes one variance, or with ARD one per input dimension, and refuses other numbers of variances. Its covariance of two points is the sum over the dimensions of variance times the product of the coordinates; it is symmetric positive semidefinite and its diagonal is what Kdiag gives. The gradients it gives for every variance (from the full covariance and from its diagonal) and for every coordinate of every input are the derivatives of the weighted sum of covariances, and the input sensitivities are the variances.", "quantifier": "all dimensions, with and without ARD, all non-negative variances, all numbers of points and inputs, all weights (also not symmetric ones), one or two sets of inputs", "why_tests_cant": "Derivatives and definiteness are statements about all real inputs, sizes and weights; a test checks some finite differences.", "anchors": ["GPy_ABCD/Kernels/linearKernel.py:Linear.__init__,K,Kdiag,update_gradients_full,update_gradients_diag,gradients_X,gradients_X_diag,input_sensitivity"]}
{"id": "C71", "title": "Second derivatives of the linear kernel", "statement": "The second derivatives that a linear kernel reports for a pair of inputs are the derivatives of their covariance with respect to a coordinate of the first and a coordinate of the second input.", "quantifier": "all dimensions, variances, inputs and weights", "why_tests_cant": "A statement about derivatives at all real inputs.", "anchors": ["GPy_ABCD/Kernels/linearKernel.py:Linear.gradients_XX"]}
{"id": "C72", "title": "A wider beam never makes the best model worse", "statement": "If two searches differ only in the beam, the scores of equal expressions agree between them, and the second beam is at least as wide in every round, then the best model of the second search is at least as good as that of the first.", "quantifier": "all start kernels, rules, fitters, utilities, numbers of rounds and beams", "why_tests_cant": "Whether more work can hurt depends on all possible rankings of an unbounded set of expressions; a test compares a few runs.", "anchors": ["GPy_ABCD/Models/modelSearch.py:explore_model_space,model_search_rounds"]}
{"id": "C73", "title": "The cost of expansions and searches is bounded", "statement": "Counting base kernels and operators as symbols: an expansion lists at most proportionally many expressions as the expression has symbols; with the default rules each has at most four symbols more, with the other built-in groups at most twice as many plus three (and repeated doubling does happen). Hence in a search with the default rules the number of models fitted in a round grows at most linearly with the round, and the number of all models at most quadratically with the number of rounds.", "quantifier": "all expressions, base kernel sets, built-in rule groups, numbers of rounds, beams, start kernels, fitters and utilities", "why_tests_cant": "The bounds range over expressions of any size and searches of any length; a test measures a few.", "anchors": ["GPy_ABCD/KernelExpansion/grammar.py:expand,expand_node,production_rules", "GPy_ABCD/KernelExpansion/kernelExpressionOperations.py", "GPy_ABCD/Models/modelSearch.py:explore_model_space,model_search_rounds"]}
{"id": "C74", "title": "How many rounds and how wide a beam a search needs to try a given model", "statement": "With any built-in rule group but the minimal one, every simplified expression over the grammar's bases is reached from every start expression within three expansions per symbol (base kernel or operator) of the target, less one; with the default rules at least a quarter of the difference in symbols is needed. Hence a search that returns has tried the expression if it had that many rounds and a beam of an explicitly given width.", "quantifier": "all target and start expressions, base kernel sets, rule groups, rounds, beams, fitters, utilities", "why_tests_cant": "The bound holds for targets of any size and needs searches far too long to run.", "anchors": ["GPy_ABCD/KernelExpansion/grammar.py:expand,production_rules", "GPy_ABCD/Models/modelSearch.py:explore_model_space"]}
{"id": "C75", "title": "A search raises nothing of its own", "statement": "Given start kernels that make expressions, a number of rounds and a beam that fits it, a search without printing raises an exception only if a call to the fitting code or to the utility function raised that exception; if these never raise, it returns.", "quantifier": "all rule lists, start kernels, rounds, valid beams, fitters, utilities and states", "why_tests_cant": "It is about all executions: no combination of rounds, ties, cached scores and emptied candidate lists may make the search itself fail.", "anchors": ["GPy_ABCD/Models/modelSearch.py:explore_model_space,model_search_rounds", "GPy_ABCD/Models/model.py:compute_utility"]}
{"id": "C76", "title": "What the minimal production rules can reach", "statement": "With the minimal production rules (add a base, multiply by a base, exchange a base, put the same expression on both sides of a change) and a base kernel set containing WN, every simplified expression over the set is reached from any base kernel, within six expansions per symbol of the target, less three. From a simplified start expression every simplified expression is reached if and only if the start has no change operator; once there is one, every later expression has one. Hence a search with these rules finds any given model if it is long and wide enough and some start kernel is change-free, and never tries a change-free model if all start kernels have a change.", "quantifier": "all target and start expressions, base kernel sets, searches", "why_tests_cant": "Reachability of all targets, and unreachability after any number of expansions, cannot be settled by running the grammar.", "anchors": ["GPy_ABCD/KernelExpansion/grammar.py:expand,production_rules", "GPy_ABCD/KernelExpansion/kernelExpressionOperations.py:add,multiply,swap_base,both_changes", "GPy_ABCD/Models/modelSearch.py:explore_model_space"]}
{"id": "C77", "title": "The term count of a sum or product", "statement": "term_count of a sum or product is the number of its base terms, repetitions included, plus the number of its composite terms; equal expressions have equal counts; remove_a_term has no result exactly when the count is at most one, and the expressions simplification unwraps are exactly those with count one.", "quantifier": "all sums and products", "why_tests_cant": "It ranges over all expressions, however many and whichever terms they have.", "anchors": ["GPy_ABCD/KernelExpressions/commutative_base.py:term_count,_is_singleton", "GPy_ABCD/KernelExpansion/kernelExpressionOperations.py:remove_a_term"]}
{"id": "C78", "title": "Generated data are the given functions' values plus noise", "statement": "generate_data, generate_changepoint_data and generate_changewindow_data return the given inputs as a column and, for each input, the value there of the given function (of the first or second function according to the side of the change, shifted to meet if line_up) times Y_weight plus its noise times noise_weight; they fail only for empty inputs.", "quantifier": "all functions from numbers to ints or floats, inputs, change positions, weights and noise", "why_tests_cant": "Whether the values are kept depends on the python type of the first one; the examples in the code have values of one type only.", "anchors": ["GPy_ABCD/Util/dataAndPlottingUtil.py:generate_data,generate_changepoint_data,generate_changewindow_data,cp_f_maker,cw_f_maker"]}
{"id": "C79", "title": "sampleCurves draws as many curves as asked for", "statement": "The plot of sampleCurves has n_curves curves, those that were sampled.", "quantifier": "all numbers of curves and sampled curves", "why_tests_cant": "The function returns a plot; what is drawn depends on the selection of columns, for every number of curves.", "anchors": ["GPy_ABCD/Util/kernelUtil.py:sampleCurves"]}
{"id": "C80", "title": "Predicting with one term of a sum predicts that term", "statement": "predict with kern set to one of the terms of the fitted kernel (a sum) returns, for every input, the weighted sum of the observations that predicts this term with the least mean squared error, with that error as its variance (never negative, never above the prior variance of the term) and, with the noise included, the requested quantiles of that distribution. The means predicted for all terms add up to the mean of the model.", "quantifier": "all sums, to any depth, of kernels built from the package's kernels and operators, their terms, data sets, noise levels, prediction inputs, quantile levels and settings of full_cov and likelihood", "why_tests_cant": "A statement about all weightings of the observations, over the reals, for all kernels and data.", "anchors": ["GPy_ABCD/Models/model.py:GPModel.predict"]}
{"id": "C81", "title": "The production rules do what is documented", "statement": "Expanding an expression with one of the built-in groups of production rules lists, up to ==, exactly the results of rewriting one of its nodes in one of the ways documented for the rules of that group (add a base or multiply by one, replace a base, introduce change points and windows, multiply by a base plus a constant, replace by a base, remove a term, raise LIN terms to higher powers): none is missing and nothing else is listed.", "quantifier": "all well-formed expressions, their nodes, the four built-in groups of rules, all lists of bases (the second without C) and both settings of the offset", "why_tests_cant": "Tests look at the expansions of a few expressions; this states both inclusions for all expressions, all nodes and all lists of bases.", "anchors": ["GPy_ABCD/KernelExpansion/grammar.py:production_rules_by_type", "GPy_ABCD/KernelExpansion/grammar.py:expand_node", "GPy_ABCD/KernelExpansion/grammar.py:expand"]}
{"id": "C82", "title": "Benchmark tables list and rank everything that was timed", "statement": "compare_implementations returns a table with one row for every function it was given, with the mean times of its runs with and without the first, sorted by mean time, with the ratios of each to the fastest and to the previous row; merge_bench_tables of the tables of several groups of functions is the table of all of them.", "quantifier": "all numbers of runs, all collections of functions and all running times", "why_tests_cant": "Running times cannot be chosen in a test; the zero times and ties that matter depend on the resolution of the clock.", "anchors": ["GPy_ABCD/Util/benchmarking.py: timethis, compare_implementations, merge_bench_tables"]}
{"id": "C83", "title": "is_stationary is complete", "statement": "If is_stationary() is false, of an expression of base kernels without sigmoids, then some covariance function the expression can express changes under a translation of all inputs: an expression containing a LIN or a change anywhere, under whatever sums and products, is really not stationary.", "quantifier": "all non-empty sigmoid-free expressions of any depth, both configurations of LIN", "why_tests_cant": "An existence claim over real parameters for every expression; a test only shows particular expressions.", "anchors": ["GPy_ABCD/KernelExpressions/commutative_base.py:is_stationary", "GPy_ABCD/KernelExpressions/change.py:is_stationary", "GPy_ABCD/Kernels/baseKernels.py:stationary_kerns"]}
{"id": "C84", "title": "fit_kex returns the fitted and scored model of the expression", "statement": "A model returned by fit_kex(X, Y, kex, restarts, score, ...) has the simplified kex as its expression, its regression is the outcome of one optimisation with exactly the restarts and options asked for, made from the data given, one-dimensional data being turned into columns (so vectors and their columns give the same outcome), its cached score is that of this very regression under the score's name, and interpret() describes it. The keywords verbose, num_restarts and optimizer always raise although keywords are documented as passed on, and restarts None raises ValueError.", "quantifier": "all data arrays of any shape, expressions, restarts, scores, keyword arguments and behaviours of GPy", "why_tests_cant": "Ranges over all expressions, keyword sets and external outcomes, including exceptions.", "anchors": ["GPy_ABCD/Util/modelUtil.py:fit_kex", "GPy_ABCD/Models/model.py:fit", "GPy_ABCD/Models/model.py:compute_utility"]}

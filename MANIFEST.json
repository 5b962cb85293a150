{
 "claims": [
  {
   "property": "C01",
   "status": "proved",
   "theorems": [
    "C01_constructor_accepts",
    "C01_constructor_rejects",
    "C01_constructor_fields",
    "C01_empty_plate_dims_refuted"
   ],
   "note": "Constructor loop of Tensor.__init__ characterised in both directions. Finding: plates of size 0 are plate dimensions to the constructor but not to multi_dim_plates (C01_empty_plate_dims_refuted)."
  },
  {
   "property": "C02",
   "status": "partial",
   "theorems": [
    "C02_plate_eq_reflexive",
    "C02_plate_eq_symmetric",
    "C02_plate_eq_transitive",
    "C02_plate_eq_same_name",
    "C02_plate_eq_same_size",
    "C02_plate_eq_same_weights_partial",
    "C02_plate_eq_weights_refuted",
    "C02_override_not_transitive_refuted"
   ],
   "note": "Reflexive, symmetric, transitive (for plates not being unwrapped), same name, same size; weight clause proved for storch weights. Refuted: plates with different raw torch weights compare equal; with _override_equality set, transitivity fails."
  },
  {
   "property": "C03",
   "status": "proved",
   "theorems": [
    "C03_arguments_aligned",
    "C03_arguments_aligned_flat"
   ],
   "note": "For all argument trees without Distributions, plain plates; also for flattened plates."
  },
  {
   "property": "C04",
   "status": "proved",
   "theorems": [
    "C04_elementwise"
   ],
   "note": "Two storch operands with event shapes broadcastable after right-padding."
  },
  {
   "property": "C05",
   "status": "proved",
   "theorems": [
    "C05_left_broadcastable"
   ],
   "note": "Any number of arguments, any batchwise function."
  },
  {
   "property": "C06",
   "status": "partial",
   "theorems": [
    "C06_conflict_rejected",
    "C06_conflict_before_call",
    "C06_newest_ancestral_kept",
    "C06_ancestral_tie_refuted"
   ],
   "note": "Conflicts rejected before the call, newest ancestral plate kept. Refuted in the tie case: two different ancestral plates with one variable index both disappear."
  },
  {
   "property": "C07",
   "status": "partial",
   "theorems": [
    "C07_dim_selects_plate",
    "C07_dim_absent_raises",
    "C07_dim_overwrites",
    "C07_dims_refuted"
   ],
   "note": "dim proved: selects the position in the aligned layout; UnboundLocalError when absent; a dim keyword the caller passes is overwritten (C07_dim_overwrites). dims refuted: every non-empty dims raises."
  },
  {
   "property": "C08",
   "status": "partial",
   "theorems": [
    "C08_dependencies_recorded",
    "C08_no_dependencies",
    "C08_storch_output_refuted",
    "C08_storch_output_always_refuted"
   ],
   "note": "Parents and nesting proved for outputs without storch tensors. Refuted for outputs that already are storch tensors: their dependencies are dropped (C08_storch_output_always_refuted for every such call)."
  },
  {
   "property": "C09",
   "status": "proved",
   "theorems": [
    "C09_context_restored"
   ],
   "note": "All programs of nested wrapped calls, try/except, and code depending on the context."
  },
  {
   "property": "C10",
   "status": "partial",
   "theorems": [
    "C10_ignore_scoped_partial",
    "C10_exception_refuted",
    "C10_nested_refuted"
   ],
   "note": "Proved for blocks that are not nested and left normally. Refuted for exceptions (wrapping stays off) and nesting (inner block switches wrapping on)."
  },
  {
   "property": "C11",
   "status": "partial",
   "theorems": [
    "C11_conversions_raise",
    "C11_exposing_raise_partial",
    "C11_normal_refuted",
    "C11_methods_as_on_tensor",
    "C11_unsupported",
    "C11_passed_through",
    "C11_missing",
    "C11_data_attributes_refuted"
   ],
   "note": "Conversions and listed names proved, methods proved elementwise. Refuted: normal_ is not rejected (missing comma), non-callable attributes evaluate to None."
  },
  {
   "property": "C12",
   "status": "proved",
   "theorems": [
    "C12_walk_reachable"
   ],
   "note": "Depth first, breadth first and reversed walks over every finite graph, with cycles, double links and the differentiability filter. Default walk_fn."
  },
  {
   "property": "C13",
   "status": "partial",
   "theorems": [
    "C13_topological_partial",
    "C13_topological_refuted"
   ],
   "note": "Proved when all paths from the cost to a tensor have equal length. Refuted otherwise: in c = f(a, b), b ~ p(b|a), node b is processed before its ancestor a."
  },
  {
   "property": "C14",
   "status": "partial",
   "theorems": [
    "C14_topological_sort_partial",
    "C14_side_branch_refuted",
    "C14_twice_refuted",
    "C14_twice_other_refuted",
    "C14_listed_partial"
   ],
   "note": "Proved when all children of ancestors of the costs lead to the costs (C14_topological_sort_partial). In general exactly the tensors all whose childless descendants are costs are listed (C14_listed_partial), which refutes the property for graphs with side results: the ancestors of an unused result are missing from the list (C14_side_branch_refuted). A cost listed twice makes it raise IndexError or list a tensor before its child (C14_twice_refuted, C14_twice_other_refuted)."
  },
  {
   "property": "C15",
   "status": "proved",
   "theorems": [
    "C15_links",
    "C15_surrogate_refuted"
   ],
   "note": "Every history of constructions. Finding: surrogate_loss itself breaks the symmetry with its stand-in tensors (C15_surrogate_refuted)."
  },
  {
   "property": "C16",
   "status": "partial",
   "theorems": [
    "C16_backward_cleanup_partial",
    "C16_reset_partial",
    "C16_first_iteration",
    "C16_methods_registered_once",
    "C16_reuse_refuted"
   ],
   "note": "Proved for graphs without previously cleaned tensors, for reset and for the end of backward. Refuted for tensors reused after a clean-up: the _cleaned flag is never cleared, so their links survive."
  },
  {
   "property": "C17",
   "status": "partial",
   "theorems": [
    "C17_reduce_plates_partial",
    "C17_missing_parent",
    "C17_singleton_refuted",
    "C17_event_shape_refuted",
    "C17_gap_refuted"
   ],
   "note": "Proved for every tensor and every set of plates without ancestry gaps, for scalar, per-sample and batched weights. Refuted: a singleton plate with a storch weight is not removed; a one-dimensional storch weight leaves trailing singleton event dimensions; a list with an ancestry gap leaves plates unreduced."
  },
  {
   "property": "C18",
   "status": "partial",
   "theorems": [
    "C18_order_plates_partial",
    "C18_only_given",
    "C18_twice_root_refuted",
    "C18_twice_child_refuted",
    "C18_gap_refuted"
   ],
   "note": "Proved for every list of plates whose parent relation has no gaps (ancestors reached only through missing plates). Refuted with a gap: the result silently omits plates (C18_gap_refuted). Also refuted for a plate given twice next to its parent or child: ValueError (C18_twice_root_refuted, C18_twice_child_refuted)."
  },
  {
   "property": "C19",
   "status": "partial",
   "theorems": [
    "C19_variance_partial",
    "C19_plates_refuted",
    "C19_non_negative",
    "C19_shift",
    "C19_constant",
    "C19_other_plate"
   ],
   "note": "The value is proved to be the weighted mean over all plates of the squared deviation from the weighted mean over the plate, with non-negativity, shift invariance and zero for constants, under the weight conditions of C17 (singleton plates with storch weights excluded). Refuted as to which plates are reduced: the argument plates is only checked, and all plates are reduced whatever is passed (C19_plates_refuted)."
  },
  {
   "property": "C20",
   "status": "proved",
   "theorems": [
    "C20_magic_box",
    "C20_derivatives"
   ],
   "note": "For any numbers with a detach that commutes with arithmetic and exp; for functions of a real parameter additionally value one, exp(l - l0) as a function and the first derivative. The real-number version uses the axioms of the standard library Reals."
  },
  {
   "property": "C21",
   "status": "partial",
   "theorems": [
    "C21_value_partial",
    "C21_score_function",
    "C21_relax",
    "C21_arm_refuted",
    "C21_disarm_refuted",
    "C21_unordered"
   ],
   "note": "Proved for every mix of estimators that deliver a number per plate assignment and whose control variate evaluates to zero: score function with any baseline, RELAX and REBAR, and the unordered set estimator (C21_unordered). Refuted for ARM (event dimensions are not summed) and DisARM (the baseline is not multiplied by one minus magic_box)."
  },
  {
   "property": "C22",
   "status": "proved",
   "theorems": [
    "C22_surrogate_loss",
    "C22_no_costs"
   ],
   "note": "For every graph, every list of costs with scalar event shape whose wide plates have no ancestry gap (otherwise order_plates drops a plate, see C18)."
  },
  {
   "property": "C23",
   "status": "partial",
   "theorems": [
    "C23_weighted_partial",
    "C23_unbiased_partial"
   ],
   "note": "Proved for every program that uses every value along its own sample, with any plates, weights and numbers of samples, as an equality of functions of the parameters. Missing: programs that average over samples before the cost is registered, for which the claim is false (C27_refuted)."
  },
  {
   "property": "C24",
   "status": "proved",
   "theorems": [
    "C24_leave_one_out",
    "C24_single",
    "C24_unbiased"
   ],
   "note": "Leave-one-out mean, ValueError with one sample, and unbiased to first order for programs as in C23 (the plate of the sample is a plate of the cost)."
  },
  {
   "property": "C25",
   "status": "partial",
   "theorems": [
    "C25_decayed_average",
    "C25_between",
    "C25_refuted"
   ],
   "note": "Decayed average of the costs seen by one baseline object, and its bounds, proved. Refuted: the average includes the current cost, so the expected gradient with two samples is 1 - (1-d)/2 times the right one."
  },
  {
   "property": "C26",
   "status": "partial",
   "theorems": [
    "C26_first_order_partial",
    "C26_refuted"
   ],
   "note": "Proved for first derivatives, for any baseline that is independent of its sample. Refuted for second derivatives with a constant baseline."
  },
  {
   "property": "C27",
   "status": "partial",
   "theorems": [
    "C27_refuted"
   ],
   "note": "The claim is false of the code: the expected gradient of the averaged cost is half of that of the cost with two samples."
  },
  {
   "property": "C28",
   "status": "partial",
   "theorems": [
    "C28_exact_partial",
    "C28_budget",
    "C28_two_refuted",
    "C28_flat_refuted",
    "C28_plate_refuted",
    "C28_single_refuted",
    "C28_one_hot_partial",
    "C28_one_hot_errors",
    "C28_one_hot_flat_refuted"
   ],
   "note": "Proved for a support of at least two values, at most one dimension of components and plates above size one, for every budget, for distributions of numbers and of one-hot vectors. False otherwise: two dimensions of components raise RuntimeError, shape [1, d] and plates of size one silently enumerate only constant outcomes (and vectors of zeros for one-hot vectors), a support of one value raises IndexError."
  },
  {
   "property": "C29",
   "status": "partial",
   "theorems": [
    "C29_single_partial",
    "C29_sequence_partial",
    "C29_products",
    "C29_epsilon_refuted",
    "C29_components_refuted"
   ],
   "note": "Proved: ImportanceSampling is unbiased for distributions without components; sequence weights are products of the ratios for every epsilon, and unbiased for epsilon 0. False: a positive epsilon biases the sequence weights; with components the weights keep the component dimension and the reduced cost is a vector. Plates of the proposal (add_prop_plates) are the subject of C81."
  },
  {
   "property": "C30",
   "status": "proved",
   "theorems": [
    "C30_weights",
    "C30_mean"
   ],
   "note": "sampling methods that draw from the distribution: weights sum to one and the reduction is the mean."
  },
  {
   "property": "C31",
   "status": "partial",
   "theorems": [
    "C31_distinct_partial",
    "C31_exhaustive",
    "C31_one_event_refuted",
    "C31_truncated_refuted"
   ],
   "note": "Proved for every chain of variables, event shapes, domain sizes, noise, k and eos under slice_ok and eos_ok, for any function that does what torch.topk promises. False without: a first variable with one event and an event dimension and fewer than k options raises ValueError (C31_one_event_refuted); a variable with one option loses events (C31_truncated_refuted); eos with event dimensions raises (C43_events_refuted). One choice of the other plates; uses the axioms of Reals."
  },
  {
   "property": "C32",
   "status": "partial",
   "theorems": [
    "C32_ancestor_partial",
    "C32_chain_partial",
    "C32_operation_partial",
    "C32_one_selection",
    "C32_no_selection",
    "C32_two_selections_refuted",
    "C32_scalars_refuted",
    "C32_single_sample_refuted",
    "C32_cases",
    "C32_parent_indexing"
   ],
   "note": "on_unwrap_tensor and operators: for every chain of selections the exact sample reached is proved (C32_chain_partial, C32_operation_partial); it is the ancestor when there is one selection in between or when the earlier selections are stable when followed twice (C32_ancestor_partial), and without selections (C32_no_selection). The full claim is false of the code: after two or more selections all but the last are applied twice (C32_two_selections_refuted), tensors without event dimensions get an extra one that breaks operators (C32_scalars_refuted), and a parent plate with one sample fails (C32_single_sample_refuted). Tensors with two different sampling plates are not covered."
  },
  {
   "property": "C33",
   "status": "partial",
   "theorems": [
    "C33_order",
    "C33_maximum_partial",
    "C33_maximum_refuted",
    "C33_value"
   ],
   "note": "The order is kept (proved for every input). The maximum is T - ln(1 + 1e-6 e^(T - max)), never T (C33_maximum_refuted). Exact real arithmetic; uses the axioms of Reals."
  },
  {
   "property": "C34",
   "status": "partial",
   "theorems": [
    "C34_last",
    "C34_value",
    "C34_certain",
    "C34_normalised_partial",
    "C34_single_refuted",
    "C34_rao_blackwell",
    "C34_rao_blackwell_few"
   ],
   "note": "Proved: last weight zero; normalised weights of two or more samples nonnegative with sum one; Rao-Blackwellised weights sum to one for k samples and, when there are fewer than k outcomes, for every chain of variables. False for one sample with normalisation: 0/0 (C34_single_refuted)."
  },
  {
   "property": "C35",
   "status": "partial",
   "theorems": [
    "C35_estimator",
    "C35_linear_partial",
    "C35_quadratic_refuted",
    "C35_linear_refuted"
   ],
   "note": "The term ScoreFunctionWOR.estimator returns is the term of equation 9, 10 or 11 and is linear in the cost (C35_estimator, C35_linear_partial). The claim about the gradient is false: the term holds the cost and not the log-probability, and surrogate_loss multiplies it by the cost again, so scaling a constant cost by s scales the gradient by s * s (C35_quadratic_refuted), shown on a program for each of the four settings (C35_linear_refuted). The importance weights are modelled element by element."
  },
  {
   "property": "C36",
   "status": "partial",
   "theorems": [
    "C36_temperature_partial",
    "C36_annealing",
    "C36_minimum_refuted",
    "C36_iterations_partial",
    "C36_twice_refuted"
   ],
   "note": "Proved over any number of backward calls: the temperature does not increase, stays positive and stays above (1 - rate) * min_temperature; iterations grow by the number of tensors sampled by the method. Refuted: one step can cross min_temperature (C36_minimum_refuted), and two samples of one method count twice per backward call (C36_twice_refuted). Uses the axioms of the standard library Reals."
  },
  {
   "property": "C37",
   "status": "partial",
   "theorems": [
    "C37_infer_refuted",
    "C37_check_refuted"
   ],
   "note": "The claim is false of the code: links are always recorded as non-differentiable, so Infer never recognises a pathwise gradient and the optional check rejects every cost."
  },
  {
   "property": "C38",
   "status": "partial",
   "theorems": [
    "C38_first_dimension_partial",
    "C38_other_dimension_partial",
    "C38_storch_first_partial",
    "C38_storch_other_partial",
    "C38_one_plate_partial",
    "C38_argument_refuted",
    "C38_two_plates_refuted",
    "C38_singleton_refuted",
    "C38_elements_refuted",
    "C38_inside"
   ],
   "note": "Proved for torch tensors and storch tensors without plate dimensions (any dimension), and for the dimension right behind a single plate: the new first plate indexes the chosen dimension and every element is found again. False in general: the argument's own plate list is changed and the argument becomes malformed (C38_argument_refuted); with two plates of different sizes every event dimension is rejected (C38_two_plates_refuted), with equal sizes the elements are permuted silently (C38_elements_refuted); singleton dimensions next to a plate are rejected (C38_singleton_refuted). Negative dims are not modelled."
  },
  {
   "property": "C39",
   "status": "partial",
   "theorems": [
    "C39_gather_partial",
    "C39_gather_torch_partial",
    "C39_order_refuted",
    "C39_single_refuted",
    "C39_shapes",
    "C39_none",
    "C39_inside"
   ],
   "note": "Proved for two or more samples whose plate dimensions come in the same order. False for samples whose plates are in another order (C39_order_refuted: silently wrong) and for one sample with a plate (C39_single_refuted: rejected)."
  },
  {
   "property": "C40",
   "status": "partial",
   "theorems": [
    "C40_accepts_partial",
    "C40_rejects_partial",
    "C40_torch_refuted"
   ],
   "note": "Proved for storch tensors in full. False for torch tensors: any shape and any (even empty) name is registered (C40_torch_refuted)."
  },
  {
   "property": "C41",
   "status": "partial",
   "theorems": [
    "C41_expect_taken",
    "C41_importance_taken",
    "C41_sample_partial",
    "C41_post_partial",
    "C41_name_taken",
    "C41_repeated",
    "C41_post_refuted"
   ],
   "note": "Proved for methods without post_sample. With post_sample the result has the intermediate sample as its only parent (C41_post_partial, C41_post_refuted)."
  },
  {
   "property": "C42",
   "status": "partial",
   "theorems": [
    "C42_unique_partial",
    "C42_undo_refuted",
    "C42_raises_refuted",
    "C42_plates_refuted",
    "C42_scalar_refuted",
    "C42_select_partial",
    "C42_other_plate_refuted",
    "C42_collect_exact",
    "C42_mixed_rejected",
    "C42_reduce_refuted",
    "C42_reduce_alone_refuted"
   ],
   "note": "Proved for tensors with one plate dimension and events: unique keeps every different value once and the inverse indices lead back to every value, for any function that keeps the promise of torch.unique (an instance is given). The claim is false: UniquePlate.undo_unique leaves the unique plate on its result, so undo_unique never returns a tensor (C42_undo_refuted) and raises on every result of unique (C42_raises_refuted). unique itself raises for two plate dimensions and for plates without events. UniquePlate.undo_unique alone, when it returns, selects the right elements if the unique plate is the only one (C42_select_partial); with a second plate it selects along that plate (C42_other_plate_refuted). Tensors with a plate and a unique plate that shrank it are rejected (C42_mixed_rejected); therefore unique plates cannot be reduced (C42_reduce_refuted, C42_reduce_alone_refuted)."
  },
  {
   "property": "C43",
   "status": "partial",
   "theorems": [
    "C43_tokens_partial",
    "C43_joint_refuted",
    "C43_tokens_refuted",
    "C43_zero_refuted",
    "C43_events_refuted",
    "C43_ancestral_refuted"
   ],
   "note": "Proved: a finished sequence produces eos again and keeps its perturbed log-probability if at least k options are possible. False otherwise (C43_tokens_refuted); the joint log-probability changes at each step (C43_joint_refuted); eos 0 is ignored; with event dimensions or ancestral sampling the code raises."
  },
  {
   "property": "C44",
   "status": "proved",
   "theorems": [
    "C44_accumulate"
   ],
   "note": "Also found: StochasticTensor._clean computes detached gradients but never stores them."
  },
  {
   "property": "C45",
   "status": "partial",
   "theorems": [
    "C45_score_function_partial",
    "C45_base",
    "C45_lax_refuted",
    "C45_unordered_refuted",
    "C45_without_replacement",
    "C45_unordered"
   ],
   "note": "Proved for the score function (with any baseline) and the base class (Expect); RELAX by C21_relax. Refuted for LAX (undefined variable) and for the unordered set estimator without baseline (returns a single tensor). ScoreFunctionWOR and the unordered set estimator with its baseline return a pair for every cost that has their plate (C45_without_replacement, C45_unordered)."
  },
  {
   "property": "C46",
   "status": "proved",
   "theorems": [
    "C46_named_reduction",
    "C46_bad_dimension"
   ],
   "note": "For every torch reduction function (sum, mean, logsumexp are instances). Bad dimensions raise IndexError for tensors of rank at least one."
  },
  {
   "property": "C47",
   "status": "proved",
   "theorems": [
    "C47_one_term",
    "C47_unique",
    "C47_pathwise",
    "C47_plate_lost"
   ],
   "note": "For every graph, loop order and mix with other methods; the cost must have the plate, otherwise ValueError."
  },
  {
   "property": "C48",
   "status": "partial",
   "theorems": [
    "C48_backwards_path_partial",
    "C48_first_input_refuted",
    "C48_stochastic_refuted",
    "C48_stochastic_partial",
    "C48_no_gradient_partial",
    "C48_leaf_parameter_refuted"
   ],
   "note": "All entries but the first are exact, for ordinary outputs (C48_backwards_path_partial, C48_no_gradient_partial) and for StochasticTensors whose parameters were computed (C48_stochastic_partial). Refuted: input 0 is never found, a parameter that is a leaf is not found (C48_leaf_parameter_refuted), and a StochasticTensor whose only input is its own parameter raises TypeError."
  },
  {
   "property": "C49",
   "status": "partial",
   "theorems": [
    "C49_call_refuted",
    "C49_keyword_refuted",
    "C49_missing",
    "C49_pair_partial"
   ],
   "note": "The claim is false of the code: any call with values that are not dicts fails before the function is reached. A call with a list and a dict works."
  },
  {
   "property": "C50",
   "status": "partial",
   "theorems": [
    "C50_unbiased_partial",
    "C50_enumerated",
    "C50_integer_refuted",
    "C50_single_refuted",
    "C50_batched_partial",
    "C50_batched_enumerated",
    "C50_order_refuted",
    "C50_order_raises_refuted"
   ],
   "note": "Proved for one variable, alone and with any plates around it (every row sampling independently), floating point samples and k > 1: the loss the program computes, averaged over the sampled options, is the (weighted sum of the rows') expected cost as a function of the parameters; with fewer options than k it is the expected cost without sampling. False: for integer samples (Categorical) the score is stored in an integer tensor, so the derivative is wrong; for k = 1 the estimator raises IndexError; with a cost that has the samples before another plate the log-probability is taken at the wrong position, giving a wrong derivative or an IndexError. Sequences are not covered."
  },
  {
   "property": "C51",
   "status": "partial",
   "theorems": [
    "C51_operators_partial",
    "C51_lshift_refuted",
    "C51_ne_refuted",
    "C51_and_refuted",
    "C51_lshift_always_refuted",
    "C51_ne_always_refuted",
    "C51_logical_refuted",
    "C51_rrshift",
    "C51_unary"
   ],
   "note": "Arithmetic and comparison operators proved. Refuted: << exchanges its operands, != raises, & | ^ are logical instead of bitwise. The unary operators and __rrshift__ are proved too; for @ see C61."
  },
  {
   "property": "C52",
   "status": "partial",
   "theorems": [
    "C52_ancestral_refuted",
    "C52_joint_log_probs_partial",
    "C52_total"
   ],
   "note": "Proved for sampling without replacement under the conditions of C31 (slice_ok, eos_ok). Refuted for MCDecoder: joint_log_probs is reset before each sum, so that it is the log-probability of the last variable alone (C52_ancestral_refuted)."
  },
  {
   "property": "C53",
   "status": "partial",
   "theorems": [
    "C53_selection_partial",
    "C53_twice_refuted"
   ],
   "note": "Proved for perturbed log-probabilities above -1e10. False if the other options are impossible (C53_twice_refuted)."
  },
  {
   "property": "C54",
   "status": "proved",
   "theorems": [
    "C54_categorical"
   ],
   "note": "One row of the tensor, exact real arithmetic, temperatures above 0. Uses the axioms of Reals."
  },
  {
   "property": "C55",
   "status": "proved",
   "theorems": [
    "C55_bernoulli",
    "C55_categorical",
    "C55_categorical_law",
    "C55_bernoulli_law"
   ],
   "note": "Pointwise: for every temperature the hard sample depends on the noise only (one row, probabilities and uniform numbers inside the clamping range). In distribution: integrating over the noise the hard sample is 1 with probability p, and the expected one-hot vector is the vector of probabilities (C55_bernoulli_law, C55_categorical_law; the latter without clamping, eps = 0). Uses the axioms of Reals."
  },
  {
   "property": "C56",
   "status": "partial",
   "theorems": [
    "C56_zero_partial",
    "C56_bernoulli_refuted"
   ],
   "note": "Proved given the hard sample 0. Given the hard sample 1 the claim is false: the code uses log1p(p) and log1p(v') where -log(1-p) and -log(1-v') are meant, and for every p up to 0.366 the result always rounds to 0 (C56_bernoulli_refuted)."
  },
  {
   "property": "C57",
   "status": "partial",
   "theorems": [
    "C57_weights_partial",
    "C57_series_refuted"
   ],
   "note": "For one choice of the other plates and exact real arithmetic: proved with the 1e-6 log1mexp adds to each factor, whenever the bound g stays below 10 (always with the default a = 5 and fewer than 2^214 points). False for larger bounds: the code uses the series for small y = exp(g) when g >= 10, that is when y is large (C57_series_refuted)."
  },
  {
   "property": "C58",
   "status": "partial",
   "theorems": [
    "C58_equal_partial",
    "C58_baseline_refuted"
   ],
   "note": "Proved for samples of equal probability. False in general: integrand_without_ss subtracts the term of the plate's sample a second time instead of the term of the other sample, so the ratios are wrong (C58_baseline_refuted). Same modelling as C57."
  },
  {
   "property": "C59",
   "status": "partial",
   "theorems": [
    "C59_reduced_partial",
    "C59_none",
    "C59_unknown_refuted",
    "C59_dims_refuted",
    "C59_no_events_refuted",
    "C59_target_plate_refuted"
   ],
   "note": "Proved for reduction none and, without names in dims, for mean and sum over at least one event dimension. Refuted: naming a plate of more than one sample in dims always raises ValueError (the outer wrapper puts the reduced plate back), an input without event dimensions raises ValueError, a target with a plate the input lacks raises RuntimeError."
  },
  {
   "property": "C60",
   "status": "proved",
   "theorems": [
    "C60_expanded",
    "C60_event_shapes"
   ],
   "note": "Also: different event shapes of equal rank raise."
  },
  {
   "property": "C61",
   "status": "partial",
   "theorems": [
    "C61_matrices_partial",
    "C61_torch_right",
    "C61_torch_vector",
    "C61_torch_left",
    "C61_vectors_refuted",
    "C61_matrix_vector_refuted",
    "C61_vector_matrix_refuted"
   ],
   "note": "Proved for storch operands of equal event rank of at least two and for a torch matrix on either side. Refuted: for vectors with a common plate samples are mixed (silently if the number of samples is the vector length, otherwise RuntimeError); matrix times vector keeps a dimension of one; vector times matrix raises. Cause: event dimensions are padded on the right while torch.matmul aligns on the right."
  },
  {
   "property": "C62",
   "status": "partial",
   "theorems": [
    "C62_shared_partial",
    "C62_vector_refuted"
   ],
   "note": "Proved for torch tensors of no more dimensions than the event. Refuted for a torch vector next to numbers: RuntimeError, or silently one position per sample of the last plate if the length is its number of samples."
  },
  {
   "property": "C63",
   "status": "partial",
   "theorems": [
    "C63_broadcast_partial",
    "C63_vector_refuted"
   ],
   "note": "Proved for any number of storch tensors with any plates and torch tensors of no more dimensions than the largest event; events of different ranks are padded on the right first, as everywhere in the library. Refuted for a torch vector next to numbers (as C62). The modelled function is torch.broadcast_tensors; broadcast_all also converts numbers to tensors, which is not modelled."
  },
  {
   "property": "C64",
   "status": "partial",
   "theorems": [
    "C64_events_partial",
    "C64_elements_partial",
    "C64_number_refuted"
   ],
   "note": "Proved for indices that leave the plates alone (':' for every plate of more than one sample, or starting with '...'). Refuted for x[i]: it selects a sample of the first plate but keeps the plate, raising ValueError or silently taking event rows for samples. Tensors and steps in indices are not modelled; assignments are C98."
  },
  {
   "property": "C65",
   "status": "partial",
   "theorems": [
    "C65_events_partial",
    "C65_plate_refuted",
    "C65_none",
    "C65_numbers"
   ],
   "note": "Proved for dimensions counted from the end, or from the start after adding the number of plates of more than one sample. Refuted for dimensions counted from the start of the event: ValueError if they fall on a plate."
  },
  {
   "property": "C66",
   "status": "partial",
   "theorems": [
    "C66_gather_partial",
    "C66_single_refuted"
   ],
   "note": "Proved in full for plates of more than one sample. Refuted for a plate with one sample: UnboundLocalError, because the wrapper only looks for the name among plates of more than one sample."
  },
  {
   "property": "C67",
   "status": "partial",
   "theorems": [
    "C67_gradient_partial",
    "C67_unbiased_partial",
    "C67_density",
    "C67_direct_refuted"
   ],
   "note": "Proved for every program of one ARM variable of any shape: the expected derivative is the true one plus m - 1 times the expected derivative of the cost itself, m the number of binary variables (C67_gradient_partial); so it is unbiased for one variable or a cost that depends on the parameters through the samples only (C67_unbiased_partial). Refuted otherwise: the cost is added once per variable, in value and derivative (C67_direct_refuted). Exact real arithmetic; integrals are Riemann integrals of Coquelicot (its lemmas use the axioms of Reals and classical logic only). DisARM is C68."
  },
  {
   "property": "C68",
   "status": "partial",
   "theorems": [
    "C68_term_partial",
    "C68_gradient_refuted",
    "C68_vanishes_refuted",
    "C68_scalar_refuted"
   ],
   "note": "Refuted for every program of one DisARM variable: the expected derivative of the loss is 3/2 of the expected derivative of the cost itself and the logits have no part in it (C68_gradient_refuted, C68_vanishes_refuted); for a scalar variable backward raises ValueError (C68_scalar_refuted). Proved: the term the estimator returns has the right expected derivative when it is multiplied by the difference of the costs of a pair (C68_term_partial), so what goes wrong is how the loss uses the control variate and the weights. The weight of the estimator is any function with the value of the code: it is detached."
  },
  {
   "property": "C69",
   "status": "partial",
   "theorems": [
    "C69_aligned_partial",
    "C69_forgotten_refuted",
    "C69_mixed_refuted",
    "C69_categories_refuted",
    "C69_as_is_refuted"
   ],
   "note": "Proved: parameters whose plates the tensors of the call have, and with no more event dimensions than they, are laid out like the tensors, at every depth (C69_aligned_partial). Refuted otherwise: parents and plates of the result never come from parameters (C69_forgotten_refuted), so that a plate only a parameter has becomes an event dimension and samples are mixed (C69_mixed_refuted, an example); parameters with fewer event dimensions lose their last dimension to padding, which is that of the categories (C69_categories_refuted); relaxed and nested distributions are passed with storch tensors inside (C69_as_is_refuted). A distribution is its class and its list of parameters; torch's own broadcasting and validation of parameters is not modelled."
  },
  {
   "property": "C70",
   "status": "partial",
   "theorems": [
    "C70_discrete_partial",
    "C70_others_refuted"
   ],
   "note": "Proved for discrete distributions (C70_discrete_partial), refuted for all other classes without a registered wrapper: no call returns (C70_others_refuted). register_wrapper is not modelled."
  },
  {
   "property": "C71",
   "status": "partial",
   "theorems": [
    "C71_threshold_partial",
    "C71_conditioned_refuted",
    "C71_single_refuted"
   ],
   "note": "Proved for Gumbels drawn independently: given the values of the others, the mean of an option's weight over its own noise is its probability, up to the EPS in compute_iw (C71_threshold_partial). Refuted for the program: decode_step conditions the first variable on the maximum 0, so for two equally likely options and two samples the expected sum of the weights is at most 0.99 whatever the other noise is (C71_conditioned_refuted); a single sample has weight 0 (C71_single_refuted)."
  },
  {
   "property": "C72",
   "status": "proved",
   "theorems": [
    "C72_resample"
   ],
   "note": "One row, exact real arithmetic without the clamping of uniform numbers (eps = 0). Expectations are iterated Riemann integrals over the uniform numbers, that of the hard option last; the test function's mean given that number must be continuous. For Bernoulli variables see C56. Uses Coquelicot and the axioms of Reals."
  },
  {
   "property": "C73",
   "status": "proved",
   "theorems": [
    "C73_distribution"
   ],
   "note": "One variable without event dimensions as the first in the sequence; exact real arithmetic. The law is an iterated Riemann integral over the uniform numbers of the Gumbels; what the program returns when two Gumbels are equal (an event of probability 0) is left open. For later variables in a sequence see C33: log1mexp has a 1e-6 that makes their conditioning inexact. Uses Coquelicot and the axioms of Reals."
  },
  {
   "property": "C74",
   "status": "partial",
   "theorems": [
    "C74_without_replacement_partial",
    "C74_ancestral_partial",
    "C74_dependent_refuted",
    "C74_narrow_refuted",
    "C74_single_refuted",
    "C74_rejected"
   ],
   "note": "Proved for decoders without replacement with more than one sample (C74_without_replacement_partial) and for MCDecoder with independent variables and more than one sample (C74_ancestral_partial). Refuted otherwise: MCDecoder rejects every variable that depends on an earlier one of the sequence, because it inherits on_plate_already_present (C74_dependent_refuted); decoders without replacement drop plates with one sample (C74_narrow_refuted); one sample leaves its dimension of size one in the event, and raises in MCDecoder with other plates (C74_single_refuted). The plates of IterDecoding's sample are those of its support; requires_grad is not modelled."
  },
  {
   "property": "C75",
   "status": "partial",
   "theorems": [
    "C75_gradients_partial",
    "C75_unnamed_refuted",
    "C75_single_refuted",
    "C75_torch_output_refuted",
    "C75_unused_refuted"
   ],
   "note": "Proved for lists of storch outputs, lists or tuples of inputs with names, and gradients for all inputs. False, with proofs, for a storch input without a name (`None + \"_grad\"` raises TypeError, and None is the default name), for a single tensor as outputs (`tensor + [input]` raises), for a torch tensor among the outputs (it has no _children) and for unused inputs (Tensor(None, ...) raises)."
  },
  {
   "property": "C76",
   "status": "partial",
   "theorems": [
    "C76_gradient_partial",
    "C76_scalar_refuted",
    "C76_operations"
   ],
   "note": "Proved for one sample of one-hot categorical variables, or more samples if there is at least one event dimension, and continuously differentiable control variates, over exact real arithmetic without clamping (C76_gradient_partial). Expectations are Riemann integrals over the noise (SpecExpect.expect), so what happens when two Gumbels are equal does not matter. False for two or more samples of variables without event dimensions, where the program raises (C76_scalar_refuted). Not covered: control variates with kinks (Baseline's relu), rebar, Bernoulli (whose conditional samples are wrong, C56). Uses Coquelicot."
  },
  {
   "property": "C77",
   "status": "partial",
   "theorems": [
    "C77_reparam_partial",
    "C77_check_refuted",
    "C77_gumbel_partial",
    "C77_straight_through_refuted",
    "C77_infer_refuted"
   ],
   "note": "Reparameterization (any number of samples, shapes, and reparameterisation that is differentiable uniformly in the noise) and GumbelSoftmax are unbiased as whole programs up to backward. Refuted: Infer, whose is_pathwise never finds a differentiable path (C37), adds the score function on top of the gradient through the reparameterised sample, so that for a uniform variable on (0, t) and the cost x the gradient is 0 for every noise instead of 1/2 on average; with CHECK_DIFFERENTIABLE_PATH every program is rejected; the straight-through variant of GumbelSoftmax is biased. Missing from the proven part: noise for which derivatives are not bounded (such as costs of normal variables that grow without bound)."
  },
  {
   "property": "C78",
   "status": "proved",
   "theorems": [
    "C78_mixed_loss",
    "C78_quiet_loss"
   ],
   "note": "For every graph and list of costs (C78_mixed_loss); without score functions the value backward returns is the weighted average of the costs (C78_quiet_loss). Estimators with control variates are the subject of C21 and C22."
  },
  {
   "property": "C79",
   "status": "proved",
   "theorems": [
    "C79_exact",
    "C79_gradient"
   ],
   "note": "For variables whose batch shape beyond the plates has at most one dimension (more dimensions fail or miscount, C28) and a cost with the plates of all samples. C79_gradient restates it for derivatives with respect to a parameter."
  },
  {
   "property": "C80",
   "status": "partial",
   "theorems": [
    "C80_update_partial",
    "C80_derivative",
    "C80_two_samples_refuted",
    "C80_two_costs_refuted",
    "C80_unused_refuted",
    "C80_logits_refuted",
    "C80_without_graph"
   ],
   "note": "Proved for a method with one sample below the costs, distributions with parameters \"probs\", gradients with at least one event dimension and objectives that depend on all control parameters (C80_update_partial; C80_derivative for one number). Refuted: with two or more samples backward calls _update_parameters once per sample, and the second call, which has no pairs left, clears all gradients (C80_two_samples_refuted); a sample below m costs counts m times, because surrogate_loss makes a copy for each cost and the set keeps all copies (C80_two_costs_refuted); a parameter the objective does not depend on gets gradient 1 or makes the update fail, because backward(None) means 1 (C80_unused_refuted); a distribution made from logits has no gradient named \"probs\" (C80_logits_refuted). torch.autograd.grad is any function."
  },
  {
   "property": "C81",
   "status": "partial",
   "theorems": [
    "C81_weights",
    "C81_single_variable",
    "C81_one_sample",
    "C81_program_partial",
    "C81_alike_partial",
    "C81_proposal_plates_refuted",
    "C81_two_plates_refuted"
   ],
   "note": "Proved for whole programs of one variable, from sampling to backward, any number of samples (C81_single_variable, C81_one_sample); for any program with one plate per variable, given its tensors (C81_program_partial, C81_alike_partial), whose weights C81_weights establishes from the code of the sampling method. Refuted for proposals that have plates the distribution lacks: the sample then counts too few plate dimensions and cannot be combined with tensors over that plate (C81_proposal_plates_refuted), and two such plates are swapped (C81_two_plates_refuted)."
  },
  {
   "property": "C82",
   "status": "partial",
   "theorems": [
    "C82_unbiased_partial",
    "C82_batch_average_partial",
    "C82_value_partial",
    "C82_functions",
    "C82_singleton_refuted"
   ],
   "note": "Proved for every straight-line script, from its statements through sampling, wrapped calls and the graph to backward (C82_unbiased_partial), also with batch-average baselines up to first derivatives (C82_batch_average_partial); the value of the loss is the average cost (C82_value_partial); elementwise functions, sums and compositions are covered functions (C82_functions). Refuted when a variable with several samples depends both on a variable with one sample and on a plate of several: order_plates leaves the plate out and backward raises ValueError whatever is sampled (C82_singleton_refuted). Missing: other estimators and sampling methods in one script."
  },
  {
   "property": "C83",
   "status": "partial",
   "theorems": [
    "C83_names_partial",
    "C83_all_partial",
    "C83_side_branch_refuted"
   ],
   "note": "Proved for every graph: the names differ and are as documented, and every listed tensor and its links are printed (C83_names_partial); all ancestors are listed if every childless descendant of an ancestor is a cost (C83_all_partial). Refuted otherwise, as print_graph uses topological_sort (C14): an ancestor of a cost with another childless descendant is never printed (C83_side_branch_refuted)."
  },
  {
   "property": "C84",
   "status": "partial",
   "theorems": [
    "C84_split_refuted",
    "C84_no_slices_refuted"
   ],
   "note": "Refuted: split never returns. It calls index_in, a method of Plate, on a list of plates, so it raises AttributeError for every plate of the tensor and every slices (C84_split_refuted). Without slices it raises earlier: TypeError if no number of slices is given, a division by zero for zero slices (C84_no_slices_refuted). The code after that line cannot be reached and is a parameter of the theorem."
  },
  {
   "property": "C85",
   "status": "partial",
   "theorems": [
    "C85_select_refuted"
   ],
   "note": "Refuted on one row of log-probabilities: for no sizes and options does the class give samples; it returns None, two results instead of three, or asks topk for more options than there are (C85_select_refuted). Rows per plate are not modelled."
  },
  {
   "property": "C86",
   "status": "partial",
   "theorems": [
    "C86_outputs_partial",
    "C86_deterministic_refuted",
    "C86_kinds"
   ],
   "note": "Proved for functions that return torch tensors with the plate dimensions in front (C86_outputs_partial). Refuted for storch tensors that are not samples: the code calls a method _add_parents that does not exist, so no such call returns (C86_deterministic_refuted)."
  },
  {
   "property": "C87",
   "status": "partial",
   "theorems": [
    "C87_settings_partial",
    "C87_accepts",
    "C87_eos_refuted",
    "C87_buffer_refuted",
    "C87_ignored_refuted",
    "C87_sum_and_sample",
    "C87_adaptive_refuted",
    "C87_control",
    "C87_rebar",
    "C87_entmax",
    "C87_sparsemax",
    "C87_sum_sizes"
   ],
   "note": "Proved for all 25 classes and every call that does not raise, for the settings that are not lost (C87_settings_partial); which calls are accepted is C87_accepts. Refuted: RaoBlackwellizedSample and MAPOSample pass eos in the position of biased_iw, so that the decoder has no eos and the weights become biased (C87_eos_refuted); MAPOSample never uses its buffer (C87_buffer_refuted); GumbelSoftmaxWOR and UnorderedSetGumbelSoftmax ignore min_temperature and annealing_rate, SumAndSample ignores without_replacement (C87_ignored_refuted); GumbelEntmax with adaptive=True starts from a larger alpha than the one given (C87_adaptive_refuted)."
  },
  {
   "property": "C88",
   "status": "partial",
   "theorems": [
    "C88_chosen_partial",
    "C88_baseline_refuted",
    "C88_names"
   ],
   "note": "Infer makes the documented method (C88_chosen_partial), but refuted: its estimator is that of a second ScoreFunction made without a baseline, for every distribution and number of samples (C88_baseline_refuted). Names of baselines: C88_names."
  },
  {
   "property": "C89",
   "status": "partial",
   "theorems": [
    "C89_all_finished_partial",
    "C89_fewer_refuted",
    "C89_events_refuted",
    "C89_ancestral_partial",
    "C89_unset_refuted"
   ],
   "note": "Proved for variables without event dimensions of which k samples were drawn, for all plates and values. False in the code: with fewer samples than k the answer is always no (C89_fewer_refuted); with event dimensions the last of these is counted instead of the samples (C89_events_refuted); eos 0 raises RuntimeError and a method that has not sampled AttributeError (C89_unset_refuted); for ancestral sampling with plates the last dimension is counted (C89_ancestral_partial)."
  },
  {
   "property": "C90",
   "status": "partial",
   "theorems": [
    "C90_mean_partial",
    "C90_all_kept",
    "C90_repeated_refuted",
    "C90_negative_refuted"
   ],
   "note": "Proved for distinct dimensions counted from the front. False for the rest: as many entries as dimensions return the tensor as it is even if they are repeated and a dimension is missing (C90_repeated_refuted); negative, too large or repeated dimensions otherwise raise ValueError (C90_negative_refuted)."
  },
  {
   "property": "C91",
   "status": "partial",
   "theorems": [
    "C91_right",
    "C91_left_partial",
    "C91_right_more",
    "C91_left_refuted"
   ],
   "note": "Proved for both functions on torch tensors if the tensor has at most as many dimensions as the other one, and for right_expand_as always. False for left_expand_as with more dimensions: its slice with a negative end adds dimensions (C91_left_refuted); its only call in storch does not have this. For right_expand_as on storch tensors see C92."
  },
  {
   "property": "C92",
   "status": "partial",
   "theorems": [
    "C92_covered_partial",
    "C92_lacking_refuted",
    "C92_torch"
   ],
   "note": "Proved if the first tensor has all plates of the second one with more than one sample. False otherwise (C92_lacking_refuted): the sizes -1 keep the plate dimension of size one that unwrapping put in for the missing plate, and the constructor of the result raises ValueError."
  },
  {
   "property": "C93",
   "status": "proved",
   "theorems": [
    "C93_installed",
    "C93_other_plate"
   ],
   "note": "All nine estimators with a parameter sampling_method; REBAR has none. That two estimators can be given the same object, of which the second replaces the functions of the first, is C96."
  },
  {
   "property": "C94",
   "status": "proved",
   "theorems": [
    "C94_rows",
    "C94_relaxed",
    "C94_rebar",
    "C94_relax"
   ],
   "note": "For categorical variables, for which C56 proves the conditional sample correct; it is not for Bernoulli ones (C56). eps, which keeps uniform numbers away from 0 and 1, may be any number below 1/2."
  },
  {
   "property": "C95",
   "status": "proved",
   "theorems": [
    "C95_plate",
    "C95_dimension",
    "C95_shapes",
    "C95_indices"
   ],
   "note": "For the tensors Tensor.__init__ accepts (C01)."
  },
  {
   "property": "C96",
   "status": "partial",
   "theorems": [
    "C96_separate_partial",
    "C96_untouched",
    "C96_taken_over_refuted",
    "C96_left_over_refuted",
    "C96_rejected_refuted",
    "C96_unknown_keyword"
   ],
   "note": "Proved for estimators that have sampling methods of their own. The full statement is false: sampling methods are changed in place, so of two estimators on one sampling method the first gets the functions of the second (C96_taken_over_refuted), the second keeps those of the first that it does not set (C96_left_over_refuted: ScoreFunction after ARM draws ARM's antithetic samples), and a construction rejected for the plate name has already changed the sampling method (C96_rejected_refuted)."
  },
  {
   "property": "C97",
   "status": "partial",
   "theorems": [
    "C97_results",
    "C97_rejected",
    "C97_itself_partial",
    "C97_independent_refuted"
   ],
   "note": "Proved that samples never get out (C97_rejected) and what the tensors in results are (C97_results); other tensors with the plates of the arguments are returned (C97_itself_partial). False for the tensors that denote_independent and gather_samples make: IndependentTensor.stochastic is a plain method instead of a property, so reading it is always true and a deterministic function that returns such a tensor raises RuntimeError (C97_independent_refuted)."
  },
  {
   "property": "C98",
   "status": "partial",
   "theorems": [
    "C98_assigned_partial",
    "C98_torch_partial",
    "C98_samples_partial",
    "C98_outside",
    "C98_depends_refuted",
    "C98_samples_refuted",
    "C98_number_refuted",
    "C98_other_refuted"
   ],
   "note": "Proved for values without plates of their own and with as many event dimensions as the places assigned to (C98_assigned_partial), for torch tensors and numbers, with or without dimensions for the plates (C98_torch_partial, C98_samples_partial), and for indices outside the event (C98_outside), always for indices that leave the plates alone. False otherwise: the value never becomes a parent of the tensor (C98_depends_refuted); a value with samples of another variable raises RuntimeError (C98_samples_refuted); a value with fewer event dimensions is laid out along the wrong dimension, as left-broadcasting is off (C98_number_refuted, C98_other_refuted)."
  },
  {
   "property": "C99",
   "status": "partial",
   "theorems": [
    "C99_own_partial",
    "C99_apart_partial",
    "C99_alone_partial",
    "C99_order_partial",
    "C99_slots",
    "C99_moving",
    "C99_batch",
    "C99_kept_partial",
    "C99_same_name_refuted",
    "C99_shared_refuted"
   ],
   "note": "Proved: if the variables of a cost have all its plates, its loss reads and changes only the averages kept for these variables and this cost (C99_own_partial), for any baselines that keep to the average they are called for, as both of the library do (C99_moving, C99_batch); each of several such costs with different averages gets the loss it gets alone, in any order (C99_alone_partial, C99_order_partial). Refuted for costs with plates that a variable lacks (C99_shared_refuted): they are averaged over these plates first, the result carries the name of the torch function that computed it, and all such costs of a variable share one moving average; the gradient of one then depends on which others were handled before. Costs registered under the same name also share it, and nothing checks that names differ (C99_same_name_refuted). The model keeps the averages of all methods in one place, where the code has one set per method object."
  }
 ]
}

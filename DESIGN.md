# Formal model of storchastic in Rocq

The source in /repo is Python on top of PyTorch. The model is a set of small, total Gallina functions that follow the
Python functions branch by branch. A raised exception is a value `Err e` of the type `res` (`Base.v`), never a default.

## How the code is represented

* **Torch tensors** (`Torch.v`): a shape (list of naturals) together with a function from index lists to elements.
  Two tensors are the same when shapes agree and elements agree at every valid index. transpose, unsqueeze,
  `t[..., None, None]`, expand, reshape, sum over dimensions, gather and elementwise broadcasting are defined on
  it, with PyTorch's shape errors as `Err`.
* **Elements**: a scalar structure (zero, one, add, mul, ...; `Scalar.v`). Structural results hold for every element
  type. Values of distributions are real numbers (`R`) or abstract.
* **Gradients**: an element is a *curve*, a function of the parameters together with a base point; `detach` freezes a
  curve at the base point (`Curves.v`, and abstractly any ring with a `detach` that commutes with the operations). For first
  derivatives `Dual.v` has dual numbers. Autograd is not executed: the derivative of the curve at the base point is what it delivers.
* **Plates and storch tensors** (`Plates.v`): plates carry class, name, size, weight and parents; a storch tensor is
  a torch tensor with a list of plates. Its meaning (`den`, `SpecTensor.v`) is a function from plate-index assignments and event indices.
* **Control state** (`Context.v`, `Graph.v`, `Inference.v`, `Hooks.v`, `Training.v`): an explicit state threaded through an
  interpreter; nodes of the graph live in a heap. Every walk has a fuel argument, exhaustion is an error, and the proofs show that the fuel given is enough.
* **Randomness**: a sample is a function of explicit noise, or a finitely supported distribution with expectations as finite sums.
  `torch.topk` and `torch.unique` are parameters constrained by what PyTorch documents; an instance of each is given (`TopkRef.v`, `Prop_Unique.v`).

Specifications live in `Spec*.v` and use nothing of the model except its data types. Theorems live in
`Prop_*.v` files that contain statements, short proofs, witness examples and `Print Assumptions`. Lemmas are in `*Proofs*.v`, `*Lemmas.v`.

## Which theorem for which property

MANIFEST.json maps every property of properties.jsonl to its theorems. Names ending in `_refuted` prove that the code, as modelled,
does *not* have the property (or a clause of it), with the witness as a program in the statement. Names ending in `_partial` prove
the property under a restriction; the note in MANIFEST.json and the comment above the theorem say what is missing.

## What is modelled

| file in /repo/storch | modelled in | not modelled |
|---|---|---|
| tensor.py Plate, Tensor.__init__, plate queries | Plates.v, Query.v | `__str__`, printing |
| tensor.py operators, indexing and attribute lookup | Names.v, Wrap.v, Matmul.v, TensorFns.v, Setitem.v | iteration, tensors as indices |
| tensor.py graph links, walks, `_clean` | Graph.v | `DeterministicTensor`/`CostTensor` as Python classes: tags on nodes |
| tensor.py StochasticTensor grads, `_clean` | Hooks.v | torch hooks themselves: a call of the hook is an event |
| wrappers.py unwrapping, wrapping, deterministic, make_left_broadcastable | Wrap.v, Context.v | Distributions are a class and a list of parameters; register_wrapper |
| wrappers.py stochastic, exceptions, `_unpack_wrap` | Stochastic.v, Names.v | function attributes copied by functools |
| storch.py reductions, reduce_plates, order_plates, variance, gather_samples, gather, cat, grad | Reduce.v, OrderPlates.v, Inference.v, TensorFns.v, Grad.v | `expand_as` (see below); what torch.autograd.grad computes: any function; numerics of `conditional_gumbel_rsample` see Relaxed.v |
| inference.py add_cost, denote_independent, backward, surrogate_loss, reset | Inference.v, Surrogate.v, Training.v, Graph.v | logging; `accum_grads=False` |
| util.py magic_box, topological_sort, print_graph, split, has_backwards_path, parameters, get_distr_parameters | Surrogate.v, Unfinished.v, Graph.v, PrintGraph.v, Autograd.v, Sampling.v | str of tensors |
| whole scripts (examples/introduction.py, examples/vae) | Straight.v | loops, Python control flow, optimisers; a log-probability is one wrapped call |
| excluded_init.py | Names.v | the act of patching the torch namespace |
| unique.py | Unique.v, UniqueReduce.v | - |
| method/method.py sampling, hooks, score function, Infer, temperature, Expect | Sampling.v, Hooks.v, Surrogate.v, Reparam.v, Estimators.v, Training.v, Graph.v, Enumerate.v, ExpectMethod.v | entmax/sparsemax; torch's rsample of continuous distributions: any function of uniform noise that is differentiable in the parameter |
| method/baseline.py | Surrogate.v | - |
| method/arm.py, relax.py | Estimators.v, Sampling.v, Arm.v, Relaxed.v, Relax.v, RelaxTraining.v, RebarSample.v | learned baselines as networks: any function |
| method/rao_blackwell.py, unordered.py, multi_sample_reinforce.py | RaoBlackwell.v, Unordered.v, ScoreWor.v, SeqMethod.v | - |
| sampling/method.py | Sampling.v | - |
| sampling/expect.py | Enumerate.v, EnumerateHot.v | event shapes other than that of one-hot vectors |
| sampling/importance_sampling.py | Importance.v, ImportanceMethod.v | - |
| sampling/seq.py decoder loop, plates, AncestralPlate | Swor.v, SworWeights.v, SeqPlates.v, Finished.v, Ancestral.v, Plates.v | several plates besides the sampling plate at once (one choice of their indices is followed) |
| sampling/swor.py, mapo.py | Swor.v, Gumbel.v, SworWeights.v, RaoBlackwell.v, ScoreWor.v, Unfinished.v | `MAPOSample.select_samples` (dead code inside `__init__`), `SumAndSample` on several rows |
| sampling/unordered_set.py | Unordered.v | GumbelSoftmaxWOR.sample |
| constructors of all sampling methods and estimators | Construct.v, Entmax.v, SharedSampler.v | ImportanceSampling, RELAX's list of control parameters |
| nn/losses.py | Losses.v: b_binary_cross_entropy on storch tensors | the argument weight, torch tensors as arguments |
| examples/, test/, docs/ | - | all |
| util.py `reduce_mean`, seq.py `right_expand_as`, `left_expand_as` | Util.v, ExpandAs.v | the mean is any function of a list of elements |

## Simplifications

* Floating point is exact real arithmetic: overflow, rounding, nan and inf are outside the model. Division by zero and the logarithm of
  a non-positive number are reported as such where a property depends on them (C33, C34).
* dtype and device are not modelled, except the integer samples of C50.
* Python's dynamic dispatch is resolved by hand; the comment on each definition cites the lines.
* Object identity is a number (`sid`, node index, weight object) where the code compares or shares objects.

## Trusted base

* Coq 8.16.1's kernel (no kernel check switched off, no axioms declared, no admitted proof).
* The hand translation from Python to Gallina in the model files and the reading of PyTorch's documented behaviour in `Torch.v`
  and in the comments of the model files.
* The specifications in `Spec*.v`: that they say what the English properties say.
* The axioms of Coq's standard library listed below. They come from `Reals` (`sig_forall_dec`, `sig_not_dec`,
  `functional_extensionality_dep`) and `Classical_Prop.classic` (through lemmas of `Reals` about exp, ln and continuity). The proofs of C55, C67, C68, C71, C72, C73, C76, C77, C79 and C80 also use
  Coquelicot (Riemann integrals); it is built on the same axioms and adds none. No other library is used by the proofs.

What `Print Assumptions` lists for each theorem of the `Prop_*.v` files:

* **No axioms (closed under the global context)**:
  C01_constructor_accepts, C01_constructor_fields, C01_constructor_rejects, C01_empty_plate_dims_refuted,
  C02_override_not_transitive_refuted, C02_plate_eq_reflexive, C02_plate_eq_same_name, C02_plate_eq_same_size,
  C02_plate_eq_same_weights_partial, C02_plate_eq_symmetric, C02_plate_eq_transitive, C02_plate_eq_weights_refuted,
  C03_arguments_aligned, C03_arguments_aligned_flat, C04_elementwise, C05_left_broadcastable, C06_ancestral_tie_refuted,
  C06_conflict_before_call, C06_conflict_rejected, C06_newest_ancestral_kept, C07_dim_absent_raises, C07_dim_overwrites,
  C07_dim_selects_plate, C07_dims_refuted, C08_dependencies_recorded, C08_no_dependencies, C08_storch_output_always_refuted,
  C08_storch_output_refuted, C09_context_restored, C10_exception_refuted, C10_ignore_scoped_partial, C10_nested_refuted,
  C11_conversions_raise, C11_data_attributes_refuted, C11_exposing_raise_partial, C11_methods_as_on_tensor, C11_missing,
  C11_normal_refuted, C11_passed_through, C11_unsupported, C12_walk_reachable, C13_topological_partial, C13_topological_refuted,
  C14_listed_partial, C14_side_branch_refuted, C14_topological_sort_partial, C14_twice_other_refuted, C14_twice_refuted,
  C15_links, C15_surrogate_refuted, C16_backward_cleanup_partial, C16_first_iteration, C16_methods_registered_once,
  C16_reset_partial, C16_reuse_refuted, C17_event_shape_refuted, C17_gap_refuted, C17_missing_parent, C17_reduce_plates_partial,
  C17_singleton_refuted, C18_gap_refuted, C18_only_given, C18_order_plates_partial, C18_twice_child_refuted,
  C18_twice_root_refuted, C19_constant, C19_non_negative, C19_other_plate, C19_plates_refuted, C19_shift, C19_variance_partial,
  C20_magic_box, C21_arm_refuted, C21_disarm_refuted, C21_relax, C21_score_function, C21_unordered, C21_value_partial,
  C22_no_costs, C22_surrogate_loss, C23_unbiased_partial, C23_weighted_partial, C24_leave_one_out, C24_single, C24_unbiased,
  C25_between, C25_decayed_average, C26_first_order_partial, C28_budget, C28_flat_refuted, C28_one_hot_errors,
  C28_one_hot_flat_refuted, C28_one_hot_partial, C28_single_refuted, C28_two_refuted, C29_components_refuted, C30_mean,
  C30_weights, C32_ancestor_partial, C32_cases, C32_chain_partial, C32_no_selection, C32_one_selection, C32_operation_partial,
  C32_parent_indexing, C32_scalars_refuted, C32_single_sample_refuted, C32_two_selections_refuted, C35_estimator,
  C35_linear_partial, C37_check_refuted, C37_infer_refuted, C38_argument_refuted, C38_elements_refuted,
  C38_first_dimension_partial, C38_inside, C38_one_plate_partial, C38_other_dimension_partial, C38_singleton_refuted,
  C38_storch_first_partial, C38_storch_other_partial, C38_two_plates_refuted, C39_gather_partial, C39_gather_torch_partial,
  C39_inside, C39_none, C39_order_refuted, C39_shapes, C39_single_refuted, C40_accepts_partial, C40_rejects_partial,
  C40_torch_refuted, C41_expect_taken, C41_importance_taken, C41_name_taken, C41_post_partial, C41_post_refuted, C41_repeated,
  C41_sample_partial, C42_collect_exact, C42_mixed_rejected, C42_other_plate_refuted, C42_plates_refuted, C42_raises_refuted,
  C42_reduce_alone_refuted, C42_reduce_refuted, C42_scalar_refuted, C42_select_partial, C42_undo_refuted, C42_unique_partial,
  C43_ancestral_refuted, C44_accumulate, C45_base, C45_lax_refuted, C45_score_function_partial, C45_unordered,
  C45_unordered_refuted, C45_without_replacement, C46_bad_dimension, C46_named_reduction, C47_one_term, C47_pathwise,
  C47_plate_lost, C47_unique, C48_backwards_path_partial, C48_first_input_refuted, C48_leaf_parameter_refuted,
  C48_no_gradient_partial, C48_stochastic_partial, C48_stochastic_refuted, C49_call_refuted, C49_keyword_refuted, C49_missing,
  C49_pair_partial, C50_batched_enumerated, C50_batched_partial, C50_enumerated, C50_order_raises_refuted, C50_single_refuted,
  C50_unbiased_partial, C51_and_refuted, C51_logical_refuted, C51_lshift_always_refuted, C51_lshift_refuted,
  C51_ne_always_refuted, C51_ne_refuted, C51_operators_partial, C51_rrshift, C51_unary, C59_dims_refuted, C59_no_events_refuted,
  C59_none, C59_reduced_partial, C59_target_plate_refuted, C59_unknown_refuted, C60_event_shapes, C60_expanded,
  C61_matrices_partial, C61_matrix_vector_refuted, C61_torch_left, C61_torch_right, C61_torch_vector, C61_vector_matrix_refuted,
  C61_vectors_refuted, C62_shared_partial, C62_vector_refuted, C63_broadcast_partial, C63_vector_refuted, C64_elements_partial,
  C64_events_partial, C64_number_refuted, C65_events_partial, C65_none, C65_numbers, C65_plate_refuted, C66_gather_partial,
  C66_single_refuted, C69_aligned_partial, C69_as_is_refuted, C69_categories_refuted, C69_forgotten_refuted, C69_mixed_refuted,
  C70_discrete_partial, C70_others_refuted, C74_ancestral_partial, C74_dependent_refuted, C74_narrow_refuted, C74_rejected,
  C74_single_refuted, C74_without_replacement_partial, C75_gradients_partial, C75_single_refuted, C75_torch_output_refuted,
  C75_unnamed_refuted, C75_unused_refuted, C78_mixed_loss, C78_quiet_loss, C79_exact, C80_logits_refuted, C80_two_costs_refuted,
  C80_two_samples_refuted, C80_unused_refuted, C80_update_partial, C80_without_graph, C81_alike_partial, C81_one_sample,
  C81_program_partial, C81_proposal_plates_refuted, C81_single_variable, C81_two_plates_refuted, C81_weights,
  C82_batch_average_partial, C82_functions, C82_unbiased_partial, C82_value_partial, C83_all_partial, C83_names_partial,
  C83_side_branch_refuted, C84_no_slices_refuted, C84_split_refuted, C85_select_refuted, C86_deterministic_refuted, C86_kinds,
  C86_outputs_partial, C87_accepts, C87_buffer_refuted, C87_control, C87_entmax, C87_eos_refuted, C87_ignored_refuted, C87_rebar,
  C87_settings_partial, C87_sparsemax, C87_sum_and_sample, C87_sum_sizes, C88_baseline_refuted, C88_chosen_partial, C88_names,
  C89_all_finished_partial, C89_ancestral_partial, C89_events_refuted, C89_fewer_refuted, C89_unset_refuted, C90_all_kept,
  C90_mean_partial, C90_negative_refuted, C90_repeated_refuted, C91_left_partial, C91_left_refuted, C91_right, C91_right_more,
  C92_covered_partial, C92_lacking_refuted, C92_torch, C93_installed, C93_other_plate, C95_dimension, C95_indices, C95_plate,
  C95_shapes, C96_left_over_refuted, C96_rejected_refuted, C96_separate_partial, C96_taken_over_refuted, C96_unknown_keyword,
  C96_untouched, C97_independent_refuted, C97_itself_partial, C97_rejected, C97_results, C98_assigned_partial,
  C98_depends_refuted, C98_number_refuted, C98_other_refuted, C98_outside, C98_samples_partial, C98_samples_refuted,
  C98_torch_partial, C99_alone_partial, C99_apart_partial, C99_batch, C99_kept_partial, C99_moving, C99_order_partial,
  C99_own_partial, C99_same_name_refuted, C99_shared_refuted, C99_slots
* **sig_forall_dec**:
  C53_twice_refuted, C71_single_refuted
* **sig_forall_dec, functional_extensionality_dep**:
  C29_epsilon_refuted, C29_products, C29_sequence_partial, C29_single_partial, C36_annealing, C36_iterations_partial,
  C36_minimum_refuted, C36_temperature_partial, C36_twice_refuted, C52_ancestral_refuted, C53_selection_partial
* **sig_forall_dec, sig_not_dec, functional_extensionality_dep**:
  C20_derivatives, C28_exact_partial, C34_certain, C34_last, C34_rao_blackwell, C34_single_refuted, C34_value,
  C35_quadratic_refuted, C77_check_refuted, C77_reparam_partial, C79_gradient, C80_derivative
* **sig_forall_dec, sig_not_dec, classic, functional_extensionality_dep**:
  C25_refuted, C26_refuted, C27_refuted, C28_plate_refuted, C31_distinct_partial, C31_exhaustive, C31_one_event_refuted,
  C31_truncated_refuted, C33_maximum_partial, C33_maximum_refuted, C33_order, C33_value, C34_normalised_partial,
  C34_rao_blackwell_few, C35_linear_refuted, C43_events_refuted, C43_joint_refuted, C43_tokens_partial, C43_tokens_refuted,
  C43_zero_refuted, C50_integer_refuted, C50_order_refuted, C52_joint_log_probs_partial, C52_total, C54_categorical,
  C55_bernoulli, C55_bernoulli_law, C55_categorical, C55_categorical_law, C56_bernoulli_refuted, C56_zero_partial,
  C57_series_refuted, C57_weights_partial, C58_baseline_refuted, C58_equal_partial, C67_density, C67_direct_refuted,
  C67_gradient_partial, C67_unbiased_partial, C68_gradient_refuted, C68_scalar_refuted, C68_term_partial, C68_vanishes_refuted,
  C71_conditioned_refuted, C71_threshold_partial, C72_resample, C73_distribution, C76_gradient_partial, C76_operations,
  C76_scalar_refuted, C77_gumbel_partial, C77_infer_refuted, C77_straight_through_refuted, C82_singleton_refuted,
  C87_adaptive_refuted, C94_rebar, C94_relax, C94_relaxed, C94_rows

## Findings

Behaviour of the code that contradicts its documentation or the obvious intent; each has a `_refuted` theorem unless marked (comment only).

* **C01** (Tensor construction checks the plates): Constructor loop of Tensor.__init__ characterised in both directions. Finding: plates of size 0 are plate dimensions to the constructor but not to multi_dim_plates (C01_empty_plate_dims_refuted). [C01_empty_plate_dims_refuted]
* **C02** (Plate equality is an equivalence and respects weights): Reflexive, symmetric, transitive (for plates not being unwrapped), same name, same size; weight clause proved for storch weights. Refuted: plates with different raw torch weights compare equal; with _override_equality set, transitivity fails. [C02_plate_eq_weights_refuted, C02_override_not_transitive_refuted]
* **C06** (Conflicting plates are rejected, newer ancestral plates win): Conflicts rejected before the call, newest ancestral plate kept. Refuted in the tie case: two different ancestral plates with one variable index both disappear. [C06_ancestral_tie_refuted]
* **C07** (dim and dims select the named plate dimension): dim proved: selects the position in the aligned layout; UnboundLocalError when absent; a dim keyword the caller passes is overwritten (C07_dim_overwrites). dims refuted: every non-empty dims raises. [C07_dims_refuted]
* **C08** (Wrapped calls record every dependency): Parents and nesting proved for outputs without storch tensors. Refuted for outputs that already are storch tensors: their dependencies are dropped (C08_storch_output_always_refuted for every such call). [C08_storch_output_refuted, C08_storch_output_always_refuted]
* **C10** (ignore_wrapping is scoped): Proved for blocks that are not nested and left normally. Refuted for exceptions (wrapping stays off) and nesting (inner block switches wrapping on). [C10_exception_refuted, C10_nested_refuted]
* **C11** (Storch tensors cannot leak into Python control flow): Conversions and listed names proved, methods proved elementwise. Refuted: normal_ is not rejected (missing comma), non-callable attributes evaluate to None. [C11_normal_refuted, C11_data_attributes_refuted]
* **C13** (The surrogate loss visits nodes in topological order): Proved when all paths from the cost to a tensor have equal length. Refuted otherwise: in c = f(a, b), b ~ p(b|a), node b is processed before its ancestor a. [C13_topological_refuted]
* **C14** (topological_sort lists every ancestor once, children first): Proved when all children of ancestors of the costs lead to the costs (C14_topological_sort_partial). In general exactly the tensors all whose childless descendants are costs are listed (C14_listed_partial), which refutes the property for graphs with side results: the ancestors of an unused result are missing from the list (C14_side_branch_refuted). A cost listed twice makes it raise IndexError or list a tensor before its child (C14_twice_refuted, C14_twice_other_refuted). [C14_side_branch_refuted, C14_twice_refuted, C14_twice_other_refuted]
* **C15** (Graph links are symmetric and acyclic): Every history of constructions. Finding: surrogate_loss itself breaks the symmetry with its stand-in tensors (C15_surrogate_refuted). [C15_surrogate_refuted]
* **C16** (reset forgets the graph): Proved for graphs without previously cleaned tensors, for reset and for the end of backward. Refuted for tensors reused after a clean-up: the _cleaned flag is never cleared, so their links survive. [C16_reuse_refuted]
* **C17** (reduce_plates is the weighted sum over plates): Proved for every tensor and every set of plates without ancestry gaps, for scalar, per-sample and batched weights. Refuted: a singleton plate with a storch weight is not removed; a one-dimensional storch weight leaves trailing singleton event dimensions; a list with an ancestry gap leaves plates unreduced. [C17_singleton_refuted, C17_event_shape_refuted, C17_gap_refuted]
* **C18** (order_plates is a topological ordering of its input): Proved for every list of plates whose parent relation has no gaps (ancestors reached only through missing plates). Refuted with a gap: the result silently omits plates (C18_gap_refuted). Also refuted for a plate given twice next to its parent or child: ValueError (C18_twice_root_refuted, C18_twice_child_refuted). [C18_twice_root_refuted, C18_twice_child_refuted, C18_gap_refuted]
* **C19** (variance is a variance): The value is proved to be the weighted mean over all plates of the squared deviation from the weighted mean over the plate, with non-negativity, shift invariance and zero for constants, under the weight conditions of C17 (singleton plates with storch weights excluded). Refuted as to which plates are reduced: the argument plates is only checked, and all plates are reduced whatever is passed (C19_plates_refuted). [C19_plates_refuted]
* **C21** (backward returns the weighted total cost): Proved for every mix of estimators that deliver a number per plate assignment and whose control variate evaluates to zero: score function with any baseline, RELAX and REBAR, and the unordered set estimator (C21_unordered). Refuted for ARM (event dimensions are not summed) and DisARM (the baseline is not multiplied by one minus magic_box). [C21_arm_refuted, C21_disarm_refuted]
* **C25** (The moving-average baseline keeps the gradient unbiased and is an average of past costs): Decayed average of the costs seen by one baseline object, and its bounds, proved. Refuted: the average includes the current cost, so the expected gradient with two samples is 1 - (1-d)/2 times the right one. [C25_refuted]
* **C26** (Baselines keep higher-order gradients unbiased): Proved for first derivatives, for any baseline that is independent of its sample. Refuted for second derivatives with a constant baseline. [C26_refuted]
* **C27** (Averaging a cost over its plates before registering it gives the same gradient): The claim is false of the code: the expected gradient of the averaged cost is half of that of the cost with two samples. [C27_refuted]
* **C28** (Expect computes the exact expectation): Proved for a support of at least two values, at most one dimension of components and plates above size one, for every budget, for distributions of numbers and of one-hot vectors. False otherwise: two dimensions of components raise RuntimeError, shape [1, d] and plates of size one silently enumerate only constant outcomes (and vectors of zeros for one-hot vectors), a support of one value raises IndexError. [C28_two_refuted, C28_flat_refuted, C28_plate_refuted, C28_single_refuted, C28_one_hot_flat_refuted]
* **C29** (Importance sampling is unbiased): Proved: ImportanceSampling is unbiased for distributions without components; sequence weights are products of the ratios for every epsilon, and unbiased for epsilon 0. False: a positive epsilon biases the sequence weights; with components the weights keep the component dimension and the reduced cost is a vector. Plates of the proposal (add_prop_plates) are the subject of C81. [C29_epsilon_refuted, C29_components_refuted]
* **C31** (Sampling without replacement never repeats): Proved for every chain of variables, event shapes, domain sizes, noise, k and eos under slice_ok and eos_ok, for any function that does what torch.topk promises. False without: a first variable with one event and an event dimension and fewer than k options raises ValueError (C31_one_event_refuted); a variable with one option loses events (C31_truncated_refuted); eos with event dimensions raises (C43_events_refuted). One choice of the other plates; uses the axioms of Reals. [C31_one_event_refuted, C31_truncated_refuted]
* **C32** (Earlier variables follow the selected ancestors): on_unwrap_tensor and operators: for every chain of selections the exact sample reached is proved (C32_chain_partial, C32_operation_partial); it is the ancestor when there is one selection in between or when the earlier selections are stable when followed twice (C32_ancestor_partial), and without selections (C32_no_selection). The full claim is false of the code: after two or more selections all but the last are applied twice (C32_two_selections_refuted), tensors without event dimensions get an extra one that breaks operators (C32_scalars_refuted), and a parent plate with one sample fails (C32_single_sample_refuted). Tensors with two different sampling plates are not covered. [C32_two_selections_refuted, C32_scalars_refuted, C32_single_sample_refuted]
* **C33** (Conditional Gumbel samples respect the parent maximum): The order is kept (proved for every input). The maximum is T - ln(1 + 1e-6 e^(T - max)), never T (C33_maximum_refuted). Exact real arithmetic; uses the axioms of Reals. [C33_maximum_refuted]
* **C34** (Sampling weights sum to one): Proved: last weight zero; normalised weights of two or more samples nonnegative with sum one; Rao-Blackwellised weights sum to one for k samples and, when there are fewer than k outcomes, for every chain of variables. False for one sample with normalisation: 0/0 (C34_single_refuted). [C34_single_refuted]
* **C35** (REINFORCE without replacement is linear in the cost): The term ScoreFunctionWOR.estimator returns is the term of equation 9, 10 or 11 and is linear in the cost (C35_estimator, C35_linear_partial). The claim about the gradient is false: the term holds the cost and not the log-probability, and surrogate_loss multiplies it by the cost again, so scaling a constant cost by s scales the gradient by s * s (C35_quadratic_refuted), shown on a program for each of the four settings (C35_linear_refuted). The importance weights are modelled element by element. [C35_quadratic_refuted, C35_linear_refuted]
* **C36** (Temperature annealing is monotone and bounded): Proved over any number of backward calls: the temperature does not increase, stays positive and stays above (1 - rate) * min_temperature; iterations grow by the number of tensors sampled by the method. Refuted: one step can cross min_temperature (C36_minimum_refuted), and two samples of one method count twice per backward call (C36_twice_refuted). Uses the axioms of the standard library Reals. [C36_minimum_refuted, C36_twice_refuted]
* **C37** (Infer uses reparameterization when it is available): The claim is false of the code: links are always recorded as non-differentiable, so Infer never recognises a pathwise gradient and the optional check rejects every cost. [C37_infer_refuted, C37_check_refuted]
* **C38** (denote_independent labels the chosen dimension and leaves its argument alone): Proved for torch tensors and storch tensors without plate dimensions (any dimension), and for the dimension right behind a single plate: the new first plate indexes the chosen dimension and every element is found again. False in general: the argument's own plate list is changed and the argument becomes malformed (C38_argument_refuted); with two plates of different sizes every event dimension is rejected (C38_two_plates_refuted), with equal sizes the elements are permuted silently (C38_elements_refuted); singleton dimensions next to a plate are rejected (C38_singleton_refuted). Negative dims are not modelled. [C38_argument_refuted, C38_two_plates_refuted, C38_singleton_refuted, C38_elements_refuted]
* **C39** (gather_samples stacks the samples): Proved for two or more samples whose plate dimensions come in the same order. False for samples whose plates are in another order (C39_order_refuted: silently wrong) and for one sample with a plate (C39_single_refuted: rejected). [C39_order_refuted, C39_single_refuted]
* **C40** (add_cost only accepts scalar-per-plate costs): Proved for storch tensors in full. False for torch tensors: any shape and any (even empty) name is registered (C40_torch_refuted). [C40_torch_refuted]
* **C41** (A sample gets a fresh first plate): Proved for methods without post_sample. With post_sample the result has the intermediate sample as its only parent (C41_post_partial, C41_post_refuted). [C41_post_refuted]
* **C42** (undo_unique inverts unique): Proved for tensors with one plate dimension and events: unique keeps every different value once and the inverse indices lead back to every value, for any function that keeps the promise of torch.unique (an instance is given). The claim is false: UniquePlate.undo_unique leaves the unique plate on its result, so undo_unique never returns a tensor (C42_undo_refuted) and raises on every result of unique (C42_raises_refuted). unique itself raises for two plate dimensions and for plates without events. UniquePlate.undo_unique alone, when it returns, selects the right elements if the unique plate is the only one (C42_select_partial); with a second plate it selects along that plate (C42_other_plate_refuted). Tensors with a plate and a unique plate that shrank it are rejected (C42_mixed_rejected); therefore unique plates cannot be reduced (C42_reduce_refuted, C42_reduce_alone_refuted). [C42_undo_refuted, C42_raises_refuted, C42_plates_refuted, C42_scalar_refuted, C42_other_plate_refuted, C42_reduce_refuted, C42_reduce_alone_refuted]
* **C43** (Finished sequences stay finished): Proved: a finished sequence produces eos again and keeps its perturbed log-probability if at least k options are possible. False otherwise (C43_tokens_refuted); the joint log-probability changes at each step (C43_joint_refuted); eos 0 is ignored; with event dimensions or ancestral sampling the code raises. [C43_joint_refuted, C43_tokens_refuted, C43_zero_refuted, C43_events_refuted, C43_ancestral_refuted]
* **C45** (Every exported estimator produces its pair of terms): Proved for the score function (with any baseline) and the base class (Expect); RELAX by C21_relax. Refuted for LAX (undefined variable) and for the unordered set estimator without baseline (returns a single tensor). ScoreFunctionWOR and the unordered set estimator with its baseline return a pair for every cost that has their plate (C45_without_replacement, C45_unordered). [C45_lax_refuted, C45_unordered_refuted]
* **C48** (has_backwards_path reports exactly the connected inputs): All entries but the first are exact, for ordinary outputs (C48_backwards_path_partial, C48_no_gradient_partial) and for StochasticTensors whose parameters were computed (C48_stochastic_partial). Refuted: input 0 is never found, a parameter that is a leaf is not found (C48_leaf_parameter_refuted), and a StochasticTensor whose only input is its own parameter raises TypeError. [C48_first_input_refuted, C48_stochastic_refuted, C48_leaf_parameter_refuted]
* **C49** (storch.stochastic passes its arguments on): The claim is false of the code: any call with values that are not dicts fails before the function is reached. A call with a list and a dict works. [C49_call_refuted, C49_keyword_refuted]
* **C50** (Rao-Blackwellised score function is unbiased at any order): Proved for one variable, alone and with any plates around it (every row sampling independently), floating point samples and k > 1: the loss the program computes, averaged over the sampled options, is the (weighted sum of the rows') expected cost as a function of the parameters; with fewer options than k it is the expected cost without sampling. False: for integer samples (Categorical) the score is stored in an integer tensor, so the derivative is wrong; for k = 1 the estimator raises IndexError; with a cost that has the samples before another plate the log-probability is taken at the wrong position, giving a wrong derivative or an IndexError. Sequences are not covered. [C50_integer_refuted, C50_single_refuted, C50_order_refuted, C50_order_raises_refuted]
* **C51** (Operators compute the torch operator on the operands as written): Arithmetic and comparison operators proved. Refuted: << exchanges its operands, != raises, & | ^ are logical instead of bitwise. The unary operators and __rrshift__ are proved too; for @ see C61. [C51_lshift_refuted, C51_ne_refuted, C51_and_refuted, C51_lshift_always_refuted, C51_ne_always_refuted, C51_logical_refuted]
* **C52** (Joint log-probabilities belong to the sampled sequences): Proved for sampling without replacement under the conditions of C31 (slice_ok, eos_ok). Refuted for MCDecoder: joint_log_probs is reset before each sum, so that it is the log-probability of the last variable alone (C52_ancestral_refuted). [C52_ancestral_refuted]
* **C53** (The Rao-Blackwellised selection is the top of the distribution and one other sample): Proved for perturbed log-probabilities above -1e10. False if the other options are impossible (C53_twice_refuted). [C53_twice_refuted]
* **C56** (Conditional relaxed samples of a Bernoulli variable round to the hard sample): Proved given the hard sample 0. Given the hard sample 1 the claim is false: the code uses log1p(p) and log1p(v') where -log(1-p) and -log(1-v') are meant, and for every p up to 0.366 the result always rounds to 0 (C56_bernoulli_refuted). [C56_bernoulli_refuted]
* **C57** (Plate weights of the unordered set estimator are the integrated leave-one-out weights): For one choice of the other plates and exact real arithmetic: proved with the 1e-6 log1mexp adds to each factor, whenever the bound g stays below 10 (always with the default a = 5 and fewer than 2^214 points). False for larger bounds: the code uses the series for small y = exp(g) when g >= 10, that is when y is large (C57_series_refuted). [C57_series_refuted]
* **C58** (The baseline of the unordered set estimator is the leave-one-out average of the cost): Proved for samples of equal probability. False in general: integrand_without_ss subtracts the term of the plate's sample a second time instead of the term of the other sample, so the ratios are wrong (C58_baseline_refuted). Same modelling as C57. [C58_baseline_refuted]
* **C59** (b_binary_cross_entropy reduces events and named plates only): Proved for reduction none and, without names in dims, for mean and sum over at least one event dimension. Refuted: naming a plate of more than one sample in dims always raises ValueError (the outer wrapper puts the reduced plate back), an input without event dimensions raises ValueError, a target with a plate the input lacks raises RuntimeError. [C59_unknown_refuted, C59_dims_refuted, C59_no_events_refuted, C59_target_plate_refuted]
* **C61** (The operator @ multiplies sample by sample): Proved for storch operands of equal event rank of at least two and for a torch matrix on either side. Refuted: for vectors with a common plate samples are mixed (silently if the number of samples is the vector length, otherwise RuntimeError); matrix times vector keeps a dimension of one; vector times matrix raises. Cause: event dimensions are padded on the right while torch.matmul aligns on the right. [C61_vectors_refuted, C61_matrix_vector_refuted, C61_vector_matrix_refuted]
* **C62** (Torch tensors as operands are shared by all samples): Proved for torch tensors of no more dimensions than the event. Refuted for a torch vector next to numbers: RuntimeError, or silently one position per sample of the last plate if the length is its number of samples. [C62_vector_refuted]
* **C63** (Distribution parameters are combined sample by sample): Proved for any number of storch tensors with any plates and torch tensors of no more dimensions than the largest event; events of different ranks are padded on the right first, as everywhere in the library. Refuted for a torch vector next to numbers (as C62). The modelled function is torch.broadcast_tensors; broadcast_all also converts numbers to tensors, which is not modelled. [C63_vector_refuted]
* **C64** (Indexing a storch tensor indexes the event of every sample): Proved for indices that leave the plates alone (':' for every plate of more than one sample, or starting with '...'). Refuted for x[i]: it selects a sample of the first plate but keeps the plate, raising ValueError or silently taking event rows for samples. Tensors and steps in indices are not modelled; assignments are C98. [C64_number_refuted]
* **C65** (Concatenation concatenates the events of every sample): Proved for dimensions counted from the end, or from the start after adding the number of plates of more than one sample. Refuted for dimensions counted from the start of the event: ValueError if they fall on a plate. [C65_plate_refuted]
* **C66** (gather picks the sample named by the index): Proved in full for plates of more than one sample. Refuted for a plate with one sample: UnboundLocalError, because the wrapper only looks for the name among plates of more than one sample. [C66_single_refuted]
* **C67** (The gradient of ARM is unbiased): Proved for every program of one ARM variable of any shape: the expected derivative is the true one plus m - 1 times the expected derivative of the cost itself, m the number of binary variables (C67_gradient_partial); so it is unbiased for one variable or a cost that depends on the parameters through the samples only (C67_unbiased_partial). Refuted otherwise: the cost is added once per variable, in value and derivative (C67_direct_refuted). Exact real arithmetic; integrals are Riemann integrals of Coquelicot (its lemmas use the axioms of Reals and classical logic only). DisARM is C68. [C67_direct_refuted]
* **C68** (The gradient of DisARM is unbiased): Refuted for every program of one DisARM variable: the expected derivative of the loss is 3/2 of the expected derivative of the cost itself and the logits have no part in it (C68_gradient_refuted, C68_vanishes_refuted); for a scalar variable backward raises ValueError (C68_scalar_refuted). Proved: the term the estimator returns has the right expected derivative when it is multiplied by the difference of the costs of a pair (C68_term_partial), so what goes wrong is how the loss uses the control variate and the weights. The weight of the estimator is any function with the value of the code: it is detached. [C68_gradient_refuted, C68_vanishes_refuted, C68_scalar_refuted]
* **C69** (Distributions as arguments are unwrapped like tensors): Proved: parameters whose plates the tensors of the call have, and with no more event dimensions than they, are laid out like the tensors, at every depth (C69_aligned_partial). Refuted otherwise: parents and plates of the result never come from parameters (C69_forgotten_refuted), so that a plate only a parameter has becomes an event dimension and samples are mixed (C69_mixed_refuted, an example); parameters with fewer event dimensions lose their last dimension to padding, which is that of the categories (C69_categories_refuted); relaxed and nested distributions are passed with storch tensors inside (C69_as_is_refuted). A distribution is its class and its list of parameters; torch's own broadcasting and validation of parameters is not modelled. [C69_forgotten_refuted, C69_mixed_refuted, C69_categories_refuted, C69_as_is_refuted]
* **C70** (Distributions returned by wrapped functions have storch parameters): Proved for discrete distributions (C70_discrete_partial), refuted for all other classes without a registered wrapper: no call returns (C70_others_refuted). register_wrapper is not modelled. [C70_others_refuted]
* **C71** (Weights of sampling without replacement are unbiased): Proved for Gumbels drawn independently: given the values of the others, the mean of an option's weight over its own noise is its probability, up to the EPS in compute_iw (C71_threshold_partial). Refuted for the program: decode_step conditions the first variable on the maximum 0, so for two equally likely options and two samples the expected sum of the weights is at most 0.99 whatever the other noise is (C71_conditioned_refuted); a single sample has weight 0 (C71_single_refuted). [C71_conditioned_refuted, C71_single_refuted]
* **C74** (A variable sampled in a sequence has the plates of its distribution and the sampling plate, each at its dimension): Proved for decoders without replacement with more than one sample (C74_without_replacement_partial) and for MCDecoder with independent variables and more than one sample (C74_ancestral_partial). Refuted otherwise: MCDecoder rejects every variable that depends on an earlier one of the sequence, because it inherits on_plate_already_present (C74_dependent_refuted); decoders without replacement drop plates with one sample (C74_narrow_refuted); one sample leaves its dimension of size one in the event, and raises in MCDecoder with other plates (C74_single_refuted). The plates of IterDecoding's sample are those of its support; requires_grad is not modelled. [C74_dependent_refuted, C74_narrow_refuted, C74_single_refuted]
* **C75** (storch.grad returns each gradient with the plates of its input): Proved for lists of storch outputs, lists or tuples of inputs with names, and gradients for all inputs. False, with proofs, for a storch input without a name (`None + "_grad"` raises TypeError, and None is the default name), for a single tensor as outputs (`tensor + [input]` raises), for a torch tensor among the outputs (it has no _children) and for unused inputs (Tensor(None, ...) raises). [C75_unnamed_refuted, C75_single_refuted, C75_torch_output_refuted, C75_unused_refuted]
* **C76** (RELAX gives unbiased gradients): Proved for one sample of one-hot categorical variables, or more samples if there is at least one event dimension, and continuously differentiable control variates, over exact real arithmetic without clamping (C76_gradient_partial). Expectations are Riemann integrals over the noise (SpecExpect.expect), so what happens when two Gumbels are equal does not matter. False for two or more samples of variables without event dimensions, where the program raises (C76_scalar_refuted). Not covered: control variates with kinks (Baseline's relu), rebar, Bernoulli (whose conditional samples are wrong, C56). Uses Coquelicot. [C76_scalar_refuted]
* **C77** (Reparameterised samples give unbiased gradients): Reparameterization (any number of samples, shapes, and reparameterisation that is differentiable uniformly in the noise) and GumbelSoftmax are unbiased as whole programs up to backward. Refuted: Infer, whose is_pathwise never finds a differentiable path (C37), adds the score function on top of the gradient through the reparameterised sample, so that for a uniform variable on (0, t) and the cost x the gradient is 0 for every noise instead of 1/2 on average; with CHECK_DIFFERENTIABLE_PATH every program is rejected; the straight-through variant of GumbelSoftmax is biased. Missing from the proven part: noise for which derivatives are not bounded (such as costs of normal variables that grow without bound). [C77_check_refuted, C77_straight_through_refuted, C77_infer_refuted]
* **C80** (RELAX trains its control variate on the variance): Proved for a method with one sample below the costs, distributions with parameters "probs", gradients with at least one event dimension and objectives that depend on all control parameters (C80_update_partial; C80_derivative for one number). Refuted: with two or more samples backward calls _update_parameters once per sample, and the second call, which has no pairs left, clears all gradients (C80_two_samples_refuted); a sample below m costs counts m times, because surrogate_loss makes a copy for each cost and the set keeps all copies (C80_two_costs_refuted); a parameter the objective does not depend on gets gradient 1 or makes the update fail, because backward(None) means 1 (C80_unused_refuted); a distribution made from logits has no gradient named "probs" (C80_logits_refuted). torch.autograd.grad is any function. [C80_two_samples_refuted, C80_two_costs_refuted, C80_unused_refuted, C80_logits_refuted]
* **C81** (Importance sampling with the score function is unbiased): Proved for whole programs of one variable, from sampling to backward, any number of samples (C81_single_variable, C81_one_sample); for any program with one plate per variable, given its tensors (C81_program_partial, C81_alike_partial), whose weights C81_weights establishes from the code of the sampling method. Refuted for proposals that have plates the distribution lacks: the sample then counts too few plate dimensions and cannot be combined with tensors over that plate (C81_proposal_plates_refuted), and two such plates are swapped (C81_two_plates_refuted). [C81_proposal_plates_refuted, C81_two_plates_refuted]
* **C82** (The expected loss of a whole script is its expected cost): Proved for every straight-line script, from its statements through sampling, wrapped calls and the graph to backward (C82_unbiased_partial), also with batch-average baselines up to first derivatives (C82_batch_average_partial); the value of the loss is the average cost (C82_value_partial); elementwise functions, sums and compositions are covered functions (C82_functions). Refuted when a variable with several samples depends both on a variable with one sample and on a plate of several: order_plates leaves the plate out and backward raises ValueError whatever is sampled (C82_singleton_refuted). Missing: other estimators and sampling methods in one script. [C82_singleton_refuted]
* **C83** (print_graph shows every ancestor of the costs under its own name): Proved for every graph: the names differ and are as documented, and every listed tensor and its links are printed (C83_names_partial); all ancestors are listed if every childless descendant of an ancestor is a cost (C83_all_partial). Refuted otherwise, as print_graph uses topological_sort (C14): an ancestor of a cost with another childless descendant is never printed (C83_side_branch_refuted). [C83_side_branch_refuted]
* **C84** (split cuts a tensor along a plate): Refuted: split never returns. It calls index_in, a method of Plate, on a list of plates, so it raises AttributeError for every plate of the tensor and every slices (C84_split_refuted). Without slices it raises earlier: TypeError if no number of slices is given, a division by zero for zero slices (C84_no_slices_refuted). The code after that line cannot be reached and is a parameter of the theorem. [C84_split_refuted, C84_no_slices_refuted]
* **C85** (SumAndSample selects the most probable values and samples of the others): Refuted on one row of log-probabilities: for no sizes and options does the class give samples; it returns None, two results instead of three, or asks topk for more options than there are (C85_select_refuted). Rows per plate are not modelled. [C85_select_refuted]
* **C86** (Outputs of stochastic functions depend on all arguments): Proved for functions that return torch tensors with the plate dimensions in front (C86_outputs_partial). Refuted for storch tensors that are not samples: the code calls a method _add_parents that does not exist, so no such call returns (C86_deterministic_refuted). [C86_deterministic_refuted]
* **C87** (Settings given to a constructor are the settings that are used): Proved for all 25 classes and every call that does not raise, for the settings that are not lost (C87_settings_partial); which calls are accepted is C87_accepts. Refuted: RaoBlackwellizedSample and MAPOSample pass eos in the position of biased_iw, so that the decoder has no eos and the weights become biased (C87_eos_refuted); MAPOSample never uses its buffer (C87_buffer_refuted); GumbelSoftmaxWOR and UnorderedSetGumbelSoftmax ignore min_temperature and annealing_rate, SumAndSample ignores without_replacement (C87_ignored_refuted); GumbelEntmax with adaptive=True starts from a larger alpha than the one given (C87_adaptive_refuted). [C87_eos_refuted, C87_buffer_refuted, C87_ignored_refuted, C87_adaptive_refuted]
* **C88** (Infer uses the baseline it documents): Infer makes the documented method (C88_chosen_partial), but refuted: its estimator is that of a second ScoreFunction made without a baseline, for every distribution and number of samples (C88_baseline_refuted). Names of baselines: C88_names. [C88_baseline_refuted]
* **C89** (all_finished tells whether every sequence has ended): Proved for variables without event dimensions of which k samples were drawn, for all plates and values. False in the code: with fewer samples than k the answer is always no (C89_fewer_refuted); with event dimensions the last of these is counted instead of the samples (C89_events_refuted); eos 0 raises RuntimeError and a method that has not sampled AttributeError (C89_unset_refuted); for ancestral sampling with plates the last dimension is counted (C89_ancestral_partial). [C89_fewer_refuted, C89_events_refuted, C89_unset_refuted]
* **C90** (reduce_mean averages over exactly the dimensions that are not kept): Proved for distinct dimensions counted from the front. False for the rest: as many entries as dimensions return the tensor as it is even if they are repeated and a dimension is missing (C90_repeated_refuted); negative, too large or repeated dimensions otherwise raise ValueError (C90_negative_refuted). [C90_repeated_refuted, C90_negative_refuted]
* **C91** (right_expand_as and left_expand_as only repeat the tensor): Proved for both functions on torch tensors if the tensor has at most as many dimensions as the other one, and for right_expand_as always. False for left_expand_as with more dimensions: its slice with a negative end adds dimensions (C91_left_refuted); its only call in storch does not have this. For right_expand_as on storch tensors see C92. [C91_left_refuted]
* **C92** (right_expand_as works per sample on storch tensors): Proved if the first tensor has all plates of the second one with more than one sample. False otherwise (C92_lacking_refuted): the sizes -1 keep the plate dimension of size one that unwrapping put in for the missing plate, and the constructor of the result raises ValueError. [C92_lacking_refuted]
* **C96** (Every estimator samples and weights with its own functions): Proved for estimators that have sampling methods of their own. The full statement is false: sampling methods are changed in place, so of two estimators on one sampling method the first gets the functions of the second (C96_taken_over_refuted), the second keeps those of the first that it does not set (C96_left_over_refuted: ScoreFunction after ARM draws ARM's antithetic samples), and a construction rejected for the plate name has already changed the sampling method (C96_rejected_refuted). [C96_taken_over_refuted, C96_left_over_refuted, C96_rejected_refuted]
* **C97** (Deterministic functions cannot hand out samples): Proved that samples never get out (C97_rejected) and what the tensors in results are (C97_results); other tensors with the plates of the arguments are returned (C97_itself_partial). False for the tensors that denote_independent and gather_samples make: IndependentTensor.stochastic is a plain method instead of a property, so reading it is always true and a deterministic function that returns such a tensor raises RuntimeError (C97_independent_refuted). [C97_independent_refuted]
* **C98** (Assigning to part of a storch tensor): Proved for values without plates of their own and with as many event dimensions as the places assigned to (C98_assigned_partial), for torch tensors and numbers, with or without dimensions for the plates (C98_torch_partial, C98_samples_partial), and for indices outside the event (C98_outside), always for indices that leave the plates alone. False otherwise: the value never becomes a parent of the tensor (C98_depends_refuted); a value with samples of another variable raises RuntimeError (C98_samples_refuted); a value with fewer event dimensions is laid out along the wrong dimension, as left-broadcasting is off (C98_number_refuted, C98_other_refuted). [C98_depends_refuted, C98_samples_refuted, C98_number_refuted, C98_other_refuted]
* **C99** (Every cost has its own baseline): Proved: if the variables of a cost have all its plates, its loss reads and changes only the averages kept for these variables and this cost (C99_own_partial), for any baselines that keep to the average they are called for, as both of the library do (C99_moving, C99_batch); each of several such costs with different averages gets the loss it gets alone, in any order (C99_alone_partial, C99_order_partial). Refuted for costs with plates that a variable lacks (C99_shared_refuted): they are averaged over these plates first, the result carries the name of the torch function that computed it, and all such costs of a variable share one moving average; the gradient of one then depends on which others were handled before. Costs registered under the same name also share it, and nothing checks that names differ (C99_same_name_refuted). The model keeps the averages of all methods in one place, where the code has one set per method object. [C99_same_name_refuted, C99_shared_refuted]

Found while reading, without a theorem:

* storch/sampling/seq.py:197 resets the joint log-probabilities to None for MCDecoder.
* storch/method/arm.py: DisARM computes a plate weighting that is never registered (C68 has the consequence: all samples of a pair count).
* storch/method/baseline.py: the key of the moving average is the name of the reduced cost.
* `storch.expand_as` (storch.py:60-61) refers to `torch.expand_as`, which torch does not have: every call raises AttributeError.

## Wrong programs (seeded/LOG.jsonl)

Every line is one edit of a model definition in a scratch copy. How to read it:

- Only the `Prop_*.v` files of the properties named in `claim` were rebuilt in the later rounds, so `failed` is not always the full list of theorems that the edit breaks.
- A line whose `failed` names only lemmas (about four in ten) says where the build stopped. The theorems of the claim are proved from these lemmas and were not reached. That a proof script of a lemma fails does not by itself show that the theorem is false of the edited model.
- `(statement)` after a name means that the statement itself no longer type-checked, usually because the edit changed the arguments of a definition after its section. That is not evidence that the theorem notices the bug.
- A line with an empty `failed` and theorems under `tightened` is a survivor that led to these theorems. An empty `failed` and `tightened` is either a survivor with the reason in `note` or `claim`, or an attempt without measurement, which `note` says.
- Attempts without measurement were left out of the log at first. They and one other forgotten line were added later and say so. They were repeated with edits that type-check.
- `Estimators.rao_blackwell_estimator` no longer exists. No theorem used it, its edit survived, and it was removed as dead code. The estimator of C50 is `rb_estimator` in `RaoBlackwell.v`.

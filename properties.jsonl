{"id": "C01", "title": "Tensor construction checks the plates", "statement": "storch.Tensor(t, parents, plates) succeeds exactly when all plate names are distinct and the leading dimensions of t are, in order, the sizes of the plates of size other than 1; otherwise it raises ValueError. On success plate_dims is the number of those plates and event_shape is the rest of the shape.", "quantifier": "every tensor shape and every list of plates", "why_tests_cant": "shapes and plate lists are unbounded; tests see a few ranks", "anchors": ["storch/tensor.py:Tensor.__init__"]}
{"id": "C02", "title": "Plate equality is an equivalence and respects weights", "statement": "Comparing plates with == is reflexive, symmetric and transitive, equal plates have the same name and size, and plates whose samples are weighted differently are never equal.", "quantifier": "every pair and triple of plates and weights", "why_tests_cant": "an equivalence law ranges over all pairs and triples of plates and all weight tensors", "anchors": ["storch/tensor.py:Plate.__eq__", "storch/sampling/seq.py:AncestralPlate.__eq__"]}
{"id": "C03", "title": "Unwrapping aligns plates without losing or moving data", "statement": "When several storch tensors are passed to a wrapped function, each is handed over with one dimension per collected non-singleton plate, in the same plate order for every argument, singleton where the tensor lacks the plate, and the element at a given plate assignment and event index is the element the tensor had there.", "quantifier": "every number of plates, every plate order, every event shape, every argument tensor", "why_tests_cant": "there are factorially many plate orders; tests try one or two", "anchors": ["storch/wrappers.py:_unsqueeze_and_unwrap", "storch/wrappers.py:_prepare_args"]}
{"id": "C04", "title": "Elementwise operations act per plate assignment", "statement": "For an elementwise binary torch function, calling it on storch tensors whose equally named plates agree returns a storch tensor whose plates are the union of the input plates in first-seen order, and whose value at every assignment of plate indices and event index is the function applied to the inputs at that assignment.", "quantifier": "every elementwise function, every pair of well-formed storch tensors with compatible plates and broadcastable event shapes", "why_tests_cant": "needs all plate orders, sizes and contents", "anchors": ["storch/wrappers.py:_handle_deterministic", "storch/wrappers.py:_unsqueeze_and_unwrap", "storch/tensor.py:Tensor.__add__"]}
{"id": "C05", "title": "make_left_broadcastable is batchwise application", "statement": "Wrapping a function that maps a batch independently along its first dimension with make_left_broadcastable gives, at every plate assignment, the result of that function on that slice, with the plates of the arguments restored on the output.", "quantifier": "every number and size of plates, every batchwise function", "why_tests_cant": "the flatten/unflatten index arithmetic is over all shapes", "anchors": ["storch/wrappers.py:make_left_broadcastable", "storch/wrappers.py:_prepare_outputs_det"]}
{"id": "C06", "title": "Conflicting plates are rejected, newer ancestral plates win", "statement": "If arguments carry two different ordinary plates with the same name, the wrapped call raises ValueError before running the function; if they carry ancestral plates of one name with different variable indices, exactly the one with the highest index is kept.", "quantifier": "every collection of argument tensors and plates", "why_tests_cant": "conflict depends on every pair of collected plates", "anchors": ["storch/wrappers.py:_prepare_args", "storch/tensor.py:Plate.on_collecting_args", "storch/sampling/seq.py:AncestralPlate.on_collecting_args"]}
{"id": "C07", "title": "dim and dims select the named plate dimension", "statement": "The wrapper options dim and dims replace the given plate name(s) by the position of that plate in the aligned arguments.", "quantifier": "every list of collected plates and every requested name", "why_tests_cant": "needs every plate list", "anchors": ["storch/wrappers.py:_prepare_args"]}
{"id": "C08", "title": "Wrapped calls record every dependency", "statement": "The outputs of a deterministic call have as parents exactly the storch tensors occurring anywhere in the arguments, in order, the nesting of the outputs is preserved, and an output that already is a storch tensor keeps its own dependencies.", "quantifier": "every nesting of lists, tuples and dicts in arguments and outputs", "why_tests_cant": "argument structures are recursive and unbounded", "anchors": ["storch/wrappers.py:_collect_parents_and_plates", "storch/wrappers.py:_prepare_outputs_det"]}
{"id": "C09", "title": "Context flags are restored on every path", "statement": "After any nesting of deterministic and stochastic calls, whether functions return or raise, the deterministic depth and the stochastic context are what they were before the call.", "quantifier": "every program built from nested wrapped calls, every point where a function raises", "why_tests_cant": "exceptions can strike at any point of any nesting", "anchors": ["storch/wrappers.py:_handle_deterministic", "storch/wrappers.py:stochastic"]}
{"id": "C10", "title": "ignore_wrapping is scoped", "statement": "Leaving an ignore_wrapping block, normally or by an exception, restores the wrapping mode that held before it.", "quantifier": "every body and every exception point, every nesting", "why_tests_cant": "needs every crash point and nesting", "anchors": ["storch/wrappers.py:ignore_wrapping"]}
{"id": "C11", "title": "Storch tensors cannot leak into Python control flow", "statement": "Converting a storch tensor to bool, int, float, index, numpy, or calling one of the listed exposing or in-place sampling methods raises IllegalStorchExposeError, and any other torch attribute behaves as on the wrapped tensor.", "quantifier": "every method name", "why_tests_cant": "the name tables are data; one wrong entry opens a silent leak", "anchors": ["storch/tensor.py:Tensor.__torch_function__", "storch/tensor.py:Tensor.__getattr__", "storch/excluded_init.py"]}
{"id": "C12", "title": "walk_parents and walk_children visit exactly the reachable nodes once", "statement": "With repeat_visited=False, depth first, breadth first and reversed breadth first walks terminate and yield the start node and every ancestor (descendant) exactly once.", "quantifier": "every finite graph and every start node", "why_tests_cant": "graphs are unbounded in size and shape", "anchors": ["storch/tensor.py:Tensor._walk_backwards"]}
{"id": "C13", "title": "The surrogate loss visits nodes in topological order", "statement": "The stochastic nodes contributing to a cost are processed with every node after all of its stochastic ancestors.", "quantifier": "every acyclic graph", "why_tests_cant": "needs a graph where path lengths differ", "anchors": ["storch/inference.py:surrogate_loss", "storch/tensor.py:Tensor._walk_backwards"]}
{"id": "C14", "title": "topological_sort lists every ancestor once, children first", "statement": "util.topological_sort (used by print_graph and debug=True) returns every ancestor of the costs exactly once, each after all of its children.", "quantifier": "every acyclic graph and list of costs", "why_tests_cant": "needs graphs with side branches", "anchors": ["storch/util.py:topological_sort"]}
{"id": "C15", "title": "Graph links are symmetric and acyclic", "statement": "After any sequence of tensor constructions, the number of times p lists c as a child equals the number of times c lists p as a parent, and no tensor is its own ancestor.", "quantifier": "every sequence of constructions", "why_tests_cant": "an invariant over all histories", "anchors": ["storch/tensor.py:Tensor.__init__"]}
{"id": "C16", "title": "reset forgets the graph", "statement": "After storch.reset, or storch.backward without create_graph, no cost is registered, every used method has been reset exactly once, and every node connected to a registered cost has neither parents nor children; other nodes are untouched.", "quantifier": "every graph, every history including reuse of tensors across iterations", "why_tests_cant": "needs histories where tensors survive an iteration", "anchors": ["storch/inference.py:reset", "storch/inference.py:backward", "storch/tensor.py:Tensor._clean"]}
{"id": "C17", "title": "reduce_plates is the weighted sum over plates", "statement": "reduce_plates(t) returns a tensor without the reduced plates whose value is the sum over all assignments of the reduced plates of the product of the plate weights times the value of t, for scalar, per-sample and fully batched weights.", "quantifier": "every tensor, every set of plates, every weighting", "why_tests_cant": "all shapes and plate orders", "anchors": ["storch/tensor.py:Plate.reduce", "storch/storch.py:reduce_plates"]}
{"id": "C18", "title": "order_plates is a topological ordering of its input", "statement": "order_plates returns each given plate exactly once with parents before children (after them if reverse), or raises ValueError on a cycle.", "quantifier": "every list of plates and parent relation", "why_tests_cant": "needs all parent relations, including parents missing from the list", "anchors": ["storch/storch.py:order_plates", "storch/storch.py:_isroot"]}
{"id": "C19", "title": "variance is a variance", "statement": "storch.variance over a plate equals the weighted mean squared deviation from the weighted mean; it is non-negative, zero for constant tensors, and unchanged by adding a constant, when the weights are non-negative and sum to one.", "quantifier": "every tensor and weighting", "why_tests_cant": "algebraic law over all values", "anchors": ["storch/storch.py:variance"]}
{"id": "C20", "title": "magic_box is one forward and reproduces the gradient", "statement": "magic_box(l) evaluates to 1 and all its derivatives are those of exp(l - l0): in particular the first derivative is that of l.", "quantifier": "every differentiable l, every order", "why_tests_cant": "derivative identities over all functions", "anchors": ["storch/util.py:magic_box"]}
{"id": "C21", "title": "backward returns the weighted total cost", "statement": "The value returned by storch.backward is the sum over the registered costs of their plate-weighted averages, whatever gradient estimators and baselines are used.", "quantifier": "every graph, every estimator, every cost value", "why_tests_cant": "control variates must cancel for all values", "anchors": ["storch/inference.py:surrogate_loss", "storch/inference.py:backward", "storch/method/method.py:ScoreFunction.estimator"]}
{"id": "C22", "title": "The surrogate loss is the documented sum", "statement": "For costs whose stochastic ancestors use a score-function without baseline, the surrogate loss is the sum over costs of the weighted sum over plate assignments of magic_box(sum of the ancestors' log-probabilities) times the cost.", "quantifier": "every graph of tensors and plates, every cost list", "why_tests_cant": "all plate alignments at once", "anchors": ["storch/inference.py:surrogate_loss"]}
{"id": "C23", "title": "Score-function gradients are unbiased at any order", "statement": "For every acyclic sampling program with finitely supported distributions and any number of samples per plate, the expectation of the surrogate loss (score function, no baseline) is, as a function of the parameters, the expected cost, so derivatives of all orders agree.", "quantifier": "every program, sample count, cost function, parameter value", "why_tests_cant": "unbiasedness is an identity between expectations", "anchors": ["storch/inference.py:surrogate_loss", "storch/method/method.py:ScoreFunction", "storch/sampling/method.py:MonteCarlo.sample"]}
{"id": "C24", "title": "The batch-average baseline is leave-one-out and keeps the gradient unbiased", "statement": "The batch-average baseline of a sample is the mean cost of the other samples, so it does not depend on that sample, and adding it leaves the expected gradient unchanged.", "quantifier": "every number of samples at least two, every finitely supported distribution and cost", "why_tests_cant": "an identity between expectations", "anchors": ["storch/method/baseline.py:BatchAverageBaseline", "storch/method/method.py:ScoreFunction.estimator"]}
{"id": "C25", "title": "The moving-average baseline keeps the gradient unbiased and is an average of past costs", "statement": "The moving-average baseline is the exponential moving average of past average costs, stays between the smallest and largest past cost (and 0), and adding it leaves the expected gradient unchanged.", "quantifier": "every cost history and decay in [0,1]", "why_tests_cant": "ranges over unbounded histories and expectations", "anchors": ["storch/method/baseline.py:MovingAverageBaseline"]}
{"id": "C26", "title": "Baselines keep higher-order gradients unbiased", "statement": "Adding a sample-independent baseline leaves the expected derivatives of every order of the surrogate loss unchanged.", "quantifier": "every order, distribution and baseline value", "why_tests_cant": "higher-order identity between expectations", "anchors": ["storch/inference.py:surrogate_loss", "storch/method/method.py:ScoreFunction.estimator"]}
{"id": "C27", "title": "Averaging a cost over its plates before registering it gives the same gradient", "statement": "Registering storch.reduce_plates(c) as cost gives the same expected gradient as registering c.", "quantifier": "every cost and number of samples", "why_tests_cant": "identity between expectations", "anchors": ["storch/inference.py:add_cost", "storch/inference.py:surrogate_loss"]}
{"id": "C28", "title": "Expect computes the exact expectation", "statement": "For enumerable distributions within budget, method.Expect enumerates each joint outcome exactly once, the weights are the outcome probabilities and sum to one, and reducing gives the exact expectation; a support above the budget raises ValueError.", "quantifier": "every support size, number of independent components, batch shape, probabilities", "why_tests_cant": "products of supports are unbounded", "anchors": ["storch/sampling/expect.py:Enumerate"]}
{"id": "C29", "title": "Importance sampling is unbiased", "statement": "With ImportanceSampling the expected weighted cost under the proposal equals the expected cost under the target whenever the proposal covers the target; sequence weights are products of the per-step ratios.", "quantifier": "every pair of finitely supported distributions, number of samples, cost, sequence length", "why_tests_cant": "identity between expectations", "anchors": ["storch/sampling/importance_sampling.py"]}
{"id": "C30", "title": "Antithetic and relaxed extra samples do not enter averages", "statement": "With ARM and REBAR the plate weighting gives weight 1/n to the first n samples and 0 to the others, so reducing equals the plain mean over the true samples.", "quantifier": "every number of samples and value", "why_tests_cant": "for all n", "anchors": ["storch/method/arm.py:ARM.weighting_function", "storch/method/relax.py:RELAX.plate_weighting"]}
{"id": "C31", "title": "Sampling without replacement never repeats", "statement": "After any number of variables and events, the sampled sequences of SampleWithoutReplacement are pairwise distinct and there are min(k, size of the joint domain) of them.", "quantifier": "every noise realisation, k, domain sizes, sequence length", "why_tests_cant": "depends on every noise value and unbounded sequences", "anchors": ["storch/sampling/swor.py:SampleWithoutReplacement.decode_step", "storch/sampling/swor.py:SampleWithoutReplacement.select_samples", "storch/sampling/seq.py:IterDecoding.decode"]}
{"id": "C32", "title": "Earlier variables follow the selected ancestors", "statement": "When an earlier sampled variable is used together with a later one, its value for sample s is the value belonging to the s-th surviving sequence.", "quantifier": "every chain of selections", "why_tests_cant": "composition over unbounded chains", "anchors": ["storch/sampling/seq.py:AncestralPlate.on_unwrap_tensor"]}
{"id": "C33", "title": "Conditional Gumbel samples respect the parent maximum", "statement": "cond_gumbel_sample returns values that keep the order of the unconditional Gumbels and whose maximum is the parent's perturbed log-probability.", "quantifier": "every real input", "why_tests_cant": "real-analytic identity", "anchors": ["storch/sampling/swor.py:cond_gumbel_sample", "storch/sampling/swor.py:log1mexp"]}
{"id": "C34", "title": "Sampling weights sum to one", "statement": "The normalised without-replacement weights and the Rao-Blackwellised weights sum to one, and the last without-replacement sample has weight zero.", "quantifier": "every log-probability and perturbation", "why_tests_cant": "for all values and sizes", "anchors": ["storch/sampling/swor.py:SampleWithoutReplacement.compute_iw", "storch/sampling/mapo.py:RaoBlackwellizedSample.weighting_function"]}
{"id": "C35", "title": "REINFORCE without replacement is linear in the cost", "statement": "Scaling the cost by a constant scales the gradient contributed by ScoreFunctionWOR by that constant.", "quantifier": "every cost scaling and sample set", "why_tests_cant": "algebraic law", "anchors": ["storch/method/multi_sample_reinforce.py:ScoreFunctionWOR.estimator", "storch/inference.py:surrogate_loss"]}
{"id": "C36", "title": "Temperature annealing is monotone and bounded", "statement": "The Gumbel-softmax temperature never increases, stays positive and never drops below min_temperature; each backward call advances a used method by one iteration.", "quantifier": "every number of backward calls and nodes per method", "why_tests_cant": "unbounded histories", "anchors": ["storch/method/method.py:GumbelSoftmax.update_parameters", "storch/method/method.py:Method._update_parameters", "storch/inference.py:backward"]}
{"id": "C37", "title": "Infer uses reparameterization when it is available", "statement": "For a reparameterizable distribution and a differentiable cost, Infer adds no score-function term; with the differentiable-path check enabled, Reparameterization accepts differentiable costs.", "quantifier": "every graph", "why_tests_cant": "needs every graph", "anchors": ["storch/method/method.py:Infer.is_pathwise", "storch/util.py:has_differentiable_path", "storch/tensor.py:Tensor.__init__"]}
{"id": "C38", "title": "denote_independent labels the chosen dimension and leaves its argument alone", "statement": "denote_independent(t, dim, name) returns a tensor whose first plate is dimension dim of t and whose other plates and elements are those of t, and t itself is unchanged.", "quantifier": "every tensor and dimension", "why_tests_cant": "all ranks and plate lists; aliasing", "anchors": ["storch/inference.py:denote_independent", "storch/tensor.py:IndependentTensor"]}
{"id": "C39", "title": "gather_samples stacks the samples", "statement": "gather_samples returns a tensor whose value at index i of the new plate and any assignment of the others is that of the i-th sample.", "quantifier": "every list of samples and their plates", "why_tests_cant": "needs samples with differing plate orders", "anchors": ["storch/inference.py:gather_samples"]}
{"id": "C40", "title": "add_cost only accepts scalar-per-plate costs", "statement": "add_cost registers exactly costs with empty event shape (a trailing singleton is squeezed) and a non-empty name, and raises ValueError otherwise; nothing is registered when gradients are disabled.", "quantifier": "every cost tensor and name", "why_tests_cant": "all shapes", "anchors": ["storch/inference.py:add_cost"]}
{"id": "C41", "title": "A sample gets a fresh first plate", "statement": "Sampling returns a tensor whose plates are the method's plate followed by the union of the parameter plates, whose parents are exactly the storch parameters, and raises ValueError if a parameter already carries a plate of that name.", "quantifier": "every distribution parameter list", "why_tests_cant": "all parameter plate lists", "anchors": ["storch/method/method.py:Method.sample", "storch/sampling/method.py:MonteCarlo.sample"]}
{"id": "C42", "title": "undo_unique inverts unique", "statement": "undo_unique(unique(t)) returns a tensor with the plates and values of t.", "quantifier": "every tensor", "why_tests_cant": "all shapes", "anchors": ["storch/unique.py"]}
{"id": "C43", "title": "Finished sequences stay finished", "statement": "Once a sampled sequence has produced the eos token it keeps producing eos and its joint log-probability no longer changes.", "quantifier": "every eos value, sequence length", "why_tests_cant": "unbounded sequences", "anchors": ["storch/sampling/seq.py:SequenceDecoding.sample", "storch/sampling/seq.py:MCDecoder.decode", "storch/sampling/swor.py:SampleWithoutReplacement.decode_step"]}
{"id": "C44", "title": "Parameter gradients accumulate until cleaned", "statement": "The grad entry of a stochastic tensor for a parameter is the sum of all gradients delivered to it before cleaning, and does not change afterwards.", "quantifier": "every sequence of hook calls and cleanups", "why_tests_cant": "unbounded histories", "anchors": ["storch/method/method.py:Method._create_hook", "storch/tensor.py:StochasticTensor._clean"]}
{"id": "C45", "title": "Every exported estimator produces its pair of terms", "statement": "Calling the estimator of each exported method on a sampled tensor and a cost returns a pair (gradient function, control variate).", "quantifier": "every method and every tensor/cost", "why_tests_cant": "a code path that always raises is a universally quantified failure", "anchors": ["storch/method/relax.py:LAX.estimator", "storch/method/unordered.py:UnorderedSetEstimator.estimator"]}
{"id": "C46", "title": "sum, mean and logsumexp reduce the named dimensions", "statement": "storch.sum and friends over a list of plate names and event dimensions reduce exactly those dimensions, keep the other plates in order, and raise IndexError for an absent or singleton plate and for integers that denote plate dimensions.", "quantifier": "every tensor and dimension list", "why_tests_cant": "all shapes and lists", "anchors": ["storch/storch.py:_convert_indices", "storch/storch.py:sum"]}
{"id": "C47", "title": "A sequence contributes one score term per cost", "statement": "For sequence methods exactly the stochastic tensor carrying the cost's own ancestral plate contributes a term to the surrogate loss.", "quantifier": "every sequence length and cost", "why_tests_cant": "unbounded sequences", "anchors": ["storch/method/multi_sample_reinforce.py:SeqMethod.is_pathwise"]}
{"id": "C48", "title": "has_backwards_path reports exactly the connected inputs", "statement": "util.has_backwards_path marks an input True exactly when the autograd graph of the output reaches it.", "quantifier": "every autograd graph and input list", "why_tests_cant": "all graphs", "anchors": ["storch/util.py:has_backwards_path", "storch/util.py:_walk_backward_graph"]}
{"id": "C49", "title": "storch.stochastic passes its arguments on", "statement": "A function wrapped in storch.stochastic receives the positional and keyword arguments of the call, unwrapped.", "quantifier": "every argument list", "why_tests_cant": "all argument lists", "anchors": ["storch/wrappers.py:stochastic", "storch/wrappers.py:_prepare_args"]}
{"id": "C50", "title": "Rao-Blackwellised score function is unbiased at any order", "statement": "With RaoBlackwellSF (k-1 most probable outcomes summed exactly, one sampled from the rest) the expected surrogate loss is, as a function of the parameters, the expected cost.", "quantifier": "every finite distribution, k and cost", "why_tests_cant": "identity between expectations", "anchors": ["storch/method/rao_blackwell.py", "storch/sampling/mapo.py:RaoBlackwellizedSample"]}
{"id": "C51", "title": "Operators compute the torch operator on the operands as written", "statement": "Each Python operator on storch tensors evaluates the torch operator of that symbol on the operands in the written order (reflected methods exchange them), at every plate assignment.", "quantifier": "every operator, every pair of storch tensors with compatible plates", "why_tests_cant": "Tests use a few operators on a few shapes; an exchanged operand is invisible on commutative operators and equal operands.", "anchors": ["storch/tensor.py:Tensor.__lshift__", "storch/tensor.py:Tensor.__and__", "storch/tensor.py:Tensor.__eq__"]}
{"id": "C52", "title": "Joint log-probabilities belong to the sampled sequences", "statement": "After any number of variables, the joint log-probability kept for each sample of SampleWithoutReplacement is the sum over the variables of the log-probability of the row it holds, given the sequence it continues; when all joint outcomes are sampled their probabilities sum to one.", "quantifier": "every chain of variables, noise, k, domain sizes", "why_tests_cant": "parents are re-indexed at each event; a mismatch between rows and log-probabilities only shows for particular noise and lengths", "anchors": ["storch/sampling/swor.py:SampleWithoutReplacement.decode_step", "storch/sampling/seq.py:IterDecoding.decode"]}
{"id": "C53", "title": "The Rao-Blackwellised selection is the top of the distribution and one other sample", "statement": "RaoBlackwellizedSample.select_samples returns the k-1 most probable options and one further option, different from these, with the highest perturbed log-probability among the rest.", "quantifier": "every k, number of options, joint and perturbed log-probabilities", "why_tests_cant": "a repeated option needs impossible options or values below the sentinel, which random tests do not produce", "anchors": ["storch/sampling/mapo.py:RaoBlackwellizedSample.select_samples"]}
{"id": "C54", "title": "Conditional relaxed samples of a categorical variable round to the hard sample", "statement": "For a categorical variable conditional_gumbel_rsample returns, for every one-hot hard sample, a vector of positive numbers with sum one whose largest element is that of the hard sample, so discretize gives the hard sample back.", "quantifier": "every number of options, probabilities, temperature, hard sample and uniform draw", "why_tests_cant": "the draw is continuous; a sampled test hits a boundary only by luck and fixes the number of options", "anchors": ["storch/storch.py:270-305", "storch/method/relax.py:155-163"]}
{"id": "C55", "title": "The hard sample of a relaxed sample has the probabilities of the distribution at every temperature", "statement": "Discretising rsample_gumbel_softmax gives, for a Bernoulli variable, 1 exactly when the uniform number is above 1 - p, and for a categorical variable the winner of the exponential race with the probabilities as rates; the temperature has no influence.", "quantifier": "every probability vector, temperature and uniform draw", "why_tests_cant": "needs all real draws and temperatures", "anchors": ["storch/util.py:229-251", "storch/method/relax.py:155-163"]}
{"id": "C56", "title": "Conditional relaxed samples of a Bernoulli variable round to the hard sample", "statement": "For a Bernoulli variable conditional_gumbel_rsample returns a number in (0, 1) that rounds to the hard sample it is conditioned on.", "quantifier": "every probability, temperature, hard sample and uniform draw", "why_tests_cant": "tests of REBAR look at gradients averaged over samples, which hide a wrong conditional sample", "anchors": ["storch/storch.py:280-292"]}
{"id": "C57", "title": "Plate weights of the unordered set estimator are the integrated leave-one-out weights", "statement": "UnorderedSet.weighting_function gives every sample its probability times the ratio of the integral without its factor to the integral with all factors (equation 10 of Kool et al.), computed at the integration points.", "quantifier": "every number of samples and integration points, every scaling and every list of log-probabilities with total probability at most one", "why_tests_cant": "tests compare with a second floating point implementation at one setting of a and the number of points", "anchors": ["storch/sampling/unordered_set.py:29-108"]}
{"id": "C58", "title": "The baseline of the unordered set estimator is the leave-one-out average of the cost", "statement": "The baseline subtracted from the cost of a sample s is the sum over the samples s' of p(s') R(D without s, s') cost(s') with the second order leave-one-out ratios of equation 17.", "quantifier": "every number of samples and integration points, probabilities and costs", "why_tests_cant": "a wrong baseline leaves values and expected gradients plausible and only changes their variance and bias slightly", "anchors": ["storch/sampling/unordered_set.py:93-107", "storch/method/unordered.py:72-81"]}
{"id": "C59", "title": "b_binary_cross_entropy reduces events and named plates only", "statement": "b_binary_cross_entropy returns, for every choice of samples of the plates that are not named in dims, the mean or the sum of the element losses over the event dimensions and the plates named in dims, and with reduction none the loss of every element.", "quantifier": "every input and target with any plates, every event shape, every list of plate names, any loss and reductions", "why_tests_cant": "the repository has no test of this function; the failing combinations need a plate of more than one sample", "anchors": ["storch/nn/losses.py:9-60", "storch/wrappers.py:275-338", "storch/storch.py:10-57"]}
{"id": "C60", "title": "torch's binary_cross_entropy sees plates expanded on both arguments", "statement": "Calling torch.nn.functional.binary_cross_entropy on storch tensors of the same event shape gives the loss of every element for every choice of samples of the plates of either argument, although torch demands equal sizes.", "quantifier": "every two tensors of equal event shape with any plates and any alignment of them", "why_tests_cant": "needs arguments that each lack a plate of the other; a wrong expansion pairs up elements of different samples without an error when sizes coincide", "anchors": ["storch/tensor.py:259-264", "storch/excluded_init.py:62", "storch/wrappers.py:71-174"]}
{"id": "C61", "title": "The operator @ multiplies sample by sample", "statement": "x @ y on storch tensors is, for every choice of samples, torch.matmul of the event tensors of that choice, with the plates of both operands; a torch tensor as operand is the same for every choice.", "quantifier": "every two operands with any plates and event shapes that torch.matmul accepts", "why_tests_cant": "the wrong products only appear for vectors when the number of samples equals the length of the vectors; otherwise an error with a plate is easily mistaken for a shape error of the test", "anchors": ["storch/tensor.py:664-668", "storch/wrappers.py:71-174"]}
{"id": "C62", "title": "Torch tensors as operands are shared by all samples", "statement": "An elementwise operation on a storch tensor and a torch tensor gives, for every choice of samples, what torch gives for the event of that choice and the torch tensor; it raises if torch raises.", "quantifier": "every storch tensor, torch tensor of any shape and order of the operands", "why_tests_cant": "tests use torch numbers or tensors as large as the events; a vector next to numbers only goes wrong silently when its length is the number of samples", "anchors": ["storch/wrappers.py:71-174", "storch/tensor.py:247-268"]}
{"id": "C63", "title": "Distribution parameters are combined sample by sample", "statement": "torch.broadcast_tensors, with which torch.distributions combines parameters, gives for every choice of samples what torch gives for the parameters of that choice; torch parameters are the same for every choice.", "quantifier": "every number of storch and torch parameters with any plates and shapes", "why_tests_cant": "the shapes that go wrong need a plate whose number of samples equals an event size; with other sizes the error is taken for a usage error", "anchors": ["storch/__init__.py:41-54", "storch/wrappers.py:71-174", "storch/tensor.py:247-268"]}
{"id": "C64", "title": "Indexing a storch tensor indexes the event of every sample", "statement": "x[index] is, for every choice of samples, the event of that choice indexed as torch indexes it, with the plates of x; it raises if torch raises.", "quantifier": "every storch tensor and every index of numbers, slices, None and ...", "why_tests_cant": "whether x[i] raises or silently mixes samples depends on the event size being equal to the number of samples", "anchors": ["storch/tensor.py:322-324", "storch/wrappers.py:177-272"]}
{"id": "C65", "title": "Concatenation concatenates the events of every sample", "statement": "storch.cat(ts, dim) is, for every choice of samples, torch.cat of the events of that choice in dimension dim, with the plates of all tensors.", "quantifier": "every list of storch tensors with any plates and every dimension", "why_tests_cant": "tests use one arrangement of plates and one dimension", "anchors": ["storch/storch.py:258-267", "storch/wrappers.py:71-174"]}
{"id": "C66", "title": "gather picks the sample named by the index", "statement": "storch.gather(x, plate, index) is, for every choice of samples, x with the sample of the plate replaced by the value of index at that choice; it raises exactly if index has an event that does not fit x or a value that is not a sample of the plate.", "quantifier": "every input, index and plate of theirs", "why_tests_cant": "the interplay of plates that only one of the tensors has needs a quantifier over plate sets; a plate with a single sample is an edge case tests skip", "anchors": ["storch/storch.py:100-104", "storch/wrappers.py:222-242"]}
{"id": "C67", "title": "The gradient of ARM is unbiased", "statement": "For a program that samples independent binary variables with ARM, computes a cost of them and calls backward, the expectation of the derivative of the loss is the derivative of the expected cost; the expectation of the loss is the expected cost.", "quantifier": "every number of pairs of samples, shape and number of variables, differentiable logits and costs of any form", "why_tests_cant": "the bias of the gradient shows up only with several variables and a cost that depends on the parameters itself; a test with a single sample cannot see an expectation at all", "anchors": ["storch/method/arm.py:13-79", "storch/method/method.py:96-190", "storch/inference.py:81-213"]}
{"id": "C68", "title": "The gradient of DisARM is unbiased", "statement": "For a program that samples independent binary variables with DisARM, computes a cost of them and calls backward, the expectation of the derivative of the loss is the derivative of the expected cost; the expectation of the loss is the expected cost.", "quantifier": "every number of pairs of samples, shape and number of variables, differentiable logits and costs of any form", "why_tests_cant": "a gradient estimate is random, so a missing score term is invisible without its expectation", "anchors": ["storch/method/arm.py:98-173", "storch/method/method.py:96-190", "storch/inference.py:81-213"]}
{"id": "C69", "title": "Distributions as arguments are unwrapped like tensors", "statement": "When an argument of a wrapped function is or contains a torch Distribution, the function receives a distribution of the same kind whose parameters are aligned with the other arguments, and the results record the parameters as parents and have their plates.", "quantifier": "every wrapped function, nesting of arguments, list of parameters, plates and event shapes", "why_tests_cant": "a distribution with a plate of its own silently mixes samples and the result has the right type", "anchors": ["storch/wrappers.py:45-68", "storch/wrappers.py:152-171", "storch/wrappers.py:72-149"]}
{"id": "C70", "title": "Distributions returned by wrapped functions have storch parameters", "statement": "A wrapped function that returns a torch Distribution yields the same kind of distribution whose parameters are storch tensors with the plates of the call and the tensors of the call as parents.", "quantifier": "every wrapped function, class of distribution, parameters and plates", "why_tests_cant": "each class of distributions fails in its own way, and only when a wrapped function returns it", "anchors": ["storch/wrappers.py:275-338", "storch/util.py:67-90"]}
{"id": "C71", "title": "Weights of sampling without replacement are unbiased", "statement": "With biased_iw=False the expectation over the Gumbel noise of the weighted sum of a cost over the samples without replacement equals the expectation of the cost over the distribution.", "quantifier": "every distribution over finitely many options, every number of samples and every cost", "why_tests_cant": "the bias is a statistical property of the noise: each run returns plausible weights", "anchors": ["storch/sampling/swor.py:61-67", "storch/sampling/swor.py:154-173", "storch/sampling/swor.py:192-207", "storch/sampling/swor.py:239-252"]}
{"id": "C72", "title": "Resampled categorical values have the distribution of relaxed samples given the hard sample", "statement": "What conditional_gumbel_rsample draws for a categorical variable given the hard sample b has the distribution of the relaxed samples whose largest entry is b: expectations of functions of the relaxed sample, restricted to b being largest, are the probability of b times the expectation over the resampled values.", "quantifier": "every number of options, vector of positive probabilities, temperature, option b and test function whose conditional mean is continuous", "why_tests_cant": "a wrong conditional distribution still returns points in the simplex with the right largest entry; only the bias of the gradient shows it", "anchors": ["storch/storch.py:269-305", "storch/util.py:229-251"]}
{"id": "C73", "title": "A variable sampled without replacement has the distribution of successive draws", "statement": "When one variable is sampled without replacement, the probability that sample_var returns the options s in this order is the probability of drawing them one after another, each time from the options that are left with probabilities in proportion.", "quantifier": "every number of options, vector of log-probabilities of sum one, number of samples and duplicate-free list of options", "why_tests_cant": "the samples look random and distinct whatever their distribution is; the noise, its conditioning and the top-k selection each have to be right", "anchors": ["storch/sampling/swor.py:61-67", "storch/sampling/swor.py:89-91", "storch/sampling/swor.py:154-173", "storch/sampling/swor.py:239-252"]}
{"id": "C74", "title": "A variable sampled in a sequence has the plates of its distribution and the sampling plate, each at its dimension", "statement": "A variable sampled by a sequence decoder through Method.sample has the plates of its parameters and of the variables sampled before it, and a new plate for the samples; every plate stands for the dimension the samples of that plate are in, and the event shape is that of the distribution.", "quantifier": "every parameter list, plate layout, number of samples, position in the sequence and event shape", "why_tests_cant": "plates of one sample, single samples and dependent variables each take another path through the index arithmetic; the shapes often agree by accident", "anchors": ["storch/sampling/seq.py:175-269", "storch/sampling/seq.py:341-368", "storch/sampling/seq.py:436-459", "storch/sampling/seq.py:528-543", "storch/sampling/swor.py:209-215", "storch/sampling/method.py:100-105"]}
{"id": "C75", "title": "storch.grad returns each gradient with the plates of its input", "statement": "storch.grad passes the wrapped torch tensors to torch.autograd.grad and returns one storch tensor per input: for a storch input the gradient with the plates and the event shape of the input, for a torch input the gradient without plates. The parents of a gradient are the outputs, and the input if it is a storch tensor.", "quantifier": "every list of outputs and inputs, plate layout, naming and gradients torch returns", "why_tests_cant": "unnamed inputs, single outputs, torch outputs and unused inputs each take another path through the wrapping of the gradients", "anchors": ["storch/storch.py:219-255", "storch/wrappers.py:64-126"]}
{"id": "C76", "title": "RELAX gives unbiased gradients", "statement": "For variables sampled with RELAX the expectation of the gradient of the loss is the gradient of the expected cost, and the expectation of the loss is the expected cost: the reparameterised control variate, the conditional relaxed sample and the score function cancel in expectation, whatever the control variate, its weight eta and the temperature are.", "quantifier": "every number of samples, event shape, number of options, probabilities, differentiable cost and control variate, temperature and eta", "why_tests_cant": "unbiasedness is a statement about integrals over the noise of both the relaxed and the conditional samples; a test averages a few noisy samples for one control variate", "anchors": ["storch/method/relax.py:214-333", "storch/storch.py:269-305", "storch/util.py:229-251"]}
{"id": "C77", "title": "Reparameterised samples give unbiased gradients", "statement": "For variables sampled with Reparameterization, with GumbelSoftmax, or with Infer (which is documented to choose reparameterisation if it is available), the expectation of the gradient of the loss is the gradient of the expected cost of the samples, and the expectation of the loss is that expected cost.", "quantifier": "every number of samples, event shape, reparameterisation that is differentiable in its parameter, differentiable cost, temperature and number of options", "why_tests_cant": "unbiasedness is a statement about integrals over the noise; a test sees a few noisy samples, and cannot tell a gradient that is exact from one whose expectation is off by the score function", "anchors": ["storch/method/method.py:262-306", "storch/method/method.py:309-350", "storch/method/method.py:353-403", "storch/util.py:229-251"]}
{"id": "C78", "title": "Only score-function ancestors are boxed when methods are mixed", "statement": "In a program whose variables use different methods, every cost is multiplied by the magic box of the log-probabilities of exactly those of its ancestors that use the score function; reparameterised variables, enumerated variables (Expect), variables without gradient and deterministic tensors add nothing. If there is no score-function ancestor, backward returns exactly the sum of the costs, each averaged with the weights of its own plates, also as a function of the parameters.", "quantifier": "every computation graph, number of costs, plates and weights, every mixture of score functions without baseline, pathwise methods and methods without estimator", "why_tests_cant": "which ancestors get a term depends on the whole graph and on the method of every variable; tests use one method at a time", "anchors": ["storch/inference.py:102-215", "storch/method/method.py:198-220", "storch/method/method.py:236-241"]}
{"id": "C79", "title": "Programs sampled with Expect are exact", "statement": "A program whose variables are all sampled with Expect, each possibly depending on the earlier ones, returns from backward exactly the expectation of the cost: the sum over all joint outcomes of the cost times the product of the conditional probabilities. The equation holds as functions of the parameters, so gradients of every order are exact.", "quantifier": "every number of variables with two or more options and at most one dimension of components within the budget, every dependence between them, every cost over all plates, every commutative ring with an exponential", "why_tests_cant": "the number of joint outcomes grows exponentially with the variables, and the weights of nested plates are only combined correctly if plate order, weights and alignment all agree; tests enumerate one or two small variables", "anchors": ["storch/sampling/expect.py:16-87", "storch/method/method.py:96-190", "storch/method/method.py:578-580", "storch/inference.py:77-230"]}
{"id": "C80", "title": "RELAX trains its control variate on the variance", "statement": "After backward, the gradient of every control-variate parameter of a RELAX or REBAR method (temperature, eta, parameters of the network) is the gradient of the weighted mean squared norm of the estimated gradient of the distribution parameters, summed over the samples of the method, each counted once; gradients the parameters had before play no role.", "quantifier": "every graph, number of samples and costs, every plates and weights of the gradients, every iteration order of the set, every control parameter shape and every function for torch.autograd.grad", "why_tests_cant": "the effect is a training signal for a network inside the estimator: a lost or doubled gradient changes neither the loss nor the gradient of the model, and the existing tests use one sample and one cost", "anchors": ["storch/method/relax.py:335-359", "storch/method/method.py:195-225", "storch/inference.py:165-186", "storch/inference.py:250-253"]}
{"id": "C81", "title": "Importance sampling with the score function is unbiased", "statement": "A program whose variables are drawn from proposals with ImportanceSampling, each sample weighted by the detached ratio of its probabilities, and differentiated with ScoreFunction: backward succeeds whatever is drawn, and the expectation of the loss over the proposals is the expected cost under the distributions themselves as a function of the parameters, so that derivatives of every order agree.", "quantifier": "every number of samples, options, costs and variables, every pair of distributions and proposals with the same support, every parameters and cost function", "why_tests_cant": "a wrong weight (not detached, divided by the wrong count, taken at another sample) leaves loss values plausible and shows only in an average over the exponentially many draws, or only in a derivative", "anchors": ["storch/sampling/importance_sampling.py:13-65", "storch/method/method.py:96-190", "storch/method/method.py:512-575", "storch/inference.py:77-230"]}
{"id": "C82", "title": "The expected loss of a whole script is its expected cost", "statement": "A script that denotes data independent, samples variables with ScoreFunction and MonteCarlo, calls torch functions on the results, and registers costs: it runs whatever is sampled, backward succeeds, and the expectation of the loss over everything sampled equals, as a function of the parameters, the expected sum of the costs of the script read as ordinary mathematics, with one sample per variable and a uniformly random row of each data set.", "quantifier": "every number and order of statements, every number of samples per variable, every data set, every function that treats leading dimensions as batch dimensions, every distribution with finitely many values", "why_tests_cant": "needs all programs and numbers of samples at once: the interplay of plate order, singleton plates, broadcasting and the graph walk depends on the shape of the whole program, and bias shows only in an average over exponentially many draws", "anchors": ["storch/inference.py:12-46", "storch/inference.py:106-230", "storch/method/method.py:96-190", "storch/method/method.py:530-548", "storch/wrappers.py:341-390", "storch/storch.py:107-177"]}
{"id": "C83", "title": "print_graph shows every ancestor of the costs under its own name", "statement": "print_graph (what backward prints with debug=True) prints one line for every cost and every ancestor of a cost and one for every link between them, and gives different tensors different names, each made of the name of the tensor, or a letter for its kind, and a number in brackets.", "quantifier": "every graph storch can construct, every naming of its tensors (equal names, names that look like the letters used for unnamed tensors) and every list of costs", "why_tests_cant": "names clash or tensors disappear only for particular combinations of user-chosen names and side branches of the graph", "anchors": ["storch/util.py:30-64", "storch/util.py:171-202", "storch/inference.py:109-110"]}
{"id": "C84", "title": "split cuts a tensor along a plate", "statement": "storch.util.split returns one tensor per slice, holding the values of the tensor whose sample of the plate lies in the slice.", "quantifier": "every tensor, plate of it, list of slices or number of slices", "why_tests_cant": "no test calls the function, and which plate is cut matters only for tensors with several plates", "anchors": ["storch/util.py:254-304", "storch/tensor.py:136-137"]}
{"id": "C85", "title": "SumAndSample selects the most probable values and samples of the others", "statement": "SumAndSample.select_samples returns the perturbed log-probabilities, the log-probabilities and the indices of sum_size most probable values and of up to sample_size sampled other values.", "quantifier": "every sum_size and sample_size of at least 1 and every list of log-probabilities", "why_tests_cant": "no test uses the class, and the cases depend on how the sizes compare with the number of options", "anchors": ["storch/sampling/swor.py:254-296", "storch/sampling/swor.py:118-121"]}
{"id": "C86", "title": "Outputs of stochastic functions depend on all arguments", "statement": "The outputs of a function wrapped in storch.stochastic become storch tensors that have all plates of the arguments and all tensors passed as parents; storch tensors that deterministic calls create inside the function are made to depend on the arguments too.", "quantifier": "every call, every function and every number of outputs", "why_tests_cant": "which branch is taken depends on the type and origin of every single output", "anchors": ["storch/wrappers.py:473-490", "storch/wrappers.py:493-537"]}
{"id": "C87", "title": "Settings given to a constructor are the settings that are used", "statement": "Every setting passed to the constructor of a sampling method or an estimator (number of samples, eos, temperatures, annealing, baselines, integration points, alpha), by position, keyword or default, is the value of the attribute from which sampling and estimation read it.", "quantifier": "every class and every argument list Python accepts", "why_tests_cant": "needs every class, every setting and every way of passing it", "anchors": ["storch/sampling/swor.py:21-27", "storch/sampling/mapo.py:12-53", "storch/sampling/unordered_set.py:12-124", "storch/sampling/seq.py:153-173", "storch/method/method.py:357-552", "storch/method/unordered.py:22-98", "storch/method/multi_sample_reinforce.py:38-44", "storch/method/relax.py:174-213"]}
{"id": "C88", "title": "Infer uses the baseline it documents", "statement": "For distributions that are neither reparameterizable nor relaxable, Infer estimates gradients with a score function whose baseline is a moving average for one sample and a batch average for more samples.", "quantifier": "every distribution type, number of samples and argument list", "why_tests_cant": "a baseline that is never used changes the variance only", "anchors": ["storch/method/method.py:257-306", "storch/method/method.py:527-577"]}
{"id": "C89", "title": "all_finished tells whether every sequence has ended", "statement": "After each sampled variable all_finished() is true exactly if the last token of every sampled sequence, for every element of the other plates, is eos; get_amt_finished() counts these sequences.", "quantifier": "every eos, number of samples, plates and event shape", "why_tests_cant": "needs every shape of samples, including those with fewer samples than k", "anchors": ["storch/sampling/seq.py:199-202", "storch/sampling/seq.py:318-339"]}
{"id": "C90", "title": "reduce_mean averages over exactly the dimensions that are not kept", "statement": "reduce_mean(t, keep_dims) is the tensor over the dimensions in keep_dims, in the order of t, whose elements are the means of t over all other dimensions; dimensions may be counted from the end as everywhere in torch.", "quantifier": "every tensor shape and every list of dimensions", "why_tests_cant": "needs every shape and every list of dimensions, including repeated and negative ones", "anchors": ["storch/util.py:215-221"]}
{"id": "C91", "title": "right_expand_as and left_expand_as only repeat the tensor", "statement": "On torch tensors right_expand_as(t, e) repeats t along the last dimensions of e and left_expand_as(t, e) along the first ones, until it has as many dimensions as e; a tensor that has at least as many dimensions is returned unchanged.", "quantifier": "every two shapes", "why_tests_cant": "needs every pair of shapes", "anchors": ["storch/sampling/seq.py:672-681"]}
{"id": "C92", "title": "right_expand_as works per sample on storch tensors", "statement": "For storch tensors right_expand_as(a, b) has the plates of both, and for every choice of samples it is a of that choice repeated along the event dimensions of b beyond those of a; the result has a and b as parents.", "quantifier": "every two storch tensors with compatible plates, any event shapes", "why_tests_cant": "needs every combination of plates and event shapes", "anchors": ["storch/sampling/seq.py:671-676", "storch/wrappers.py:71-174", "storch/wrappers.py:218-312"]}
{"id": "C93", "title": "Estimators install their own functions in the sampling method and leave the rest alone", "statement": "The constructor of an estimator sets mc_sample (and for ARM and RELAX mc_weighting_function) of its sampling method to its own functions; a sampling method that is passed keeps all its other settings, and one for another plate is rejected with ValueError.", "quantifier": "every estimator that takes a sampling method, every argument list Python accepts and every sampling method", "why_tests_cant": "needs every combination of estimator and sampling method", "anchors": ["storch/method/method.py:38-47", "storch/method/method.py:315-552", "storch/method/arm.py:29-39", "storch/method/arm.py:103-113", "storch/method/relax.py:174-213", "storch/sampling/method.py:65-93"]}
{"id": "C94", "title": "REBAR's samples come in triples of a hard, a relaxed and a conditional sample", "statement": "Asked for n samples of a categorical variable, REBAR returns a tensor with a plate of size 3n that counts only the first n: at i, n+i and 2n+i are a one-hot sample, the relaxed sample that rounds to it, and a relaxed sample drawn given it that rounds to it as well. RELAX returns n one-hot samples, each of the largest option of a relaxed sample.", "quantifier": "every number of samples, number of options, event shape, plates of the parameters, probabilities and uniform random numbers", "why_tests_cant": "random draws with any plates", "anchors": ["storch/method/relax.py:155-163", "storch/method/relax.py:187-260", "storch/storch.py:270-305", "storch/util.py:229-251", "storch/sampling/method.py:121-150"]}
{"id": "C95", "title": "Questions about plates and dimensions are answered consistently", "statement": "get_plate returns the plate of a name; get_plate_dim_index the dimension whose size and index are those of the plate, with IndexError for an unknown name or a plate of size one; plate_shape and event_dim_indices divide the dimensions into plates and event; iterate_plate_indices yields the index of every choice of samples exactly once, in row-major order.", "quantifier": "every storch tensor with any number of plates of any sizes and any event shape", "why_tests_cant": "needs every combination of plates, with and without size one", "anchors": ["storch/tensor.py:477-479", "storch/tensor.py:520-545"]}
{"id": "C96", "title": "Every estimator samples and weights with its own functions", "statement": "After any program that constructs estimators on sampling methods, the sampling method of every estimator has the functions of that estimator (set_mc_sample, set_mc_weighting_function) and otherwise the attributes it was made with; a construction that fails leaves the sampling method as it was.", "quantifier": "every sequence of constructions of the nine estimators that take a sampling method, on any number of sampling methods, shared or not, with any arguments, failing ones included", "why_tests_cant": "the functions are set in place on an object that the caller may pass to several estimators: needs every order of constructions on every way of sharing", "anchors": ["storch/sampling/method.py:65-93", "storch/method/method.py:38-47", "storch/method/arm.py:37-39", "storch/method/relax.py:186-193"]}
{"id": "C97", "title": "Deterministic functions cannot hand out samples", "statement": "A deterministic call whose function puts a sample anywhere in its output does not return; every storch tensor anywhere in a result is deterministic and has the arguments of the call as parents; tensors that are not samples are not rejected as such.", "quantifier": "every function, every nesting of lists, tuples and distributions in its output, all arguments and options", "why_tests_cant": "needs every structure of outputs with a sample at every place, and every way of making tensors that are not samples", "anchors": ["storch/wrappers.py:275-338", "storch/wrappers.py:341-390", "storch/tensor.py:777-808"]}
{"id": "C98", "title": "Assigning to part of a storch tensor", "statement": "x[index] = value puts, for every choice of samples, the value for that choice at the places of the event that the index addresses, leaves all other elements as they are, and makes x depend on the value; an index outside the event raises IndexError.", "quantifier": "all storch tensors, indices made of numbers, slices, None and '...', and all storch and torch tensors as values", "why_tests_cant": "needs every combination of plates and shapes of the tensor, the index and the value; a value laid out along the wrong dimension only shows if sizes happen to agree", "anchors": ["storch/tensor.py:326-328", "storch/wrappers.py:80-127", "storch/wrappers.py:275-284"]}
{"id": "C99", "title": "Every cost has its own baseline", "statement": "The score function keeps one baseline per variable and cost: the moving average used for one cost is not changed by handling another cost, and the loss and gradient of a cost do not depend on which other costs were handled before it.", "quantifier": "all programs, all costs and their names, all plates of the costs and the variables, all states of the averages", "why_tests_cant": "the mixing only shows in the gradient, with at least two costs that have plates their variable lacks; every value of the loss stays right", "anchors": ["storch/method/method.py:550-575", "storch/inference.py:143-156", "storch/wrappers.py:387-389", "storch/method/baseline.py:16-34"]}

{"id": "C01", "title": "batch_execute runs exactly the right ops, round robin", "statement": "Given n thunks and batch size b >= 1, at global step t batch_execute runs thunk j iff j is one of t*b, t*b+1, ..., t*b+b-1 modulo n. Hence exactly min(b, n) distinct ops take effect at every step, and over any window of consecutive steps the run counts of any two thunks differ by at most one when b <= n.", "quantifier": "all n >= 0, b >= 1, every global step t >= 0, every window of steps, every thunk index", "why_tests_cant": "The claim ranges over every (n, b, t) triple and every window length; tests only tabulate small tables such as the one in the docstring.", "anchors": ["kfac/python/ops/utils.py:batch_execute"]}
{"id": "C02", "title": "Periodic optimizer runs cov/inverse updates at exactly the promised iterations", "statement": "Over any number of executions of the op returned by PeriodicInvCovUpdateKfacOpt.minimize, after burn-in the covariance update runs on exactly the iterations whose counter is a multiple of cov_update_every and the inverse update on exactly those whose counter is a multiple of invert_every; both run on the first non-burn-in iteration, so preconditioning never uses never-computed inverses; and an inverse update always sees the covariance written by the same iteration's covariance update. A cov_ema_decay that is passed counts per iteration: statistics read t iterations before the last update have the relative weight cov_ema_decay^t, whatever cov_update_every is; the default counts per covariance update.", "quantifier": "all cov_update_every, invert_every >= 1, all num_burnin_steps >= 0, every number of executed steps", "why_tests_cant": "A property of unbounded histories of training steps and all frequency triples.", "anchors": ["kfac/python/ops/kfac_utils/periodic_inv_cov_update_kfac_opt.py:PeriodicInvCovUpdateKfacOpt.minimize", "kfac/python/ops/kfac_utils/periodic_inv_cov_update_kfac_opt.py:PeriodicInvCovUpdateKfacOpt.kfac_update_ops"]}
{"id": "C03", "title": "Burn-in performs exactly num_burnin_steps covariance-only steps", "statement": "The first num_burnin_steps executions of minimize only update covariances (without decay, so after burn-in the covariance estimate is the plain average of the burn-in batches), leave parameters, velocities, damping and the iteration counter unchanged, and every later execution is a full optimizer step; burn-in never resumes.", "quantifier": "all num_burnin_steps, every history length, every sequence of mini-batch statistics", "why_tests_cant": "Needs every burn-in length and every continuation.", "anchors": ["kfac/python/ops/kfac_utils/periodic_inv_cov_update_kfac_opt.py:PeriodicInvCovUpdateKfacOpt.minimize", "kfac/python/ops/estimator.py:FisherEstimator.create_ops_and_vars_thunks"]}
{"id": "C04", "title": "OpQueue executes every op exactly once per epoch", "statement": "For any list of ops with distinct names and any shuffle seed, the stream of ops returned by OpQueue.next_op consists of consecutive blocks of length len(ops), each a permutation of ops; thus after k*len(ops) calls every op was returned exactly k times and between two consecutive occurrences of an op there are at most 2*len(ops)-2 other calls.", "quantifier": "all op lists with distinct names, all shuffle outcomes of every epoch, every stream prefix", "why_tests_cant": "Quantifies over all shuffle outcomes and unbounded streams.", "anchors": ["kfac/python/ops/op_queue.py:OpQueue"]}
{"id": "C05", "title": "Async updater cycles through all covariance and inverse ops", "statement": "Each background worker of AsyncInvCovUpdateKfacOpt draws ops from one shared repeating dataset: the k-th op drawn overall is the (k mod n)-th op in name order, so after any number of draws by any interleaving of workers the draw counts of two ops differ by at most one.", "quantifier": "every number of ops, every number of threads, every interleaving of worker draws", "why_tests_cant": "Thread interleavings cannot be enumerated by tests.", "anchors": ["kfac/python/ops/kfac_utils/async_inv_cov_update_kfac_opt.py:AsyncInvCovUpdateKfacOpt"]}
{"id": "C06", "title": "Round-robin placement", "statement": "With device lists given, RoundRobinPlacementMixin places the covariance variable and covariance update of factor i on cov_devices[i mod len], the inverse update of factor i on inv_devices[i mod len] and block transformation i on trans_devices[i mod len]; with no device list nothing is placed; the thunks are otherwise unchanged, in the same order, none dropped or duplicated; device loads differ by at most one.", "quantifier": "all factor lists and all (possibly empty or absent) device lists", "why_tests_cant": "All list lengths and device counts.", "anchors": ["kfac/python/ops/placement.py:RoundRobinPlacementMixin"]}
{"id": "C07", "title": "map_gather equals running every thunk everywhere", "statement": "In a replicated context every replica obtains from map_gather the list of all thunk results, in order, exactly as if each thunk had been evaluated once; with n replicas thunk i is evaluated for real on replica i mod n only, and the per-replica loads differ by at most one. Outside a replicated context thunks are simply evaluated.", "quantifier": "all numbers of replicas, all thunk lists, all result shapes/values, every replica id", "why_tests_cant": "All replica counts and thunk lists.", "anchors": ["kfac/python/ops/utils.py:map_gather", "kfac/python/ops/utils.py:all_sum", "kfac/python/ops/utils.py:get_replica_id"]}
{"id": "C08", "title": "Replica inverse updates leave all replicas with identical, correct inverses", "statement": "After running the inverse update of ReplicaRoundRobinPlacementMixin in a replicated context, every replica holds for every factor the inverse variables that a single-device update would have produced from the shared covariances, regardless of what stale values the replicas held before.", "quantifier": "all factor lists, all replica counts, all prior variable contents", "why_tests_cant": "All factor lists and replica counts and prior states.", "anchors": ["kfac/python/ops/placement.py:ReplicaRoundRobinPlacementMixin", "kfac/python/ops/fisher_factors.py:DenseSquareMatrixFactor.get_inv_vars", "kfac/python/ops/fisher_factors.py:ConvInputSUAKroneckerFactor.get_inv_vars"]}
{"id": "C09", "title": "Parameter tensors <-> column vector is a lossless round trip", "statement": "column_to_tensors(T, tensors_to_column(T)) returns tensors with the shapes and entries of T, and tensors_to_column(column_to_tensors(T, c)) = c for every column c of matching length; the column is the row-major concatenation of the tensors in list order.", "quantifier": "all nested inputs: single tensors or lists of tensors of any ranks and shapes (including empty), all entries, all columns of the right length", "why_tests_cant": "All shapes, ranks and list lengths.", "anchors": ["kfac/python/ops/utils.py:tensors_to_column", "kfac/python/ops/utils.py:column_to_tensors"]}
{"id": "C10", "title": "Layer parameters <-> 2-D matrix is a lossless round trip", "statement": "mat2d_to_layer_params(v, layer_params_to_mat2d(v)) = v for a weight tensor of any rank >= 1 with or without a bias vector; the matrix has one row per flattened input coordinate plus a final bias row and one column per output unit; conversely layer_params_to_mat2d inverts mat2d_to_layer_params on every matrix of that shape.", "quantifier": "all weight shapes, with/without bias, all values", "why_tests_cant": "All ranks and shapes.", "anchors": ["kfac/python/ops/utils.py:layer_params_to_mat2d", "kfac/python/ops/utils.py:mat2d_to_layer_params"]}
{"id": "C11", "title": "SequenceDict behaves as a finite map under sequence keys", "statement": "After any sequence of assignments with scalar or (nested) sequence keys, looking up a key returns the value most recently assigned to it, looking up a sequence returns the list of the individual lookups in order, and a missing key is an error; sequence assignment with equally long sequences equals the element-wise assignments.", "quantifier": "all operation histories, all keys", "why_tests_cant": "Unbounded operation histories.", "anchors": ["kfac/python/ops/utils.py:SequenceDict"]}
{"id": "C12", "title": "PartitionedTensor is observationally the concatenation of its parts", "statement": "A PartitionedTensor is accepted exactly when its list is non-empty and parts agree on dtype, trailing shape and one-hot depth; its reported shape equals the shape of the concatenation as_tensor(), whose rows are the rows of the parts in order; equality holds iff the part lists are equal.", "quantifier": "all lists of tensors", "why_tests_cant": "All lists and shapes.", "anchors": ["kfac/python/ops/utils.py:PartitionedTensor"]}
{"id": "C13", "title": "Moving average is the exactly de-biased weighted mean", "statement": "From a fresh (or reset) zero-initialised MovingAverageVariable, after any sequence of add_to_average(value_i, decay_i, weight_i) the value is sum_i w_i v_i / sum_i w_i with w_i = weight_i * prod_{j>i} decay_j (when the total is non-zero); with constant data it returns exactly that constant, with non-negative weights/decays it lies in the convex hull of the values, and reset makes all earlier values irrelevant.", "quantifier": "all value/decay/weight sequences and all reset points", "why_tests_cant": "All histories of arbitrary length.", "anchors": ["kfac/python/ops/utils.py:MovingAverageVariable"]}
{"id": "C14", "title": "Accumulator returns the mean since the last reset", "statement": "After any interleaving of accumulate, reset and read_value_and_reset, value is the arithmetic mean of the values accumulated since the last reset (undefined if none), and read_value_and_reset returns that mean and empties the accumulator.", "quantifier": "all operation sequences", "why_tests_cant": "Unbounded histories.", "anchors": ["kfac/python/ops/utils.py:AccumulatorVariable"]}
{"id": "C15", "title": "num_conv_locations counts kernel placements", "statement": "For VALID padding num_conv_locations equals the number of strided kernel positions lying wholly inside the input; for SAME padding it equals the number of stride multiples inside the input, per spatial dimension and multiplied across dimensions; malformed ranks are rejected.", "quantifier": "all input sizes, all filter sizes that a VALID convolution accepts (at most input size + 1), strides >= 1, both paddings, ranks 3 and 4", "why_tests_cant": "All integer size combinations.", "anchors": ["kfac/python/ops/utils.py:num_conv_locations"]}
{"id": "C16", "title": "SubGraph contains exactly the ancestors of its outputs", "statement": "A node is a member of SubGraph(outputs) iff it is an output or reachable from an output by following producer/input edges; construction terminates on every graph, including ones with cycles (while loops) and shared nodes.", "quantifier": "all finite graphs and all output lists", "why_tests_cant": "All graphs, including cyclic ones, all traversal orders.", "anchors": ["kfac/python/ops/utils.py:SubGraph"]}
{"id": "C17", "title": "variable_uses counts distinct real consumers inside the subgraph", "statement": "variable_uses(var) is the number of distinct ops of the subgraph that consume var directly or through a chain of relay ops (Identity, ReadVariableOp, Enter, ResourceGather); relay ops themselves are never counted and diamond-shaped relays are not double counted.", "quantifier": "all graphs whose relay edges are acyclic, all variables", "why_tests_cant": "All graph topologies.", "anchors": ["kfac/python/ops/utils.py:SubGraph.variable_uses"]}
{"id": "C18", "title": "Depthwise filter conversion is a lossless round trip", "statement": "conv2d_filter_to_depthwise_conv2d_filter and depthwise_conv2d_filter_to_conv2d_filter form a lossless round trip: entry [h,w,i,m] of the depthwise filter becomes entry [h,w,i,i*mult+m] of the conv2d filter with zeros elsewhere, converting back returns the depthwise filter, conv2d filters with only those diagonal entries survive the opposite trip, an output-channel count not divisible by the input channels is rejected, and both filters compute the same convolution.", "quantifier": "all filter shapes and values", "why_tests_cant": "All shapes.", "anchors": ["kfac/python/ops/fisher_blocks.py:depthwise_conv2d_filter_to_conv2d_filter", "kfac/python/ops/fisher_blocks.py:conv2d_filter_to_depthwise_conv2d_filter"]}
{"id": "C19", "title": "No parameter ever belongs to two Fisher blocks", "statement": "After any history of register_* calls (succeeding or raising, with any reuse flags and approximations), every trainable variable belongs to at most one registered block, and a single-layer registration that raises for an overlapping or duplicate parameter set leaves the collection unchanged (register_separable_conv2d is two registrations; see C28).", "quantifier": "all histories of registration calls", "why_tests_cant": "Unbounded histories mixing successes and failures.", "anchors": ["kfac/python/ops/layer_collection.py:LayerCollection._register_block", "kfac/python/ops/layer_collection.py:LayerParametersDict"]}
{"id": "C20", "title": "Tower reuse semantics of layer registration", "statement": "register_X(reuse=True) on an already registered parameter set of the same block type adds one tower to the existing block and never creates a block; on an unregistered set or a different type it raises; reuse=False on a registered set raises; AUTO_REUSE creates on first use and adds a tower afterwards; over any history without the partially failing calls of C28, a block's towers are exactly the data of the successful registrations of its parameters, in order.", "quantifier": "all registration histories and reuse modes", "why_tests_cant": "All histories and mode combinations.", "anchors": ["kfac/python/ops/layer_collection.py:LayerCollection._register_block", "kfac/python/ops/layer_collection.py:LayerCollection.register_fully_connected"]}
{"id": "C21", "title": "Finalized collections are frozen", "statement": "Once the estimator has finalized a LayerCollection, every later layer or loss registration raises and changes neither blocks nor losses; finalizing twice raises; finalizing with no loss raises.", "quantifier": "all histories after finalization", "why_tests_cant": "Unbounded histories.", "anchors": ["kfac/python/ops/layer_collection.py:LayerCollection.finalize", "kfac/python/ops/layer_collection.py:LayerCollection._register_block", "kfac/python/ops/layer_collection.py:LayerCollection._register_loss_function"]}
{"id": "C22", "title": "check_registration accepts exactly the correctly registered variable lists", "statement": "On a collection whose use table has not been polluted and for a duplicate-free variable list, check_registration passes iff the list and the registered variables coincide and every non-generic variable was registered with exactly as many uses as the loss subgraph has.", "quantifier": "all collections, all subgraphs, all variable lists", "why_tests_cant": "All use-count tables and variable lists.", "anchors": ["kfac/python/ops/layer_collection.py:LayerCollection.check_registration"]}
{"id": "C23", "title": "check_registration is a pure check (repeatable)", "statement": "Calling check_registration any number of times gives the same answer as calling it once, whatever lists it was called with before, and registering a variable set never passes merely because the supplied list contains duplicates.", "quantifier": "all sequences of check_registration calls", "why_tests_cant": "Stateful pollution only shows on particular call histories.", "anchors": ["kfac/python/ops/layer_collection.py:LayerCollection.check_registration"]}
{"id": "C24", "title": "Linked parameters and approximation selection", "statement": "An explicit approx argument wins over the approximation attached by define_linked_parameters, which wins over the collection default; any name outside the layer type's table is rejected; linking is rejected exactly for a set that overlaps an existing linked group or a block registered over a different set, so linked groups stay pairwise disjoint.", "quantifier": "all histories of linking/registration and all approx arguments", "why_tests_cant": "All histories.", "anchors": ["kfac/python/ops/layer_collection.py:LayerCollection.define_linked_parameters", "kfac/python/ops/layer_collection.py:LayerCollection._get_block_type"]}
{"id": "C25", "title": "Loss registration, towers and total loss", "statement": "Each registered loss name has one coefficient shared by all towers; the name's tower list grows by exactly one per successful (re)registration; re-registering with another coefficient, an existing name without reuse, or reuse of an unknown name raises; total_loss is the sum over all losses and towers of coeff * loss (sqrt(coeff) in sqrt mode, 1 in off mode).", "quantifier": "all loss registration histories, all coefficients and loss values", "why_tests_cant": "All histories.", "anchors": ["kfac/python/ops/layer_collection.py:LayerCollection._register_loss_function", "kfac/python/ops/layer_collection.py:LayerCollection.eval_losses"]}
{"id": "C26", "title": "Factor sharing is exact", "statement": "make_or_get_factor returns the same factor object for equal (class, arguments) and never the same object for different ones, over any history of requests; the factor list has no duplicates and every block's statistic therefore is computed from exactly the tensors it asked for.", "quantifier": "all request histories", "why_tests_cant": "Unbounded histories.", "anchors": ["kfac/python/ops/layer_collection.py:LayerCollection.make_or_get_factor"]}
{"id": "C27", "title": "The default LayerCollection is scoped", "statement": "set_default_layer_collection refuses to overwrite a live default; as_default installs its collection and restores the previous state when the body ends; when the body raises, the previous default is restored as well.", "quantifier": "all nestings of as_default bodies, including bodies that raise", "why_tests_cant": "All nestings and exception points.", "anchors": ["kfac/python/ops/layer_collection.py:set_default_layer_collection", "kfac/python/ops/layer_collection.py:LayerCollection.as_default"]}
{"id": "C28", "title": "Failed registration calls leave the collection unchanged", "statement": "A registration call that raises has no observable effect on the collection: same blocks, towers, uses and losses as before.", "quantifier": "all registration calls and failure causes", "why_tests_cant": "Each failure point of each method.", "anchors": ["kfac/python/ops/layer_collection.py:LayerCollection.register_separable_conv2d", "kfac/python/ops/layer_collection.py:LayerCollection.register_fully_connected", "kfac/python/ops/layer_collection.py:LayerCollection.register_fully_connected_multi"]}
{"id": "C29", "title": "Optimizer constructor accepts exactly the legal configurations", "statement": "KfacOptimizer construction succeeds iff momentum_type is one of regular, adam, qmodel, qmodel_fixedmu (case-insensitively), norm_constraint is only combined with regular/adam, qmodel has no momentum, learning_rate is None exactly for the qmodel types, qmodel_update_rescale only comes with the qmodel types, use_passed_loss=False comes with a train_batch, and the forwarded placement and statistics options are legal for the estimator; in every other case it raises ValueError before any variable is created.", "quantifier": "all configurations of these options", "why_tests_cant": "Cross product of options with arbitrary strings and values.", "anchors": ["kfac/python/ops/optimizer.py:KfacOptimizer.__init__"]}
{"id": "C30", "title": "Momentum update is the exact geometric sum of past updates", "statement": "After any number of steps in regular mode the velocity of each variable is sum_i momentum^(n-1-i) * u_i of the preconditioned (clipped) gradients u_i, the parameters move by -learning_rate times it, and momentum 0 reduces to plain preconditioned descent; in adam mode velocities accumulate raw gradients and the update is the preconditioned velocity.", "quantifier": "all step counts, all gradient sequences, all momenta", "why_tests_cant": "Unbounded histories.", "anchors": ["kfac/python/ops/optimizer.py:KfacOptimizer._update_velocities", "kfac/python/ops/optimizer.py:KfacOptimizer._compute_raw_update_steps", "kfac/python/ops/optimizer.py:KfacOptimizer.apply_gradients"]}
{"id": "C31", "title": "KL/norm clipping enforces the trust region without changing direction", "statement": "With norm_constraint c and positive definite preconditioner P, the clipped update is s*P*g with 0 < s <= 1 and learning_rate^2 * s^2 * <g, P g> <= c; s = 1 whenever the unclipped update already satisfies the bound.", "quantifier": "all gradients, learning rates, constraints c > 0", "why_tests_cant": "Real-valued inputs.", "anchors": ["kfac/python/ops/optimizer.py:KfacOptimizer._clip_updates", "kfac/python/ops/optimizer.py:KfacOptimizer._update_clip_coeff"]}
{"id": "C32", "title": "Levenberg-Marquardt damping adaptation is bounded and moves in the right direction", "statement": "At each adaptation the damping becomes max(d*w, floor), max(d/w, floor) or max(d, floor) according to the reduction ratio thresholds (decrease when the ratio exceeds the upper threshold or the loss fell although the model predicted an increase, increase when below the lower threshold), with floor = min_damping + l2_reg; over any history damping never drops below the floor after the first adaptation and stays within a factor w^k of its start after k adaptations unless floored.", "quantifier": "all damping values, losses, model changes, and all adaptation histories", "why_tests_cant": "Real-valued unbounded histories.", "anchors": ["kfac/python/ops/optimizer.py:KfacOptimizer._update_damping"]}
{"id": "C33", "title": "Damping adapts exactly once per interval with matching loss pairs", "statement": "With adapt_damping, adaptation happens exactly at iterations k*interval (immediately) or just after them (delayed mode), and the reduction ratio always compares the loss before and after the same parameter update on the same batch with the model change predicted for that update.", "quantifier": "all intervals >= 1, both modes, every number of iterations", "why_tests_cant": "Unbounded histories of iterations.", "anchors": ["kfac/python/ops/optimizer.py:KfacOptimizer._is_damping_adaptation_time", "kfac/python/ops/optimizer.py:KfacOptimizer._maybe_update_prev_loss", "kfac/python/ops/optimizer.py:KfacOptimizer.maybe_pre_update_adapt_damping", "kfac/python/ops/optimizer.py:KfacOptimizer._maybe_post_update_adapt_damping"]}
{"id": "C34", "title": "Quadratic-model step sizes are optimal", "statement": "In qmodel mode, when the quadratic model is strictly convex, the chosen (alpha, mu) minimise the model over the span of the preconditioned gradient and the previous update, and the reported qmodel change is the model value at that minimiser (hence <= 0); with fixed mu, alpha minimises along the gradient direction.", "quantifier": "all gradients, previous updates, curvature values, damping and l2 constants", "why_tests_cant": "Real-valued inputs.", "anchors": ["kfac/python/ops/optimizer.py:KfacOptimizer._compute_qmodel_hyperparams", "kfac/python/ops/optimizer.py:_two_by_two_solve", "kfac/python/ops/optimizer.py:_eval_quadratic"]}
{"id": "C35", "title": "Zero-previous-update shortcut is only taken when it is optimal", "statement": "The shortcut that sets mu = 0 (or ignores mu in the predicted change) is taken only when the previous update is zero, so the predicted model change always equals the model value of the applied step.", "quantifier": "all gradient/previous-update pairs, both qmodel modes", "why_tests_cant": "Depends on a real-valued coincidence tests never hit.", "anchors": ["kfac/python/ops/optimizer.py:KfacOptimizer._compute_qmodel_hyperparams"]}
{"id": "C36", "title": "Fisher transformations act block by block and keep the caller's order", "statement": "multiply, multiply_inverse, multiply_matpower and multiply_cholesky return one vector per input pair, in the caller's order and paired with the same variables; the vector for a variable is determined only by the inputs of its own block; permuting the inputs permutes the outputs; a missing variable is an error.", "quantifier": "all registered block partitions, all orders of the input list, all vectors", "why_tests_cant": "All partitions and permutations.", "anchors": ["kfac/python/ops/estimator.py:FisherEstimator._compute_transformation", "kfac/python/ops/estimator.py:FisherEstimator.multiply_inverse"]}
{"id": "C37", "title": "Curvature-vector products are consistent", "statement": "multiply_fisher(v) = multiply_fisher_factor(multiply_fisher_factor_transpose(v)) and likewise for the GGN, for every v, any number of losses and any coefficients >= 0; the operators are linear, symmetric and positive semidefinite, and a loss coefficient c scales its contribution by c.", "quantifier": "all models (Jacobians), loss curvature matrices, coefficients, vectors", "why_tests_cant": "All linear maps and real vectors.", "anchors": ["kfac/python/ops/curvature_matrix_vector_products.py:CurvatureMatrixVectorProductComputer"]}
{"id": "C38", "title": "Per-loss Fisher factors square to the Fisher", "statement": "For the categorical, multi-Bernoulli, normal-mean and normal-mean-variance losses, multiply_fisher(v) = multiply_fisher_factor(multiply_fisher_factor_transpose(v)), factor and factor_transpose are adjoint, and multiply_fisher is symmetric positive semidefinite. The same holds for the products with the generalised Gauss-Newton matrix of the losses that have one.", "quantifier": "all distribution parameters, all vector widths, all vectors", "why_tests_cant": "Real-valued inputs of every dimension.", "anchors": ["kfac/python/ops/loss_functions.py:CategoricalLogitsNegativeLogProbLoss", "kfac/python/ops/loss_functions.py:MultiBernoulliNegativeLogProbLoss", "kfac/python/ops/loss_functions.py:NormalMeanNegativeLogProbLoss", "kfac/python/ops/loss_functions.py:NormalMeanVarianceNegativeLogProbLoss"]}
{"id": "C39", "title": "Replicated one-hot factor columns agree with the factor product", "statement": "multiply_fisher_factor_replicated_one_hot([i]) equals multiply_fisher_factor applied to the i-th standard basis vector on every batch row, for every loss and index, so summing over all columns of the exact-Fisher estimation mode reproduces the full Fisher. The same column agreement holds for the factor of the generalised Gauss-Newton matrix.", "quantifier": "all losses, parameters, dimensions and indices", "why_tests_cant": "All dimensions and indices.", "anchors": ["kfac/python/ops/loss_functions.py:CategoricalLogitsNegativeLogProbLoss.multiply_fisher_factor_replicated_one_hot", "kfac/python/ops/loss_functions.py:insert_slice_in_zeros"]}
{"id": "C40", "title": "The loss Fisher is the expected outer product of sampled gradients", "statement": "For every negative log-probability loss (categorical, multi-Bernoulli, normal in the mean, normal in the mean and the variance), the expectation over targets drawn from the model's own distribution of the outer product of the log-likelihood gradient with itself is the matrix applied by multiply_fisher, and the expected gradient is zero.", "quantifier": "all parameters of every batch size and width", "why_tests_cant": "All dimensions and real parameters.", "anchors": ["kfac/python/ops/loss_functions.py:CategoricalLogitsNegativeLogProbLoss.multiply_fisher", "kfac/python/ops/loss_functions.py:LossFunction.evaluate_on_sample"]}
{"id": "C41", "title": "Kronecker blocks multiply by the Kronecker product they claim", "statement": "For Kronecker-factored blocks multiply_matpower(v, exp) equals, in the row-major column ordering of the parameters (weights then bias row), renorm^exp times the Kronecker product of the damped input and output factor powers applied to v; in particular multiply_inverse undoes multiply and multiplying is linear.", "quantifier": "all factor matrices, sizes, biases, vectors, renormalisation constants, exponents for which the powers exist", "why_tests_cant": "All matrix sizes and entries.", "anchors": ["kfac/python/ops/fisher_blocks.py:KroneckerProductFB", "kfac/python/ops/utils.py:kronecker_product"]}
{"id": "C42", "title": "Factored Tikhonov damping splits the damping exactly", "statement": "The pi-adjusted dampings of the two Kronecker factors multiply to the block's (normalised) damping, are positive, equal when the trace norms agree, and the product (A + a I) kron (G + g I) dominates A kron G + damping I; degenerate zero-trace factors fall back to pi = 1.", "quantifier": "all positive semidefinite factors, all positive dampings and sizes", "why_tests_cant": "Real-valued inputs of every size.", "anchors": ["kfac/python/ops/fisher_blocks.py:compute_pi_tracenorm", "kfac/python/ops/fisher_blocks.py:compute_pi_adjusted_damping", "kfac/python/ops/fisher_blocks.py:KroneckerProductFB._setup_damping"]}
{"id": "C43", "title": "Cholesky products are true factors of the damped block", "statement": "multiply_cholesky(multiply_cholesky(v, transpose=True)) = multiply(v) and multiply_cholesky_inverse inverts multiply_cholesky, for Kronecker, diagonal and full blocks.", "quantifier": "all positive definite damped factors, all vectors", "why_tests_cant": "All sizes and entries.", "anchors": ["kfac/python/ops/fisher_blocks.py:KroneckerProductFB.multiply_cholesky", "kfac/python/ops/fisher_blocks.py:KroneckerProductFB.multiply_cholesky_inverse", "kfac/python/ops/fisher_blocks.py:DiagonalFB.multiply_cholesky", "kfac/python/ops/fisher_blocks.py:FullFB.multiply_cholesky"]}
{"id": "C44", "title": "Covariances are symmetric PSD and damped factors invertible", "statement": "Every covariance estimate obtained by any sequence of updates with decay in [0,1] from per-batch statistics is symmetric positive semidefinite, so adding any positive damping gives a positive definite, invertible matrix.", "quantifier": "all batch sequences, sizes, decays, positive dampings", "why_tests_cant": "Unbounded histories of real matrices.", "anchors": ["kfac/python/ops/fisher_factors.py:compute_cov", "kfac/python/ops/fisher_factors.py:FisherFactor.make_covariance_update_op", "kfac/python/ops/utils.py:posdef_inv"]}
{"id": "C45", "title": "Multi-tower statistics equal single-tower statistics", "statement": "Splitting a batch into equally sized towers yields the same covariance estimate as one tower holding the concatenated batch; unequal towers are detected and rejected.", "quantifier": "all tower counts, tower sizes and data", "why_tests_cant": "All partitions of all batches.", "anchors": ["kfac/python/ops/fisher_factors.py:FisherFactor._compute_total_new_cov", "kfac/python/ops/fisher_factors.py:FisherFactor.check_partial_batch_sizes", "kfac/python/ops/estimator.py:FisherEstimator._check_batch_sizes"]}
{"id": "C46", "title": "Diagonal fully connected factor is aligned with the parameter layout", "statement": "The diagonal factor of a fully connected layer equals, entry by entry in the order tensors_to_column uses for (weights, bias), the batch mean of squared per-example gradients of those parameters.", "quantifier": "all batches, layer sizes, with/without bias", "why_tests_cant": "All sizes and values.", "anchors": ["kfac/python/ops/fisher_factors.py:FullyConnectedDiagonalFactor.make_partial_cov", "kfac/python/ops/fisher_blocks.py:DiagonalFB.multiply_matpower"]}
{"id": "C47", "title": "SUA inverse is the true inverse", "statement": "For the spatially-uncorrelated-activations convolution approximation, the operator returned for exponent -1 is a two-sided inverse of the (damped) operator returned for exponent 1, for all kernel sizes with or without bias.", "quantifier": "all covariances, means, dampings, kernel sizes", "why_tests_cant": "All sizes and entries.", "anchors": ["kfac/python/ops/fisher_factors.py:ConvInputSUAKroneckerFactor.get_matpower"]}
{"id": "C48", "title": "Graph pattern matcher is sound and complete", "statement": "matcher(pattern)(node) returns a binding iff some consistent binding makes the node match the pattern in the declarative sense of the pattern grammar (elements with restrictions and consistent names, choices, lists, negation, neighbour constraints), and the binding returned satisfies the pattern; all_matcher enumerates all of them.", "quantifier": "all patterns, all finite graphs, all nodes", "why_tests_cant": "All patterns and graphs, backtracking behaviour included.", "anchors": ["kfac/python/ops/tensormatch/graph_matcher.py:matcher", "kfac/python/ops/tensormatch/graph_matcher.py:match_list", "kfac/python/ops/tensormatch/graph_matcher.py:match_choice", "kfac/python/ops/tensormatch/graph_matcher.py:match_element"]}
{"id": "C49", "title": "all_matcher results depend only on the queried node", "statement": "Calling the function returned by all_matcher on a node returns exactly the matches rooted at that node, regardless of earlier calls.", "quantifier": "all call histories of one matcher", "why_tests_cant": "Stateful accumulation shows only across calls.", "anchors": ["kfac/python/ops/tensormatch/graph_matcher.py:all_matcher"]}
{"id": "C50", "title": "Automatic layer detection never registers conflicting records", "statement": "filter_records keeps no record touching a user-registered variable or splitting a linked group, drops a record only for one of the documented reasons, never keeps a strict sub-match of another candidate, and either returns records whose parameter groups are pairwise equal or disjoint or raises AmbiguousRegistrationError.", "quantifier": "all record lists, user-registered sets and linked groups", "why_tests_cant": "All record lists.", "anchors": ["kfac/python/ops/tensormatch/graph_search.py:filter_records", "kfac/python/ops/tensormatch/graph_search.py:filter_subgraph_records", "kfac/python/ops/tensormatch/graph_search.py:filter_user_registered_records", "kfac/python/ops/tensormatch/graph_search.py:filter_grouped_variable_records"]}
{"id": "C51", "title": "register_layers registers every trainable variable or raises", "statement": "If register_layers returns normally, every variable of the supplied list is registered in exactly one block afterwards and user-made registrations are untouched.", "quantifier": "all matched record sets, variable lists, linked groups", "why_tests_cant": "All record sets and variable lists.", "anchors": ["kfac/python/ops/tensormatch/graph_search.py:register_layers", "kfac/python/ops/tensormatch/graph_search.py:register_subgraph_layers", "kfac/python/ops/tensormatch/graph_search.py:register_records"]}
{"id": "C52", "title": "CachedDataReader serves the previous mini-batch", "statement": "cached_batch evaluated during step k returns exactly the batch consumed in step k-1 (same examples, same order, same size), for any sequence of batch sizes up to the maximum.", "quantifier": "all batch-size sequences, all data", "why_tests_cant": "Unbounded histories of varying sizes.", "anchors": ["kfac/python/ops/kfac_utils/data_reader.py:CachedDataReader", "kfac/python/ops/kfac_utils/data_reader_alt.py:CachedDataReader"]}
{"id": "C53", "title": "Hyperparameter decay callbacks reach and hold their end value", "statement": "PolynomialDecay leaves the hyperparameter untouched through num_delay_steps, then follows the documented polynomial and equals final_value from step num_delay_steps+num_decay_steps on, forever; ExponentialDecay follows the documented formula in each of its three modes and freezes at the documented step.", "quantifier": "all parameters and every number of training batches", "why_tests_cant": "Unbounded training histories.", "anchors": ["kfac/python/keras/callbacks.py:PolynomialDecay", "kfac/python/keras/callbacks.py:ExponentialDecay"]}
{"id": "C54", "title": "Keras adaptive mode keeps the user's settings", "statement": "With adapt_damping, Kfac only fills in settings the user left unset: user-given invert_every, damping_adaptation_interval, use_passed_loss and update_damping_immediately are kept; adaptive=True with a learning_rate or momentum raises ValueError.", "quantifier": "all keyword dictionaries", "why_tests_cant": "All subsets of options.", "anchors": ["kfac/python/keras/optimizers.py:_configure_kfac_kwargs_for_adaptive"]}
{"id": "C55", "title": "Keras losses are registered with the weights the user gave", "statement": "get_layer_collection registers, for each model output, its loss exactly once with the weight given for that output (default 1.0), whatever the nesting of models, and does not modify the caller's arguments.", "quantifier": "all model trees (nesting), loss and weight dictionaries/lists", "why_tests_cant": "All nestings.", "anchors": ["kfac/python/keras/utils.py:get_layer_collection"]}
{"id": "C56", "title": "The GGN product of a natural-parameter loss is its Hessian product", "statement": "For the categorical, multi-Bernoulli and normal-mean losses, multiply_ggn(v) is the directional derivative along v of the gradient of evaluate() with respect to the loss inputs, i.e. the Hessian-vector product, for any targets.", "quantifier": "all parameters, targets, dimensions and vectors", "why_tests_cant": "A statement about derivatives at every real point.", "anchors": ["kfac/python/ops/loss_functions.py:NaturalParamsNegativeLogProbLoss.multiply_ggn", "kfac/python/ops/loss_functions.py:NegativeLogProbLoss.evaluate"]}
{"id": "C57", "title": "Every estimation mode estimates the same curvature matrix", "statement": "The gradients the estimator feeds to the covariance statistics have mean zero and a second moment equal to the curvature matrix of the registered losses with their coefficients: in expectation over sampled targets in mode gradients, in expectation over random signs in mode curvature_prop, and exactly, summed over the columns, in mode exact; for both Fisher and GGN and every supported loss. In mode empirical the gradient is that of the total loss, every loss with its coefficient.", "quantifier": "all losses, coefficients, Jacobians, parameter values", "why_tests_cant": "An equality of expectations over all targets or sign patterns, for every real input.", "anchors": ["kfac/python/ops/estimator.py:FisherEstimator._get_grads_lists_gradients", "kfac/python/ops/estimator.py:FisherEstimator._get_grads_lists_curvature_prop", "kfac/python/ops/estimator.py:FisherEstimator._get_grads_lists_exact", "kfac/python/ops/layer_collection.py:LayerCollection.eval_losses"]}
{"id": "C58", "title": "Served inverses and factors are those of the last inverse update", "statement": "A factor's get_matpower / get_cholesky / get_cholesky_inverse return, for every registered exponent and damping, the power or factor of the covariance plus damping as they were when the inverse update op responsible for it last ran, its initial value if it never ran, and a KeyError if it was never registered; exponent 1 always uses the current covariance and damping.", "quantifier": "all sets of registrations, all interleavings of covariance updates and inverse update ops, all dampings", "why_tests_cant": "Unbounded histories and all registration sets (which switch between eigendecomposition and direct inversion).", "anchors": ["kfac/python/ops/fisher_factors.py:DenseSquareMatrixFactor.make_inverse_update_ops", "kfac/python/ops/fisher_factors.py:DenseSquareMatrixFactor.get_matpower", "kfac/python/ops/fisher_factors.py:DenseSquareMatrixFactor.get_cholesky"]}
{"id": "C59", "title": "The SUA operator is laid out like the filter it multiplies", "statement": "In the spatially-uncorrelated-activations approximation the entry of the input operator for two filter positions (spatial offset, input channel) depends on the channels through the channel covariance and vanishes (zero mean) for different spatial offsets, in the order in which the reshaped filter lists its positions.", "quantifier": "all channel covariances, filter sizes and pairs of positions", "why_tests_cant": "All index pairs and all matrices.", "anchors": ["kfac/python/ops/fisher_factors.py:ConvInputSUAKroneckerFactor.get_matpower", "kfac/python/ops/fisher_blocks.py:ConvKFCBasicFB", "kfac/python/ops/utils.py:layer_params_to_mat2d"]}
{"id": "C60", "title": "Sparse gradients give the same products as dense ones", "statement": "For a layer with diagonal input factor, multiplying an IndexedSlices gradient (repeated indices included) by a power of the block gives slices that represent the product for the dense gradient; unsupported combinations raise.", "quantifier": "all slices, diagonal and dense factors, scales", "why_tests_cant": "All index lists, repeated indices in particular.", "anchors": ["kfac/python/ops/utils.py:matmul_sparse_dense", "kfac/python/ops/utils.py:matmul_diag_sparse", "kfac/python/ops/linear_operator.py:LinearOperatorDiag", "kfac/python/ops/fisher_blocks.py:KroneckerProductFB._multiply_factored_matrix"]}
{"id": "C61", "title": "Patch masks are applied per filter position", "statement": "A patch_mask of shape [height, width, in_channels] multiplies, in every extracted patch, the entry of each filter position by the mask's entry for that position, for Kronecker-factored and for diagonal convolution blocks.", "quantifier": "all filter sizes, image sizes, masks and patches", "why_tests_cant": "All shapes; broadcasting makes some shapes silently work.", "anchors": ["kfac/python/ops/fisher_factors.py:ConvDiagonalFactor.make_covariance_update_op", "kfac/python/ops/fisher_factors.py:ConvInputKroneckerFactor._compute_new_cov"]}
{"id": "C62", "title": "Automatic registration recognises exactly the documented layers", "statement": "The patterns used for automatic registration recognise a tensor iff it is the output of a dense or convolution layer (product with a variable, optionally plus a variable in either order), an embedding lookup, a scale-and-shift, or a (fused) batch normalisation, looking through identities and variable reads; the bindings returned name that layer's input, output, parameters and operation, and a tensor can be read as only one dense layer or embedding.", "quantifier": "all finite graphs whose identity chains end, all nodes", "why_tests_cant": "All graphs.", "anchors": ["kfac/python/ops/tensormatch/graph_patterns.py:Affine", "kfac/python/ops/tensormatch/graph_patterns.py:Embed", "kfac/python/ops/tensormatch/graph_patterns.py:ScaleAndShift", "kfac/python/ops/tensormatch/graph_patterns.py:BatchNorm", "kfac/python/ops/tensormatch/graph_patterns.py:FusedBatchNormOutput"]}
{"id": "C63", "title": "The search records exactly the layers that train the given variables", "statement": "Automatic registration records a match only for a layer whose output lies in the searched subgraph, with that layer's input, output, parameters, strides and data format; every such layer that trains some of the variables is recorded; the order of the variable list does not matter. Fully connected layers with inputs of too many dimensions or with transposed arguments are refused with an exception.", "quantifier": "all graphs, subgraphs and variable lists", "why_tests_cant": "All graphs.", "anchors": ["kfac/python/ops/tensormatch/graph_search.py:register_subgraph_layers", "kfac/python/ops/tensormatch/graph_search.py:record_affine_from_bindings", "kfac/python/ops/tensormatch/graph_search.py:record_scale_and_shift_from_bindings", "kfac/python/ops/tensormatch/graph_search.py:record_batch_norm_from_bindings"]}
{"id": "C64", "title": "Automatically registered convolutions keep their attributes", "statement": "A convolution found by automatic registration is registered with the strides, padding, data format and dilations of its operation.", "quantifier": "all graphs with convolutions", "why_tests_cant": "All attribute combinations.", "anchors": ["kfac/python/ops/tensormatch/graph_search.py:record_affine_from_bindings", "kfac/python/ops/tensormatch/graph_search.py:register_records"]}
{"id": "C65", "title": "Automatic registration infers the documented number of uses", "statement": "When a layer's single input tensor has shape [num_uses, batch_size, ...] or [num_uses * batch_size, ...] (the documented formats), automatic registration passes that num_uses on, and raises if the batch size does not divide the folded dimension.", "quantifier": "all input shapes and batch sizes", "why_tests_cant": "All shapes and batch sizes.", "anchors": ["kfac/python/ops/tensormatch/graph_search.py:register_records", "kfac/python/ops/layer_collection.py:LayerCollection.register_fully_connected_multi"]}
{"id": "C66", "title": "The search covers everything the losses depend on", "statement": "Automatic registration searches all tensors and operations that the inputs of the registered losses depend on, whatever loss functions are registered in whatever order.", "quantifier": "all graphs and lists of losses", "why_tests_cant": "All graphs and loss lists.", "anchors": ["kfac/python/ops/tensormatch/graph_search.py:register_layers", "kfac/python/ops/utils.py:SubGraph", "kfac/python/ops/loss_functions.py:NormalMeanVarianceNegativeLogProbLoss"]}
{"id": "C67", "title": "Embedding layers found automatically can be registered", "statement": "An embedding lookup that automatic registration finds is registered with an approximation that exists for it, whether it is used once or several times.", "quantifier": "all embedding records, collections and batch sizes", "why_tests_cant": "All collections and uses.", "anchors": ["kfac/python/ops/tensormatch/graph_search.py:register_records", "kfac/python/ops/layer_collection.py:LayerCollection.register_fully_connected"]}
{"id": "C68", "title": "A refused read leaves the cached batch alone", "statement": "When a CachedDataReader refuses a batch because it is larger than the maximum, the cached batch stays what it was.", "quantifier": "all batch sizes, data and orders of the operations of a run", "why_tests_cant": "The order in which independent graph operations run is not under the control of a test.", "anchors": ["kfac/python/ops/kfac_utils/data_reader.py:CachedDataReader.__call__", "kfac/python/ops/kfac_utils/data_reader_alt.py:CachedDataReader.__call__"]}
{"id": "C69", "title": "Exponential decay needs exactly two of its options", "statement": "ExponentialDecay accepts a configuration iff exactly two of final_value, decay_rate and num_decay_steps are given, and raises ValueError otherwise.", "quantifier": "all values of the three options", "why_tests_cant": "All combinations of option values, including zeros.", "anchors": ["kfac/python/keras/callbacks.py:ExponentialDecay.__init__"]}
{"id": "C70", "title": "Fisher approximations go to the layers they are listed for", "statement": "get_layer_collection registers the i-th trainable layer, in left-to-right depth-first order, with the i-th approximation of a list; from a dict it takes the approximation under the layer's name, else under its class, else the default. A list of the wrong length or a name that is no trainable layer is refused.", "quantifier": "all models, nested to any depth, and all fisher_approx arguments", "why_tests_cant": "All model trees and arguments.", "anchors": ["kfac/python/keras/utils.py:get_layer_collection", "kfac/python/keras/utils.py:_get_verified_dict"]}
{"id": "C71", "title": "A Keras optimizer rebuilt from its configuration has the same settings", "statement": "Kfac.from_config(opt.get_config()) succeeds and trains with the same settings as opt, at any time during training.", "quantifier": "all constructor arguments and histories of hyperparameter assignments", "why_tests_cant": "All combinations of arguments and histories.", "anchors": ["kfac/python/keras/optimizers.py:Kfac.get_config", "kfac/python/keras/optimizers.py:Kfac.from_config", "kfac/python/keras/optimizers.py:Kfac.__init__"]}
{"id": "C72", "title": "The Keras optimizer lists exactly the hyperparameters that can be reassigned", "statement": "mutable_hyperparameters are those of learning_rate, momentum, damping, weight_decay_coeff and norm_constraint that have a value and are not controlled by an adaptive mode; assigning one changes that one only, and training uses the value assigned last.", "quantifier": "all constructor arguments and assignments", "why_tests_cant": "All argument combinations and assignment histories.", "anchors": ["kfac/python/keras/optimizers.py:Kfac.mutable_hyperparameters", "kfac/python/keras/optimizers.py:_mutable_hyper_params"]}
{"id": "C73", "title": "The loss used to adapt the damping weighs the outputs as registered", "statement": "The function returned by get_loss_fn is the sum over the outputs of weight times loss, with the weight given for the output or 1, plus the model's own losses.", "quantifier": "all models, losses, weights and predictions", "why_tests_cant": "All real values, weights and numbers of outputs.", "anchors": ["kfac/python/keras/utils.py:get_loss_fn"]}
{"id": "C74", "title": "Registering a training batch settles its size", "statement": "register_train_batch keeps the batch, takes the batch size given with it, else the one given before, else the static size of the inputs, and raises ValueError if there is none or the batch is not a tuple of tensors. Training with adaptive damping without a registered batch raises ValueError. The wrapped optimizer is made with the batch that was accepted last and its size, whatever calls come in between; a batch that was refused is not used.", "quantifier": "all batches, sizes and earlier settings", "why_tests_cant": "All argument combinations.", "anchors": ["kfac/python/keras/optimizers.py:Kfac.register_train_batch", "kfac/python/keras/optimizers.py:Kfac._create_optimizer"]}
{"id": "C75", "title": "Keras losses are registered as the matching KFAC loss", "statement": "A Keras loss given as a name, function or object (normal or serialized) for squared error, categorical, sparse categorical or binary cross entropy is registered as the matching KFAC loss on the output (squared error) or the input of the output activation (the others), whatever the spelling; any other loss raises ValueError. The form in which the optimizer's configuration stores a loss argument has the same keys in the same order and makes the same registrations as the argument itself.", "quantifier": "all layers, graphs and losses", "why_tests_cant": "All spellings and forms.", "anchors": ["kfac/python/keras/utils.py:register_loss", "kfac/python/keras/utils.py:serialize_loss"]}
{"id": "C76", "title": "Keras layers are registered with their own tensors, weights and attributes", "statement": "A supported layer with trainable parameters is registered exactly once with its trainable weights, its input, its output before the activation and its attributes; an unsupported one raises ValueError; layers without trainable parameters are ignored; the extra use of fused normalizations is added exactly while the learning phase is not set.", "quantifier": "all layers, graphs and learning phases", "why_tests_cant": "All combinations of layer attributes.", "anchors": ["kfac/python/keras/utils.py:register_layer", "kfac/python/keras/utils.py:get_parent"]}
{"id": "C77", "title": "Layers with several uses are accumulated example by example", "statement": "For a layer used T times, whether its data comes as one list of uses per tower or already folded into tensors, the statistics are taken over exactly the rows that were given, a row is paired with exactly the row of the same example at the previous use, and the batch size is the number of examples. With the diagonal approximation the statistics are the diagonal of those of the same rows. Inconsistent numbers of uses are refused.", "quantifier": "all numbers of towers, uses, sources and examples, and all data", "why_tests_cant": "All shapes and tower strategies.", "anchors": ["kfac/python/ops/fisher_blocks.py:InputOutputMultiTowerMultiUse._process_data", "kfac/python/ops/fisher_factors.py:FullyConnectedMultiKF"]}
{"id": "C78", "title": "The series block of option 1 inverts the covariance of the summed gradient", "statement": "For a layer used T times, multiplying by the inverse of a block of the approximation kron_series_1 is multiplying by the inverse of the covariance of the sum over T uses of the gradient of a stationary linear process with the factors' (damped, symmetrised) covariances.", "quantifier": "all sizes, T, covariances, dampings and vectors", "why_tests_cant": "All matrices over the reals.", "anchors": ["kfac/python/ops/fisher_blocks.py:FullyConnectedSeriesFB.multiply_matpower", "kfac/python/ops/fisher_factors.py:FullyConnectedMultiKF.make_inverse_update_ops"]}
{"id": "C79", "title": "The series block of option 2 inverts the limiting covariance", "statement": "Multiplying by the inverse of a block of the approximation kron_series_2 (whose factors are not shared with a block of kron_series_1, see C81) is multiplying by the inverse of T (W + W' - V), where V is the covariance of the gradient of one use and W the sum of its covariances at all lags; this differs from the covariance of the summed gradient by a matrix bounded independently of T.", "quantifier": "all sizes, T, covariances, dampings and vectors", "why_tests_cant": "All matrices over the reals, limits.", "anchors": ["kfac/python/ops/fisher_blocks.py:FullyConnectedSeriesFB.multiply_matpower", "kfac/python/ops/fisher_factors.py:FullyConnectedMultiKF.make_inverse_update_ops"]}
{"id": "C80", "title": "The statistics of successive uses are always those of a process", "statement": "After any history of covariance updates, the covariance of a use and that of successive uses are such that the joint covariance of two successive uses is positive semidefinite, so that the inverses of the series blocks exist.", "quantifier": "all histories of updates, data, decays and weights", "why_tests_cant": "All histories.", "anchors": ["kfac/python/ops/fisher_factors.py:FullyConnectedMultiKF._compute_new_cov", "kfac/python/ops/fisher_factors.py:FullyConnectedMultiKF.make_covariance_update_op"]}
{"id": "C81", "title": "Blocks that share a factor do not influence each other", "statement": "The quantities a factor for several uses serves to a block depend on the statistics and on the damping of that block only, not on what other blocks registered with the same factor.", "quantifier": "all sets of registrations, dampings and statistics", "why_tests_cant": "All combinations of registrations.", "anchors": ["kfac/python/ops/fisher_factors.py:FullyConnectedMultiKF.make_inverse_update_ops", "kfac/python/ops/layer_collection.py:LayerCollection.make_or_get_factor"]}
{"id": "C82", "title": "Blocks that treat uses as independent scale with the number of uses", "statement": "A block that treats the T uses of a layer as independent is T times the Kronecker product of its factors, with the damping divided accordingly, and computes its statistics from all the examples it is given; data in every documented format is accepted.", "quantifier": "all numbers of uses, sizes, dampings and data", "why_tests_cant": "All sizes and formats.", "anchors": ["kfac/python/ops/fisher_blocks.py:FullyConnectedMultiIndepFB", "kfac/python/ops/fisher_blocks.py:ConvKFCBasicMultiIndepFB"]}
{"id": "C83", "title": "Patches are what the convolution reads", "statement": "For every accepted convolution layer, the patches extracted for its Fisher factor have a row per example and output position that holds exactly the inputs the filter reads there (zero in the padding), so that the patch matrix times the reshaped filter is the layer's output; without sub-sampling the statistic of the input factor is the average over all rows of the products of their entries, with a one for the bias.", "quantifier": "all input shapes and values, filter shapes, strides, dilations, paddings and ways of extracting patches", "why_tests_cant": "All shapes, strides, dilations and data.", "anchors": ["kfac/python/ops/utils.py:extract_convolution_patches", "kfac/python/ops/utils.py:extract_pointwise_conv2d_patches", "kfac/python/ops/fisher_factors.py:ConvInputKroneckerFactor._compute_new_cov"]}
{"id": "C84", "title": "The diagonal convolution statistic is the mean of squared per-example gradients", "statement": "For a 2-D convolution with the diagonal approximation, the statistic equals the mean over the examples of the squared entries of the gradient of that example's loss with respect to filter and bias.", "quantifier": "all shapes, strides, dilations, paddings and data", "why_tests_cant": "All shapes and data.", "anchors": ["kfac/python/ops/fisher_factors.py:ConvDiagonalFactor._compute_new_cov", "kfac/python/ops/fisher_factors.py:ConvDiagonalFactor.make_covariance_update_op"]}
{"id": "C85", "title": "Sub-sampling examples and patches is unbiased", "statement": "With sub-sampling of the inputs and of the patches of a convolution layer, the statistic of the input factor, averaged over the random orders, equals the statistic without sub-sampling; the number of patches used is bounded as configured.", "quantifier": "all layers, data, sampling fractions and limits, and all orders drawn", "why_tests_cant": "All orders of all batches.", "anchors": ["kfac/python/ops/fisher_factors.py:_subsample_patches", "kfac/python/ops/fisher_factors.py:_random_tensor_gather", "kfac/python/ops/fisher_factors.py:ConvInputKroneckerFactor._compute_new_cov"]}
{"id": "C86", "title": "Convolution blocks count the positions of the layer's output", "statement": "The number of locations by which a convolution block scales its curvature is the number of spatial positions of the layer's output, for every registration function, stride, dilation and padding it accepts.", "quantifier": "all shapes, strides, dilations, paddings and registration functions", "why_tests_cant": "All shapes and options.", "anchors": ["kfac/python/ops/fisher_factors.py:num_conv_locations", "kfac/python/ops/fisher_blocks.py:ConvKFCBasicFB.instantiate_factors", "kfac/python/ops/layer_collection.py:LayerCollection.register_conv2d", "kfac/python/ops/layer_collection.py:LayerCollection.register_convolution"]}
{"id": "C87", "title": "Scale-and-shift statistics are those of per-example gradients", "statement": "For a layer that computes scale * inputs + shift with broadcasting, the statistic has the size of the parameters and is the mean of the outer products (full) or of the squares (diagonal) of the per-example gradients with respect to all entries of scale and shift.", "quantifier": "all shapes that broadcast, and all data", "why_tests_cant": "All broadcasting patterns and data.", "anchors": ["kfac/python/ops/fisher_factors.py:ScaleAndShiftFactor._compute_new_cov", "kfac/python/ops/fisher_factors.py:ScaleAndShiftFactor._cov_shape", "kfac/python/ops/layer_collection.py:LayerCollection.register_scale_and_shift"]}
{"id": "C88", "title": "Depthwise blocks act on every channel by itself and invert", "statement": "Multiplying by the curvature block of a depthwise convolution maps the parameters of each input channel to the parameters of the same channel, and multiplying by its inverse undoes it.", "quantifier": "all filter shapes, statistics, dampings and vectors", "why_tests_cant": "All matrices over the reals.", "anchors": ["kfac/python/ops/fisher_blocks.py:DepthwiseConvKFCBasicFB", "kfac/python/ops/fisher_blocks.py:DepthwiseConvDiagonalFB"]}
{"id": "C89", "title": "Different factors keep their statistics in different variables", "statement": "The factors of a model's layers each keep their running statistics in variables of their own: updating one never changes what another serves, and creating them does not fail because another exists.", "quantifier": "all sets of registered layers, tensor names, settings and pre-existing variables outside the scope", "why_tests_cant": "All combinations of layers and names.", "anchors": ["kfac/python/ops/fisher_factors.py:scope_string_from_params", "kfac/python/ops/fisher_factors.py:FisherFactor.instantiate_cov_variables", "kfac/python/ops/utils.py:MovingAverageVariable"]}
{"id": "C90", "title": "Inverse variables are never silently shared", "statement": "Creating the variables for all registered matrix powers, Cholesky factors and the like either raises or gives each registration of each factor its own new variable, under the documented names; it succeeds when these names are distinct.", "quantifier": "all factors, registered powers and dampings, and existing variables", "why_tests_cant": "All sets of registrations.", "anchors": ["kfac/python/ops/fisher_factors.py:DenseSquareMatrixFactor.instantiate_inv_variables", "kfac/python/ops/fisher_factors.py:ConvInputSUAKroneckerFactor.instantiate_inv_variables", "kfac/python/ops/fisher_factors.py:FullyConnectedMultiKF.instantiate_inv_variables"]}
{"id": "C91", "title": "Every registered layer can be named under both tower strategies", "statement": "Whatever the tower strategy, the factors of every registered layer with data have a scope name, so that their variables can be created.", "quantifier": "all layers, numbers of towers and sources, both strategies", "why_tests_cant": "All layers and both strategies.", "anchors": ["kfac/python/ops/fisher_factors.py:scope_string_from_params", "kfac/python/ops/fisher_factors.py:scope_string_from_name", "kfac/python/ops/fisher_blocks.py:InputOutputMultiTower._process_data"]}
{"id": "C92", "title": "The created variables do not depend on order or on object identity", "statement": "Creating the variables for the same registrations in another order (of factors or of dampings), or in a rebuilt graph with the same names and shapes, gives the same variable names and shapes, so that a checkpoint written by one run can be restored by another.", "quantifier": "all factors, registrations, orders and renamings of tensor objects", "why_tests_cant": "All orders of sets, which differ between runs.", "anchors": ["kfac/python/ops/fisher_factors.py:DenseSquareMatrixFactor.instantiate_inv_variables", "kfac/python/ops/estimator.py:FisherEstimator.make_vars_and_create_op_thunks"]}
{"id": "C93", "title": "Global constants take effect when they are set", "statement": "After any sequence of calls of set_global_constants, the factors created next behave according to the value given last for every constant, or the documented default if it was never given.", "quantifier": "all sequences of calls and all factors created afterwards", "why_tests_cant": "All histories of calls.", "anchors": ["kfac/python/ops/fisher_factors.py:set_global_constants"]}
{"id": "C94", "title": "Statistics have the sizes the layer's parameters need", "statement": "For every fully connected, convolution or recurrent layer, under both tower strategies and for any number of towers and loss sources, the statistics kept for the layer have one row for each input feature (times filter positions) plus one for a bias, and one for each output feature.", "quantifier": "all layers, shapes, towers, sources and approximations", "why_tests_cant": "All shapes and options.", "anchors": ["kfac/python/ops/fisher_factors.py:FisherFactor._cov_shape", "kfac/python/ops/fisher_blocks.py:InputOutputMultiTower._process_data", "kfac/python/ops/utils.py:PartitionedTensor.shape"]}
{"id": "C95", "title": "Averages over replicas", "statement": "In every supported replicated context all_average gives every replica, entry by entry, the average over the replicas of what they passed, and all_sum the sum; everywhere else both act like the identity.", "quantifier": "all contexts, numbers of replicas and nested structures of tensors", "why_tests_cant": "All kinds of contexts; tests run on one replica.", "anchors": ["kfac/python/ops/utils.py:all_average", "kfac/python/ops/utils.py:all_sum", "kfac/python/ops/utils.py:get_num_replicas"]}
{"id": "C96", "title": "Data parallel training equals training on the whole batch", "statement": "Training on N synchronous replicas that each get B examples gives, after any number of steps and for every momentum type and option, on every replica exactly the parameters, velocities, statistics, inverses, damping and other variables (or the exception) that one device gets with all N*B examples.", "quantifier": "all learning problems, options, replicated contexts without MirroredStrategy, numbers of replicas and steps, and starting states", "why_tests_cant": "All numbers of replicas, problems and histories; tests run on one replica.", "anchors": ["kfac/python/ops/optimizer.py:KfacOptimizer.compute_gradients", "kfac/python/ops/optimizer.py:KfacOptimizer.apply_gradients", "kfac/python/ops/optimizer.py:KfacOptimizer._compute_qmodel", "kfac/python/ops/fisher_factors.py:FisherFactor._compute_total_new_cov", "kfac/python/ops/kfac_utils/periodic_inv_cov_update_kfac_opt.py:PeriodicInvCovUpdateKfacOpt"]}
{"id": "C97", "title": "Replicas do not drift apart", "statement": "Replicas that start with the same variables hold the same variables after any number of steps, whatever the data each of them sees.", "quantifier": "all replicated contexts, environments, options, data and numbers of steps", "why_tests_cant": "All histories; tests run on one replica.", "anchors": ["kfac/python/ops/utils.py:smart_assign", "kfac/python/ops/optimizer.py:KfacOptimizer.apply_gradients", "kfac/python/ops/fisher_factors.py:FisherFactor._compute_total_new_cov"]}
{"id": "C98", "title": "MirroredStrategy", "statement": "Under MirroredStrategy, too, training on N replicas equals training on one device with the whole batch; burn-in steps are refused.", "quantifier": "all learning problems, options without burn-in, numbers of replicas and steps", "why_tests_cant": "All numbers of replicas and histories; tests run on one replica.", "anchors": ["kfac/python/ops/utils.py:smart_cond", "kfac/python/ops/utils.py:smart_assign", "kfac/python/ops/kfac_utils/periodic_inv_cov_update_kfac_opt.py:PeriodicInvCovUpdateKfacOpt.kfac_update_ops"]}
{"id": "C99", "title": "Tensors that no loss depends on are refused by name", "statement": "Making the curvature statistics succeeds if and only if every tensor of the registered layers influences some registered loss; otherwise it raises ValueError with a message that names exactly the tensors that influence none.", "quantifier": "all graphs of losses and tensors, layers and estimation modes", "why_tests_cant": "All graphs and registrations.", "anchors": ["kfac/python/ops/estimator.py:FisherEstimator._instantiate_factors", "kfac/python/ops/estimator.py:FisherEstimator._get_grads_lists_exact"]}
{"id": "C100", "title": "Statistics of the parameters are mean gradients", "statement": "With compute_params_stats the optimizer's statistics are, for every variable in the order of var_list (a list or tuple), the gradient of the total loss divided by the batch size and averaged over replicas (with empirical estimation; in the other modes, the same mean of the gradients the estimate is made from); asking for them changes nothing else.", "quantifier": "all losses, variables, batch sizes and replicas", "why_tests_cant": "All graphs and values.", "anchors": ["kfac/python/ops/estimator.py:FisherEstimator._instantiate_factors", "kfac/python/ops/optimizer.py:KfacOptimizer.__init__"]}
{"id": "C101", "title": "minimize is compute_gradients followed by apply_gradients", "statement": "Calling compute_gradients(loss) and then apply_gradients has the same effect as minimize(loss), also with an explicit list of variables; that list may be in any order and must be exactly the optimizer's variables.", "quantifier": "all sets of registered and trainable variables, blocks, gradients and orders of the list", "why_tests_cant": "All sets of variables.", "anchors": ["kfac/python/ops/optimizer.py:KfacOptimizer.minimize", "kfac/python/ops/optimizer.py:KfacOptimizer.compute_gradients"]}
{"id": "C102", "title": "The asynchronous optimizer places its computations on the given devices", "statement": "Covariance and inverse computations of the asynchronous optimizer run on the devices of cov_devices and inv_devices in a round-robin fashion; None leaves them where they are called.", "quantifier": "all lists of devices and all lists of computations", "why_tests_cant": "All numbers of devices and factors.", "anchors": ["kfac/python/ops/kfac_utils/async_inv_cov_update_kfac_opt.py:AsyncInvCovUpdateKfacOpt.__init__", "kfac/python/ops/placement.py:RoundRobinPlacementMixin"]}
{"id": "C103", "title": "Any order of the thunks that respects the documented partial order works", "statement": "The variable and update thunks may be executed in any order in which the covariance variables of a factor precede its updates and its inverse variables precede its inverse update: all succeed, and each update op updates exactly the variables of its factor.", "quantifier": "all lists of factors and all orders of thunks", "why_tests_cant": "All interleavings.", "anchors": ["kfac/python/ops/estimator.py:FisherEstimator._create_ops_and_vars_thunks", "kfac/python/ops/fisher_factors.py:DenseSquareMatrixFactor.make_inverse_update_ops", "kfac/python/ops/fisher_blocks.py:KroneckerProductFB._get_pi_adjusted_damping"]}
{"id": "C104", "title": "Exactly the requested matrix functions are available", "statement": "An estimator made with the powers exps can multiply by these powers and by the power 1, and fails for all others; it can multiply by Cholesky factors or their inverses if and only if compute_cholesky or compute_cholesky_inverse was set.", "quantifier": "all lists of powers, flags and lists of blocks of all kinds", "why_tests_cant": "All powers and combinations of layers.", "anchors": ["kfac/python/ops/estimator.py:FisherEstimator._register_matrix_functions", "kfac/python/ops/estimator.py:FisherEstimator.multiply_matpower", "kfac/python/ops/fisher_blocks.py:FisherBlock.register_matpower", "kfac/python/ops/fisher_factors.py:FisherFactor.register_matpower"]}
{"id": "C105", "title": "The lists of variables of the factors are complete", "statement": "get_cov_vars and get_inv_vars return, for every factor, all variables that were created for its statistics and for its inverses; the inverse update of the replica round robin placement, which saves its results to the listed variables, assigns every inverse variable of every factor exactly once.", "quantifier": "all lists of factors of all kinds, registered powers, dampings and settings", "why_tests_cant": "All combinations of layers and registrations.", "anchors": ["kfac/python/ops/estimator.py:FisherEstimator.get_cov_vars", "kfac/python/ops/estimator.py:FisherEstimator.get_inv_vars", "kfac/python/ops/fisher_factors.py:DenseSquareMatrixFactor.get_inv_vars", "kfac/python/ops/fisher_factors.py:ConvInputSUAKroneckerFactor.get_inv_vars", "kfac/python/ops/fisher_factors.py:FullyConnectedMultiKF.get_inv_vars", "kfac/python/ops/placement.py:ReplicaRoundRobinPlacementMixin"]}
{"id": "C106", "title": "Loading a saved Keras model gives back the optimizer that was saved", "statement": "load_model on a model saved with a Kfac optimizer returns a model whose optimizer has the saved settings, the requested name, and the layers of the loaded model; it creates only variables under that name; a model saved without an optimizer is refused with ValueError; and a file that load_model opened is closed, whether it succeeds or fails.", "quantifier": "all saved files and configurations, names, and graphs already in use", "why_tests_cant": "All configurations and failures.", "anchors": ["kfac/python/keras/saving_utils.py:load_model", "kfac/python/keras/saving_utils.py:_compile_args_from_training_config", "kfac/python/keras/optimizers.py:Kfac.from_config", "kfac/python/keras/optimizers.py:Kfac.register_layers"]}
{"id": "C107", "title": "The Keras optimizer wraps one optimizer and owns its weights", "statement": "In every sequence of calls, the wrapped optimizer is created once, under the name and for the layers current at that time, and is never replaced; after that the name cannot be changed. Its weights are the step counter and the variables in its own scope, without repetition, so that optimizers with different names share no weights. A loss function it makes for adapting the damping uses the model and loss that were registered.", "quantifier": "all sequences of calls, including failing ones, interleaved with the creation of other variables", "why_tests_cant": "All histories.", "anchors": ["kfac/python/keras/optimizers.py:Kfac.name", "kfac/python/keras/optimizers.py:Kfac._create_optimizer", "kfac/python/keras/optimizers.py:Kfac._call_and_track_vars", "kfac/python/keras/optimizers.py:Kfac.register_layers"]}
{"id": "C108", "title": "The state of a Keras optimizer survives saving and loading", "statement": "If the same model is built again in another process and the saved weights of the optimizer are set, every variable of the optimizer holds what it held when it was saved.", "quantifier": "all lists of factors and registrations, orders of sets in the two processes, and contents of the variables", "why_tests_cant": "All orders of iteration over sets.", "anchors": ["kfac/python/keras/saving_utils.py:load_model", "kfac/python/keras/optimizers.py:Kfac._call_and_track_vars", "kfac/python/ops/fisher_factors.py:DenseSquareMatrixFactor.instantiate_inv_variables"]}
{"id": "C109", "title": "A preconditioned gradient is never an ascent direction", "statement": "Multiplying a gradient by the (approximate) inverse of the Fisher matrix never gives a vector that makes an obtuse angle with the gradient, however stale the inverses are and even if they were never computed; the angle is acute once the gradient is not zero and each factor has computed its inverses once or was started from a positive definite matrix.", "quantifier": "all histories of covariance and inverse updates of each factor, in any order and number, all sizes, dampings, powers, inversion methods and kinds of layers", "why_tests_cant": "All schedules and histories.", "anchors": ["kfac/python/ops/fisher_blocks.py:KroneckerProductFB.multiply_matpower", "kfac/python/ops/fisher_blocks.py:FullFB.multiply_matpower", "kfac/python/ops/fisher_blocks.py:DiagonalFB.multiply_matpower", "kfac/python/ops/fisher_factors.py:DenseSquareMatrixFactor.make_inverse_update_ops"]}
{"id": "C110", "title": "A step never goes uphill", "statement": "A step of the optimizer, with a preconditioner that keeps the gradient a direction of positive slope, does not raise the loss to first order; and it lowers a differentiable loss if the learning rate is small enough.", "quantifier": "all modes, gradients, velocities, settings, numbers and sizes of variables, and differentiable losses", "why_tests_cant": "All states and gradients; the bound on the learning rate must hold for all smaller rates.", "anchors": ["kfac/python/ops/optimizer.py:KfacOptimizer.apply_gradients", "kfac/python/ops/optimizer.py:KfacOptimizer._compute_raw_update_steps", "kfac/python/ops/optimizer.py:KfacOptimizer._compute_qmodel_hyperparams"]}
{"id": "C111", "title": "Every worker of a distributed run has one duty", "statement": "In the distributed examples every task with an id below the number of tasks has exactly one duty (gradients, statistics or inverses); the first 60% compute gradients, the next 20% statistics, the last 20% inverses; the synchronizer waits for exactly as many gradients as there are tasks that compute them; a task id that is too large is refused with ValueError.", "quantifier": "all numbers of tasks and task ids", "why_tests_cant": "All cluster sizes, with floating-point rounding of the percentage.", "anchors": ["kfac/examples/convnet.py:_is_gradient_task", "kfac/examples/convnet.py:_is_cov_update_task", "kfac/examples/convnet.py:_is_inv_update_task", "kfac/examples/convnet.py:_num_gradient_tasks", "kfac/examples/convnet.py:_make_distributed_train_op", "kfac/examples/convnet.py:distributed_grads_and_ops_dedicated_workers"]}
{"id": "C112", "title": "The mini-batch size grows from 1000 to the whole training set", "statement": "The schedule of mini-batch sizes starts at the start size, never decreases, grows exponentially, never exceeds the number of examples, and reaches it at the target iteration and stays there.", "quantifier": "all numbers of examples, target iterations, start sizes and iterations", "why_tests_cant": "All sizes of data sets.", "anchors": ["kfac/examples/classifier_mnist.py:_get_batch_size_schedule", "kfac/examples/autoencoder_mnist.py:_get_batch_size_schedule", "kfac/examples/rnn_mnist.py"]}
{"id": "C113", "title": "Hand-written training loops update statistics, inverses and parameters in that order", "statement": "In every step of the examples that run the updates themselves, all statistics are updated before any inverse, and these before the parameters. In the loops with a period no inverse is older than the period when it is used; in the tf.estimator loop all inverses are computed in the first step and one in each later step, so none is older than there are inverses.", "quantifier": "all steps, periods and numbers of factors", "why_tests_cant": "All steps.", "anchors": ["kfac/examples/convnet.py:minimize_loss_single_machine_manual", "kfac/examples/convnet.py:distributed_grads_only_and_ops_chief_worker", "kfac/examples/convnet.py:train_mnist_estimator"]}
{"id": "C114", "title": "The flags of the examples select the documented optimizer", "statement": "Every documented combination of flags gives arguments that the constructor of the optimizer accepts; learning rate and momentum are passed on exactly when they are not adapted, and the damping is the initial damping exactly when it is adapted. Other values are reported as such.", "quantifier": "all flags", "why_tests_cant": "All combinations.", "anchors": ["kfac/examples/classifier_mnist.py:make_train_op", "kfac/examples/autoencoder_mnist.py:make_train_op"]}
{"id": "C115", "title": "Evaluation reports the trained and the averaged parameters", "statement": "One evaluation reports loss and error of the trained parameters and of their running averages, in every order of execution that the graph allows and whatever an earlier evaluation left behind.", "quantifier": "all parameter values, losses and orders that the control dependencies allow", "why_tests_cant": "All interleavings.", "anchors": ["kfac/examples/classifier_mnist.py:make_eval_ops", "kfac/examples/classifier_mnist.py:compute_loss", "kfac/examples/classifier_mnist.py:group_assign"]}
{"id": "C116", "title": "Training on several towers is training on the whole batch", "statement": "With any number of devices the training data is split equally among the towers, the aggregated loss is the mean over the examples of the whole batch, every example is used once per epoch, and the run ends without an error; without devices there is one tower.", "quantifier": "all losses, data sets, orders of the data, numbers of devices and epochs", "why_tests_cant": "All data and device counts.", "anchors": ["kfac/examples/convnet.py:train_mnist_multitower", "kfac/examples/mnist.py:load_mnist_as_iterator"]}
{"id": "C117", "title": "On a quadratic loss the predicted change is exact, and the damping goes to its floor", "statement": "In the quadratic-model mode, on a loss that is exactly the quadratic function with the gradients and curvature the optimizer uses, the reported model change of every step equals the change of the loss on that step's mini-batch, the loss on it never goes up (and goes down if the gradient is not zero), and damping adaptation multiplies the damping by its factor once per interval until it reaches the floor.", "quantifier": "all quadratic losses, preconditioners, configurations of the mode, both times of adaptation, and all runs of any length", "why_tests_cant": "All runs and all quadratic functions; the reduction ratio is only ever sampled by a test.", "anchors": ["kfac/python/ops/optimizer.py:KfacOptimizer._compute_qmodel_hyperparams", "kfac/python/ops/optimizer.py:KfacOptimizer._update_damping", "kfac/python/ops/kfac_utils/periodic_inv_cov_update_kfac_opt.py:PeriodicInvCovUpdateKfacOpt.minimize"]}
{"id": "C118", "title": "An embedding layer is preconditioned like a dense layer on one-hot vectors", "statement": "Registering a layer by the indices it looks up (dense_inputs=False, with a diagonal approximation of the inputs) is the same as registering the dense layer that reads the one-hot vectors of these indices: same outputs, gradients, statistics (the frequencies of the indices, after any history), dampings and preconditioned gradients, for one use of the layer or several. The diagonal approximation loses nothing. Indices are refused with the full input factor, and so are several indices per example in a layer with a single use. With a bias, or for output gradients, the diagonal approximation is not exact.", "quantifier": "all index lists, vocabulary and output sizes, histories of updates, numbers of replicas, towers and uses, powers, dampings and gradients", "why_tests_cant": "All batches, histories and gradients; a test compares a few.", "anchors": ["kfac/python/ops/fisher_factors.py:DiagonalKroneckerFactor", "kfac/python/ops/fisher_factors.py:DiagonalMultiKF", "kfac/python/ops/fisher_factors.py:FullyConnectedKroneckerFactor", "kfac/python/ops/fisher_blocks.py:FullyConnectedKFACBasicFB", "kfac/python/ops/fisher_blocks.py:FullyConnectedMultiIndepFB", "kfac/python/ops/layer_collection.py:LayerCollection.register_fully_connected"]}
{"id": "C119", "title": "A registered loss is the documented function of the network's outputs", "statement": "Each registration method stands for the loss its documentation names. register_squared_error_loss evaluates to coeff times the squared distance between predictions and targets plus a constant that depends on neither, register_normal_predictive_distribution to coeff / (2 var) times it plus such a constant, with curvature 2*coeff and coeff/var times the identity; register_softmax_cross_entropy_loss and register_sigmoid_cross_entropy_loss evaluate to coeff times the TensorFlow functions of those names. Values are summed over the cases of the mini-batch, not averaged. The methods documented to behave identically to a predictive distribution do, for every value and every curvature product. For a normal distribution the coefficient is equivalent to a change of variance; for categorical and Bernoulli distributions no temperature reproduces a coefficient other than 1. Targets are optional: without them evaluation raises and no curvature product changes. A variance that is not a Python float is refused.", "quantifier": "all output matrices of all sizes, targets (labels in range, real entries), variances, coefficients, temperatures, Jacobians and vectors", "why_tests_cant": "The claims are identities between real-valued functions over unbounded batches and widths, and the non-equivalence with a temperature quantifies over all temperatures and constants.", "anchors": ["kfac/python/ops/layer_collection.py: register_categorical_predictive_distribution, register_softmax_cross_entropy_loss, register_normal_predictive_distribution, register_squared_error_loss, register_multi_bernoulli_predictive_distribution, register_sigmoid_cross_entropy_loss, eval_losses", "kfac/python/ops/loss_functions.py: LossFunction.evaluate, DistributionNegativeLogProbLoss._evaluate, NormalMeanNegativeLogProbLoss, CategoricalLogitsNegativeLogProbLoss, MultiBernoulliNegativeLogProbLoss, OnehotCategoricalLogitsNegativeLogProbLoss"]}
{"id": "C120", "title": "The unit of the loss does not matter", "statement": "Multiplying the loss by a positive constant - its value, its gradients and the coefficient of every registered loss - together with the damping, the minimum damping, the regularization coefficient and the bound on the update's norm leaves every parameter update, momentum coefficient, reduction ratio and velocity unchanged, step by step for the whole run, for every momentum type, every estimation mode, every kind of block and every way of splitting the damping between the factors.", "quantifier": "all positive constants, networks of all sizes, configurations, states, losses and gradients along the run, histories of curvature estimates", "why_tests_cant": "It compares two runs of arbitrary length from arbitrary states under an arbitrary constant; tests run one configuration.", "anchors": ["kfac/python/ops/optimizer.py: KfacOptimizer._compute_and_apply_updates, _compute_qmodel_hyperparams, _maybe_update_damping, _clip_updates, _update_velocities, apply_gradients", "kfac/python/ops/kfac_utils/periodic_inv_cov_update_kfac_opt.py: PeriodicInvCovUpdateKfacOpt", "kfac/python/ops/estimator.py: FisherEstimator._get_grads_lists_gradients, _get_grads_lists_empirical, _get_grads_lists_curvature_prop, _get_grads_lists_exact", "kfac/python/ops/fisher_blocks.py: compute_pi_tracenorm, compute_pi_adjusted_damping, KroneckerProductFB, FullFB, DiagonalFB", "kfac/python/ops/fisher_factors.py: FisherFactor.make_covariance_update_op", "kfac/python/ops/curvature_matrix_vector_products.py: CurvatureMatrixVectorProductComputer"]}
{"id": "C121", "title": "Rotating or renumbering the units a layer reads or produces does not matter", "statement": "Write the same network with the units that a layer reads, or produces, in another order, or in rotated coordinates (an orthogonal change of the inputs and of the outputs, with the weights transformed accordingly and the constant input of the bias kept).  Then the gradients, after any history the covariances, the split of the damping, products with a Kronecker-factored or full block and with its inverse and other registered powers are those of the first network in the new coordinates; diagonal approximations have this property when the units are renumbered, and only then (a rotation changes what they do).  And whenever gradients and preconditioner are those of the other coordinates, every step of the optimizer - for every momentum type, with clipping, weight decay, quadratic-model learning rates and damping adaptation - and hence the whole training gives the same parameters in the new coordinates, with the same damping, losses and exceptions.", "quantifier": "all layers with and without bias, all orthogonal matrices and all permutations, all histories of updates, all exponents registered, all damping adjustments; all optimizer options, all isometric coordinates, all numbers of steps", "why_tests_cant": "A test fixes one network, one order of its units and one coordinate system; the claim is over all of them and all histories, and no test compares two trainings related by a rotation.", "anchors": ["kfac/python/ops/fisher_factors.py: compute_cov, append_homog, FullyConnectedKroneckerFactor, ConvInputKroneckerFactor, FullyConnectedDiagonalFactor, ConvDiagonalFactor, NaiveFullFactor", "kfac/python/ops/fisher_blocks.py: KroneckerProductFB, FullFB, DiagonalFB, compute_pi_adjusted_damping, compute_pi_tracenorm", "kfac/python/ops/optimizer.py: KfacOptimizer.apply_gradients, _compute_raw_update_steps, _update_clip_coeff, _compute_qmodel, _update_damping", "kfac/python/ops/kfac_utils/periodic_inv_cov_update_kfac_opt.py: PeriodicInvCovUpdateKfacOpt.minimize"]}
{"id": "C122", "title": "What a Kronecker-factored block approximates, and when it is exact", "statement": "For every mini-batch, the Kronecker product of the two statistics of a fully connected layer (with or without bias) differs from the layer's block of the curvature matrix - the mean of the outer products of the per-example parameter gradients - exactly by the covariance over the mini-batch of the second moments of the inputs with those of the output gradients.  So it is exact for a mini-batch of one example, when all inputs are the same, when all output gradients are the same up to sign, and when inputs and output gradients are independent (every input occurs with every output gradient); in these cases products with the damped block are products with the exact block plus what the factored damping adds, and products with the inverse solve those equations.", "quantifier": "all sizes of layers and mini-batches, all inputs and output gradients, with and without bias, all dampings", "why_tests_cant": "Tests compare the block with the Kronecker product it is defined by; the relation to the curvature matrix is an identity over all mini-batches.", "anchors": ["kfac/python/ops/fisher_factors.py: compute_cov, append_homog, FullyConnectedKroneckerFactor", "kfac/python/ops/fisher_blocks.py: FullyConnectedKFACBasicFB, KroneckerProductFB"]}
{"id": "C123", "title": "Without damping, affine changes of what a layer reads and linear changes of what it produces do not matter", "statement": "Write the same network with the inputs of a layer in other coordinates - any invertible linear map and, if the layer has a bias, any shift - and its outputs under any invertible linear map, with the weights transformed so that the layer computes the same.  If there is no damping and the covariances can be inverted, then after any history of statistics the natural gradient of the layer's Kronecker-factored block is the same change of the layer in all coordinates, and so is the layer after a step of any length.  And whenever the preconditioner turns gradients of one network into the corresponding changes, every step of the optimizer without damping adaptation - for every momentum type, with clipping, weight decay and quadratic-model learning rates - and hence the whole training gives the same parameters in the other coordinates.  With damping this fails.", "quantifier": "all fully connected layers with and without bias, all invertible changes of coordinates and shifts, all histories of updates, all registrations, sizes and inversion methods; all momentum types, all numbers of steps", "why_tests_cant": "A test fixes one parametrisation; invariance compares every network with all its reparametrisations along trainings of any length.", "anchors": ["kfac/python/ops/fisher_factors.py: compute_cov, append_homog, FullyConnectedKroneckerFactor, DenseSquareMatrixFactor.make_inverse_update_ops, get_matpower", "kfac/python/ops/fisher_blocks.py: FullyConnectedKFACBasicFB, KroneckerProductFB, compute_pi_adjusted_damping", "kfac/python/ops/optimizer.py: KfacOptimizer.apply_gradients, _compute_raw_update_steps, _update_clip_coeff, _compute_qmodel", "kfac/python/ops/kfac_utils/periodic_inv_cov_update_kfac_opt.py: PeriodicInvCovUpdateKfacOpt.minimize"]}
{"id": "C124", "title": "Jacobian and Hessian products are the derivatives they stand for", "statement": "On every computation graph, the product of the Jacobian with vectors is, for each input of the losses, its derivative when the given tensors move along the vectors while whatever else depends on them in the graph is held fixed at the tensors; the transposed product is, for each tensor, the derivative of the weighted inputs when that tensor alone moves; the two belong to one matrix and its transpose.  The NaN placeholders of the forward products never reach a result, and an input that depends on one of the tensors gets a tensor.  The Hessian product is the derivative, along the vectors, of the gradient of the total loss, and its matrix is symmetric.  Intended for every choice of tensors; false for three kinds of choice: an input that depends on none of the tensors gets None instead of zeros, a loss that does not depend on one of the tensors makes the Hessian product raise, and tensors computed from one another are held fixed by the Jacobian products but not by the Hessian product.", "quantifier": "all computation graphs of any size and sharing, all differentiable (for the Hessian: smooth) operations, all choices of losses, tensors and vectors, all values", "why_tests_cant": "Tests compare the products with explicit matrices on two or three small graphs; the claim is over all graphs, and depends on NaN not spreading through a second reverse pass over nodes that the first one added.", "anchors": ["kfac/python/ops/curvature_matrix_vector_products.py: CurvatureMatrixVectorProductComputer._multiply_jacobian, _multiply_jacobian_transpose, multiply_hessian", "kfac/python/ops/utils.py: fwd_gradients"]}
{"id": "C125", "title": "Hessian products are Gauss-Newton products plus the curvature of the network", "statement": "If the losses see the given tensors through their inputs only and no tensor is computed from another one, then the Hessian product and the Gauss-Newton product (Jacobian product, curvature of the losses as functions of their inputs, transposed Jacobian product) differ, at every tensor, exactly by the second derivatives of the inputs weighted by the gradient of the losses.  So for inputs that are affine in the tensors - linear models, or the last layer of any network - the two products are the same.", "quantifier": "all computation graphs of smooth operations, all losses with distinct inputs, all tensors, vectors and values", "why_tests_cant": "Tests check the products on a linear and a two-layer example with numbers; the identity is over all graphs and all vectors.", "anchors": ["kfac/python/ops/curvature_matrix_vector_products.py: CurvatureMatrixVectorProductComputer.multiply_hessian, multiply_ggn, _multiply_jacobian, _multiply_jacobian_transpose", "kfac/python/ops/utils.py: fwd_gradients"]}
{"id": "C126", "title": "A loaded Keras model is compiled with what was saved", "statement": "load_model compiles the loaded model with the saved configuration of the optimizer, the saved loss, metrics and weighted metrics, the saved loss weights and the saved sample weight mode. A name that is listed in custom_objects stands for the given class or function wherever it occurs in the loss or the metrics, everything else is taken as saved, and the name Kfac always means this optimizer. The dictionary of the caller is left alone.", "quantifier": "all saved training configurations (nested lists and dictionaries of any depth) and all dictionaries of custom objects", "why_tests_cant": "All nested structures and all sets of names.", "anchors": ["kfac/python/keras/saving_utils.py:_compile_args_from_training_config", "kfac/python/keras/saving_utils.py:load_model"]}
{"id": "C127", "title": "Fisher and Gauss-Newton products are the curvature of the losses seen through the Jacobian", "statement": "multiply_fisher and multiply_ggn return, for every tensor, the changes of the losses' inputs by that tensor weighted with the curvature of the losses times the changes of the inputs along the vectors: the transposed Jacobian times the curvature times the Jacobian times the vectors, evaluated in one graph whose placeholders have no effect.  The matrix is symmetric, positive semi-definite whenever the losses are convex in their inputs, whatever the network computes, and the Hessian product is this product plus the second derivatives of the inputs weighted with the gradient of the losses.  For squared error losses v'Gv is the sum of twice the coefficients times the squared changes of the predictions along v.  Intended for every choice of tensors; if an input of a loss depends on none of them there is an exception instead.", "quantifier": "all computation graphs of smooth operations, all products of losses with their curvature, all tensors, vectors and values", "why_tests_cant": "Tests compare numbers on a few small networks; the claim is over all graphs, and the second pass runs on a graph into which the first has put NaN placeholders.", "anchors": ["kfac/python/ops/curvature_matrix_vector_products.py: CurvatureMatrixVectorProductComputer.multiply_fisher, multiply_ggn, _multiply_jacobian, _multiply_jacobian_transpose", "kfac/python/ops/utils.py: fwd_gradients"]}
{"id": "C128", "title": "Scale and shift registrations are accepted for broadcasting shapes only", "statement": "register_scale_and_shift refuses with a ValueError, before anything is registered, a shift that does not broadcast to the outputs and a scale that does not broadcast to the inputs: a rank that is too large, a batch dimension other than 1, or another dimension that is neither that of the data nor 1. Parameters that broadcast to non-empty data are never refused for their shapes.", "quantifier": "all shapes of parameters, inputs and outputs, of any rank", "why_tests_cant": "All ranks and dimensions; tests register one or two shapes.", "anchors": ["kfac/python/ops/layer_collection.py: LayerCollection.register_scale_and_shift"]}
{"id": "C129", "title": "The replicated placement is accepted exactly where there are several replicas", "statement": "Creating an estimator with placement_strategy replica_round_robin is refused with a ValueError exactly if the surrounding context (tf.distribute strategy, TF-Replicator or TPU context) does not have several replicas.", "quantifier": "all combinations of strategy, replica or cross-replica context, TF-Replicator and number of shards", "why_tests_cant": "All contexts; tests run without replicas.", "anchors": ["kfac/python/ops/utils.py: is_replicated, get_num_replicas, is_tpu_replicated", "kfac/python/ops/placement.py: ReplicaRoundRobinPlacementMixin.__init__"]}

# A machine-checked model of tensorflow/kfac

This document is the plan and the trusted base of the Coq development in
`rocq/theories`.  `properties.jsonl` holds the English properties (C01, C02, ...),
`MANIFEST.json` maps each to the theorems that settle it.

## 1. Method

The repository builds TensorFlow (v1) graphs from Python.  The model is a shallow
embedding of the Python code, function by function, as total computable Gallina
functions.  Four kinds of things appear in the code and are treated as follows.

* **Graph-construction control logic** (registries, schedules, placement, pattern
  matching, argument validation).  Modelled directly: Python objects that are only
  compared by identity (variables, tensors, ops) become elements of a type with
  decidable equality (usually `nat` identifiers), dicts become association lists,
  exceptions become values of an inductive type, mutation becomes state passing.
* **Stateful ops executed by the training loop** (counters, moving averages, damping,
  velocities).  Modelled as `step : state -> input -> state * output`; one call is
  one execution of the op, in the order that the control dependencies force.
* **Real arithmetic.**  Floats are modelled by exact reals: Coq's `R` for scalars and
  vectors, and MathComp matrices over an arbitrary real (closed) field for the matrix
  algebra.  Rounding, overflow, NaN and dtype casts are *not* modelled; divisions by
  zero are modelled as explicit undefined results where the code can reach them.
* **TensorFlow kernels** (matrix inverse, Cholesky, SVD, eigendecomposition, random
  sampling, autodiff).  Not modelled; they appear as universally quantified
  arguments of the theorems, constrained by explicit hypotheses stating their
  documented contract (e.g. `Ainv *m A = 1%:M`).

Layout: one directory per area, each with

* `Model.v`   - definitions only, each citing the lines it models;
* `Spec.v`    - small, model-independent vocabulary used by the statements;
* `Proofs.v`  - lemmas;
* `Props.v`   - only the property theorems, each closed by `exact`, each followed by
  `Print Assumptions`, with an `Example` showing its hypotheses are met.

Where the unchanged code violates a property, the faithful model does too: then a
theorem `..._refuted` exhibits the witness and `..._partial` states what does hold.

## 2. Plan per property

| id | what is modelled | how it is proved |
|----|------------------|------------------|
| C01 | `batch_execute` condition list over Z | modular arithmetic, counting by induction on windows |
| C02 | `minimize`/`kfac_update_ops` as a step function over counter, cov, inverse state | induction on the number of executions |
| C03 | same state machine, burn-in counter | induction; closed form of the undecayed average |
| C04 | `OpQueue` stream as concatenated permutations given by an oracle | `Permutation`, counting |
| C05 | shared iterator with arbitrary interleaving of worker draws | induction on the interleaving |
| C06 | `RoundRobinPlacementMixin` thunk lists with an explicit device annotation | induction over `zip`/`cycle` |
| C07 | `map_gather`, `all_sum` over all replicas | sums with one non-zero term |
| C08 | inverse update thunk of the replica mixin | composition of C07; refutation for the SUA factor |
| C09 | tensors = shape + row-major data; `tensors_to_column`, `column_to_tensors` | induction over lists |
| C10 | `layer_params_to_mat2d`, `mat2d_to_layer_params` | lists, arithmetic |
| C11 | `SequenceDict` with nested keys | refinement to a function map |
| C12 | `PartitionedTensor` constructor and accessors | lists |
| C13 | `MovingAverageVariable` over R | induction, closed form |
| C14 | `AccumulatorVariable` over R | induction over operations |
| C15 | `num_conv_locations` over Z | counting of integer positions |
| C16 | DFS with explicit stack over arbitrary finite graph | termination measure, invariant |
| C17 | `_add_tensor_consumers_to_set`, `variable_uses` | induction on acyclicity rank |
| C18 | the two filter reshapes | index arithmetic |
| C19-C21, C24, C28 | `LayerCollection` as a state machine over registration calls, with exceptions | invariants by induction over call histories; refutations |
| C22, C23 | `check_registration` with the `defaultdict` lookups | decision procedure equivalence; refutations |
| C25 | loss dictionary, coefficients, `eval_losses` | invariants, sums |
| C26 | `make_or_get_factor` | invariant |
| C27 | default-collection global and `as_default` contexts | induction over programs; refutation |
| C29 | `KfacOptimizer.__init__` validation | case analysis |
| C30 | `_update_velocities`, `_compute_raw_update_steps`, `apply_gradients` | induction, closed form |
| C31 | `_clip_updates` | real arithmetic |
| C32 | `_update_damping` | real arithmetic, induction |
| C33 | the damping-related part of one training step | induction on steps |
| C34, C35 | `_compute_qmodel_hyperparams` | completing squares; refutation |
| C36 | `_compute_transformation` with block partition | lists, permutations |
| C37 | curvature products for arbitrary Jacobians | linear algebra |
| C38-C40 | loss functions over R vectors | sums over lists |
| C41, C43 | `KroneckerProductFB`, diagonal and full blocks over MathComp matrices | matrix algebra |
| C42 | `compute_pi_*` over R | real arithmetic; PSD |
| C44 | `compute_cov`, EMA over matrices | PSD closure, induction |
| C45 | `_compute_total_new_cov`, `check_partial_batch_sizes` | sums; refutation |
| C46 | `FullyConnectedDiagonalFactor` | index arithmetic |
| C47 | SUA operator | Sherman-Morrison |
| C48, C49 | CPS matcher over arbitrary graph oracle | equivalence to a declarative relation; refutation |
| C50, C51 | record filters and registration driver | list lemmas, invariants |
| C52 | `CachedDataReader` state machine | induction |
| C53 | callbacks as state machine | induction |
| C54 | `_configure_kfac_kwargs_for_adaptive` over keyword dicts | case analysis; refutations |
| C55, C70, C75, C76 | `keras/utils.py` over arbitrary model trees and graphs | induction on the stack traversal; refutations |
| C56 | gradient and GGN product of the natural-parameter losses | derivatives in `Coq.Reals` |
| C57 | the three gradient estimation modes of the estimator | finite expectations, and integrals against the Gaussian density (Coquelicot); refutations |
| C58 | registration, instantiation, update and serving of matrix powers and Choleskys of a dense factor | invariants over the three dicts |
| C59, C61 | SUA operator against the filter layout; patch masks | index arithmetic; refutations |
| C60 | sparse linear operators | case analysis, matrix algebra |
| C62 | the layer patterns of `graph_patterns.py` | equivalence to a declarative description of layers |
| C63-C67 | `graph_search.py`: scanning, planning and registering | soundness/completeness over all graphs; refutations |
| C68 | order of the ops of one reader run | all orders allowed by the dependencies; refutation |
| C69 | options of `ExponentialDecay` | case analysis; refutation |
| C71, C72, C74 | `Kfac.__init__`, `get_config`, `from_config`, hyperparameter table, train batch; for C74 also the life of the optimizer (C107) | dict lemmas, round-trip, invariant over histories of calls; refutations |
| C73 | `get_loss_fn` | sums over lists; refutation |
| C77 | `_process_data` of the multi-use blocks over lists of towers of uses, the slices of the factor | list permutations: pairs at distance one batch are the pairs of successive uses |
| C78, C79 | `make_inverse_update_ops` and `multiply_matpower` of the series factor and block, for any eigen- and singular value decomposition | normal form of the pair of covariances, geometric sums; contraction of the whitened covariance; refutation for negative covariances |
| C80 | moving averages of the two statistics | invariant over histories: sum of squares |
| C81 | the loops over registered dampings, in order | loop lemma; refutation with explicit matrices |
| C82 | `FullyConnectedMultiIndepFB`, the argument list of `ConvKFCBasicMultiIndepFB`, variable shapes | C41 and C42; refutations |
| C83 | `Ops/Tensor.v`: tensors as shape and entries, the documented meaning of `tf.nn.convolution`, `tf.extract_image_patches`, reshape, gather; the three extraction functions and the factor | index arithmetic in row-major order; a convolution with the identity filter reads each window |
| C84 | `ConvDiagonalFactor` | C83 and linearity of the convolution in its parameters |
| C85 | the sub-sampling functions, for any order drawn | sums over the symmetric group: each row occurs in each place equally often |
| C86 | the strides that reach `num_conv_locations` from each registration | integer division; refutations by evaluation |
| C87 | `register_scale_and_shift`'s broadcasting dimensions, the factor's size and statistic | reduction over the repeated axes is the adjoint of broadcasting; refutation for broadcast inputs |
| C88 | the depthwise blocks as matrices (C18 has the reshapes) | block structure of channel-uncorrelated matrices; refutation with explicit matrices |
| C89 | `scope_string_from_params`, the `_var_scope` and `_cov_shape` of every factor class, `get_variable` with re-use | unique decoding of names built from separable words; refutations by evaluation |
| C90 | `instantiate_inv_variables` of every class over a store of variables | the creation as a list of requests; freshness by induction |
| C91 | the data each block passes to its factors under both strategies | case analysis; general refutation for scale-and-shift layers |
| C92 | C90's requests | permutation invariance of requests; the names only read names, shapes and depths |
| C93 | `set_global_constants` and the initializers picked on import | induction over the calls |
| C94 | `_cov_shape` of the factors a layer asks for, on whole and partitioned data | case analysis over the kinds of layers |
| C95 | `all_sum`, `all_average` and the queries of the context, in every kind of context | case analysis; entry by entry induction over the replicas; REFUTED across replicas |
| C96 | the steps of `KfacOptimizer` and the periodic class carried out by all replicas, with the variables of each | lockstep simulation by one device; averages of averages, products for concatenated batches; induction over steps |
| C97 | the same with arbitrary environments | every replica's step is the same function of averaged values; induction over steps |
| C98 | the same with `smart_cond`'s and `smart_assign`'s special cases | C96's simulation with the first replica's statistics; REFUTED by two replicas with different data |
| C99 | `_instantiate_factors` and the gradient lists of the six modes over a graph given by dependences and gradients | the flattened gradients are a map over the tensors; REFUTED in exact mode |
| C100 | the parameter statistics of `_instantiate_factors`, `all_average` over replicas | sums over dependent losses; C95; REFUTED for tuples |
| C101 | `minimize`, `compute_gradients`, `check_var_list` and the preconditioning of C36 | permutation lemma of C36; REFUTED when some trainable variable is not the optimizer's |
| C102 | the constructor of the asynchronous optimizer and the placement of C06 | the devices are dropped: REFUTED |
| C103 | running the variable and update thunks over the set of existing variables | invariant over the executed prefix; REFUTED by one layer's two factors |
| C104 | registration and use of powers and Cholesky factors of all kinds of factors and blocks | registrations only grow and hold only what was asked; REFUTED for series and diagonal blocks |
| C105 | `get_cov_vars`/`get_inv_vars` of all factors over the variables of C90, and the assignments of the replica inverse update | the names behind the lists are the names requested at creation; REFUTED for spatially uncorrelated factors, for tuples and for the statistics |
| C106 | `load_model` over a file that may or may not hold a configuration and weights, on top of the life cycle of C107 and the configuration of C53-C55 | case analysis over all outcomes; REFUTED: the file stays open if the architecture cannot be read, and an optimizer that adapts its damping cannot be loaded with its state |
| C107 | the Kfac wrapper as a state machine over the calls of its API, with the names of all variables of the graph | invariant over all histories; REFUTED for names with a dot (scopes are regular expressions) and for the loss function after `register_layers` |
| C108 | the weights by position over the creation order of C90 | relabelling of C92; REFUTED by two dampings of one factor, kept in a set |
| C109 | the factors of C43/C44 under any history of covariance and inverse updates, and the three kinds of multiplication | what a factor serves is its initial matrix or a power of a damped covariance, so it is positive (semi)definite; so are Kronecker products of such; quadratic forms |
| C110 | `apply_gradients` of C29-C35 in all modes | the displacement is a positive multiple of the preconditioned gradient, or a minimiser of the quadratic model; epsilon-delta argument for the loss; REFUTED with momentum, with `qmodel_fixedmu` and with weight decay |
| C111 | the predicates on task ids with the float literal 0.6 and rounded products (Flocq), the choice of op, the synchronizer's arguments, the attributes of the optimizer | error bounds on the two roundings give the exact integer thresholds; REFUTED: a single inverter, no statistics below five tasks, no error for one or two tasks, a method that does not exist |
| C112 | the schedule in exact real arithmetic and the look-up | closed form, monotonicity of real powers; REFUTED for a data set of exactly the start size |
| C113 | one step as a list of updates, with `batch_execute` of C04 for the estimator example | arithmetic on the step; rotation of `batch_execute` |
| C114 | the branches that turn flags into the arguments checked in C29 | case analysis; REFUTED: other values are an UnboundLocalError |
| C115 | the evaluation as a list of graph operations, for every order that control dependencies allow | symbolic execution of the three orders; REFUTED: regularization terms are stale or of the wrong parameters, and no regularization is an error |
| C116 | batching, splitting and averaging over lists of examples | induction over batches; divisibility; REFUTED for data that does not divide, and without devices |
| C117 | one step of the quadratic-model mode, and runs of the periodic optimizer, on a quadratic loss | stationarity of the solution along its own line; induction over the run with the bounds of C32; REFUTED where the previous update is parallel to the preconditioned gradient |
| C118 | the choice of the input factor by block and kind of data (`Blocks/EmbedModel.v`), on top of the statistics and products of C41-C60 | outer products of one-hot rows are diagonal; linearity of the moving average; uniqueness of matrix powers |
| C119 | the six registration methods, loss evaluation and the curvature product of a network with the registered loss (`Curv/RegModel.v`) | algebra of logarithms row by row, induction over the batch; for the temperatures, a lower bound of the softplus function that no constant beats |
| C120 | two runs side by side on the models of C29-C35, C36-C40 and C41-C60 with a scaled environment (`Train/UnitsSpec.v`, `Curv/UnitsSpec.v`) | homogeneity of every operation of a step, induction over the run; uniqueness of matrix powers for the blocks; REFUTED for the mode "empirical" (statistics grow with the square of the constant), for blocks with the pi adjustment off, and for a vanishing covariance |
| C121 | two runs side by side, related by an isometric change of coordinates (`Train/RotateSpec.v`), and two layers related by orthogonal matrices (`Blocks/RotateSpec.v`), on the models of C29-C35 and C41-C60 | simulation of every operation of a step, induction over the run; congruence of covariances and matrix powers under orthogonal matrices, uniqueness of matrix powers; a 3-4-5 rotation shows that diagonal blocks are only invariant under renumbering |
| C122 | the statistics and blocks of C41-C46; the block of the curvature matrix is specified by per-example gradients (`Blocks/ExactSpec.v`) | bilinearity of the Kronecker product, the identity between a covariance and the mean product of differences over all pairs, entry by entry |
| C123 | two layers related by an affine map of inputs and a linear map of outputs (`Blocks/AffineSpec.v`), two runs related by dual changes of coordinates of parameters and gradients (`Train/AffineSpec.v`), on the models of C29-C35 and C41-C60 | congruence of the covariances by induction over histories, positive definiteness of invertible covariances, served inverses without damping, simulation of every operation of a step; an example shows that damping breaks it |
| C124 | computation graphs with arbitrary operations, the nodes that reverse-mode differentiation adds to them (tf.gradients with grad_ys and stop_gradients), strict evaluation with NaN, and on top of it fwd_gradients and the products (`Diff/Model.v`); derivatives are those of Coquelicot along lines (`Diff/Spec.v`) | one invariant of the reverse pass (accumulated gradients paired with any tangent), used for values and, a second time, for tangents along the placeholders; induction over the graph for tangents = derivatives and for symmetric second tangents; a syntactic invariant keeps NaN out of the results; witnesses for the three choices of tensors where the claim fails |
| C125 | the graphs and products of C124; the curvature of the losses is given by its values, specified as second derivatives with the inputs held fixed (`Diff/GnSpec.v`) | induction over the graph: first and second tangents of nodes that see the tensors through the inputs only; uniqueness of derivatives |
| C126 | `_compile_args_from_training_config` and the handling of `custom_objects` in `load_model`, over nested JSON values | commutation of `map_structure` with access by path; REFUTED for custom loss classes, metrics described by custom classes, and the caller's dictionary |
| C127 | multiply_fisher and multiply_ggn composed in one graph (`Diff/Ggn.v`); the products of the losses are any function that adds nodes with the values of the curvature times the vectors (`Diff/GgnSpec.v`; loss by loss this is C56) | an invariant of the reverse pass on graphs with placeholders (contributions only to nodes not computed from a placeholder), the tangents of C124, symmetric second tangents, exchange of sums; REFUTED for an input that depends on none of the tensors |
| C128 | the shape checks of `register_scale_and_shift` inside the registration call (`Registry/Model.v`), against a specification over lists of dimensions (`Registry/ScaleSpec.v`) | the loop over dimensions as a statement about every index, then lists lined up at their ends; REFUTED for scales larger than the inputs |
| C129 | the queries of the context: `is_replicated`, `is_tpu_replicated`, `get_num_replicas` (`Replica/Model.v`) | case analysis on the context; REFUTED for cross-replica contexts and TPU contexts with one shard |

Nothing in the list is inexpressible.  Parts that live in the runtime (floating point,
actual thread scheduling inside TensorFlow, device placement by the TF runtime, GPU/TPU
kernels) are outside the model and are named in section 3.

## 3. Trusted base

1. Coq 8.16.1's kernel (and `coqchk`, which re-checks the compiled files).
2. The standard library's axioms listed below, and no others.  No axiom is declared in
   this development, no kernel check is switched off, nothing is admitted.  MathComp adds
   no axioms (the opaque module-sealed constants that `coqchk` lists for MathComp, such
   as `BigOp.bigop`, are definitions behind module signatures).
3. The reading of `/repo` recorded in the comments of the model files: each definition
   cites the lines it models and says where it simplifies.  The simplifications that hold
   throughout are those of section 1: exact reals for floats, identities for graph
   objects, oracles for TensorFlow kernels.
4. Contracts of external functions, which appear as hypotheses of the theorems that need
   them and are shown satisfiable beside them: `tf.self_adjoint_eig` (orthonormal
   eigenvectors), `tf.pow` (laws of powers on positive numbers), `tf.random.shuffle`
   (a permutation), Keras' `losses.serialize`/`deserialize`.  `tf.cholesky`,
   `tf.matrix_inverse` and `tf.linalg.triangular_solve` are modelled by their defining
   equations (a recursive Cholesky; `invmx`).

What the axioms are: `functional_extensionality_dep` (equality of functions), `classic`
(excluded middle), `sig_forall_dec` and `sig_not_dec` (used by the standard library's
construction of the real numbers).

| file | axioms used (Print Assumptions) | theorems |
|------|--------------------------------|----------|
| Blocks/AffineProps | none (closed under the global context) | C123_same_layer, C123_covariances, C123_natural_gradient |
| Blocks/DescentProps | none (closed under the global context) | C109_kronecker_factored, C109_full_matrix, C109_diagonal_inputs, C109_diagonal |
| Blocks/EmbedProps | none (closed under the global context) | C118_layer, C118_statistic, C118_history, C118_same_update, C118_refused, C118_batch_size, C118_bias_not_exact, C118_output_not_exact |
| Blocks/ExactProps | none (closed under the global context) | C122_error, C122_exact, C122_independent, C122_product |
| Blocks/HistoryProps | none (closed under the global context) | C13_factor_covariance, C13_factor_plain_mean, C13_sua_covariance |
| Blocks/Props | none (closed under the global context) | C41_multiply_is_kronecker_power, C41_inverse_undoes_multiply, C41_multiply_is_linear, C41_any_operators, C41_full_fisher_block, C41_columns, C42_dampings_multiply_to_damping, C42_damping_ratio, C42_damped_block_dominates, C43_kronecker_cholesky, C43_kronecker_cholesky_inverse, C43_full_cholesky, C43_full_powers, C43_diagonal, C44_covariances_psd, C44_sua_covariance_psd, C44_diagonals_nonnegative, C44_damped_invertible, C45_equal_towers_kronecker, C45_equal_towers_diagonal, C45_equal_towers_convolution, C45_unequal_towers_rejected_refuted, C45_unequal_towers_rejected_partial, C45_equal_towers_accepted, C46_fully_connected_diagonal_aligned, C46_convolution_diagonal_aligned, C47_sua_inverse, C47_sua_inverse_bias, C58_setup_succeeds, C58_served_power_is_last_update, C58_served_cholesky_is_last_update, C58_served_cholesky_inverse_is_last_update, C58_current_matrix_and_unregistered, C59_sua_filter_order_refuted, C59_sua_filter_order_partial, C59_sua_filter_order_degenerate_partial, C60_sparse_product_agrees, C60_other_combinations_raise, C61_kronecker_patch_mask, C61_diagonal_patch_mask_refuted, C61_diagonal_patch_mask_partial |
| Blocks/RotateProps | none (closed under the global context) | C121_same_layer, C121_covariances, C121_diagonal_covariances, C121_damping_split, C121_kronecker_block, C121_full_block, C121_diagonal_block, C121_diagonal_blocks_can_tell |
| Blocks/UnitsProps | none (closed under the global context) | C120_covariances, C120_damping_split_partial, C120_kronecker_block_partial, C120_pi_off_refuted, C120_vanishing_covariance_refuted, C120_full_block, C120_diagonal_block |
| Curv/EmpiricalProps | ClassicalDedekindReals.sig_forall_dec, FunctionalExtensionality.functional_extensionality_dep | C57_empirical_mode |
| Curv/Props | none (closed under the global context) | C36_blockwise_in_callers_order, C36_result_depends_on_own_block_only, C36_permutation, C36_missing_or_unknown_variable_raises, C36_complete_input_succeeds |
| Curv/Props | ClassicalDedekindReals.sig_forall_dec, ClassicalDedekindReals.sig_not_dec, FunctionalExtensionality.functional_extensionality_dep | C37_factorisation_partial, C37_factor_adjoint_partial, C37_linear_partial, C37_symmetric_psd_partial, C37_coefficients_scale_contributions_partial, C37_is_pullback_of_loss_curvature_partial, C37_factor_transpose_all_losses_partial, C37_two_input_loss_refuted, C38_factors_square_to_fisher, C38_factor_adjoint, C38_fisher_symmetric_psd, C38_fisher_is_documented_matrix, C39_one_hot_is_factor_column, C39_index_out_of_range_raises, C39_index_of_other_length_raises, C39_exact_columns_sum_to_fisher, C57_curvature_prop_mode_unbiased_partial, C57_exact_mode_partial, C57_modes_refuted |
| Curv/Props | ClassicalDedekindReals.sig_forall_dec, ClassicalDedekindReals.sig_not_dec, Classical_Prop.classic, FunctionalExtensionality.functional_extensionality_dep | C40_categorical, C40_multi_bernoulli, C40_normal_mean, C40_normal_mean_variance, C40_targets_follow_the_loss, C40_normal_targets_follow_the_loss, C56_categorical_ggn_is_hessian, C56_multi_bernoulli_ggn_is_hessian, C56_normal_mean_ggn_is_hessian, C57_gradients_mode_unbiased_partial, C57_gradients_mode_all_losses_partial |
| Curv/RegProps | ClassicalDedekindReals.sig_forall_dec, ClassicalDedekindReals.sig_not_dec, Classical_Prop.classic, FunctionalExtensionality.functional_extensionality_dep | C119_squared_error, C119_normal, C119_softmax, C119_sigmoid, C119_aliases, C119_sums_over_cases, C119_normal_temperature, C119_categorical_not_temperature, C119_bernoulli_not_temperature, C119_targets_optional, C119_onehot_class |
| Curv/RegProps | ClassicalDedekindReals.sig_forall_dec, ClassicalDedekindReals.sig_not_dec, FunctionalExtensionality.functional_extensionality_dep | C119_normal_curvature, C119_onehot_curvature |
| Curv/RegProps | none (closed under the global context) | C119_variance_must_be_float |
| Curv/UnitsProps | ClassicalDedekindReals.sig_forall_dec, ClassicalDedekindReals.sig_not_dec, FunctionalExtensionality.functional_extensionality_dep | C120_estimates_partial, C120_products |
| Curv/UnitsProps | ClassicalDedekindReals.sig_forall_dec, FunctionalExtensionality.functional_extensionality_dep | C120_empirical_refuted |
| Data/Props | none (closed under the global context) | C52_read_run, C52_look_run, C52_history, C52_too_large, C52_short_data, C52_alt_read_run, C52_alt_batch_is_sample, C52_alt_look_run, C52_alt_history, C52_alt_too_large, C68_failed_read_keeps_batch_refuted, C68_failed_read_keeps_rows_partial, C68_alt_failed_read_keeps_positions_partial |
| Diff/GgnProps | ClassicalDedekindReals.sig_forall_dec, ClassicalDedekindReals.sig_not_dec, FunctionalExtensionality.functional_extensionality_dep | C127_ggn_product_partial, C127_symmetric_partial, C127_positive_partial, C127_hessian_partial, C127_unused_input_refuted |
| Diff/GnProps | ClassicalDedekindReals.sig_forall_dec, ClassicalDedekindReals.sig_not_dec, FunctionalExtensionality.functional_extensionality_dep | C125_gauss_newton, C125_affine |
| Diff/Props | ClassicalDedekindReals.sig_forall_dec, ClassicalDedekindReals.sig_not_dec, FunctionalExtensionality.functional_extensionality_dep | C124_jacobian_partial, C124_jacobian_transpose_partial, C124_hessian_partial, C124_symmetric, C124_jacobian_none_refuted, C124_hessian_raises_refuted, C124_wrt_dependencies_refuted |
| Diff/Props | ClassicalDedekindReals.sig_forall_dec, FunctionalExtensionality.functional_extensionality_dep | C124_adjoint |
| Diff/SquaredProps | ClassicalDedekindReals.sig_forall_dec, ClassicalDedekindReals.sig_not_dec, FunctionalExtensionality.functional_extensionality_dep | C127_squared_error_partial |
| Est/Props | ClassicalDedekindReals.sig_forall_dec, FunctionalExtensionality.functional_extensionality_dep | C99_unconnected_tensors_named_partial, C99_exact_mode_needs_every_loss_partial, C99_unconnected_tensors_named_refuted, C100_mean_gradients_partial, C100_means_in_other_modes, C100_means_in_exact_mode, C100_replicas_partial, C100_tuples_refuted, C100_on_request |
| Est/Props | none (closed under the global context) | C100_which_variables, C101_two_steps_are_minimize_partial, C101_variables_in_any_order, C101_other_trainable_variables_raise, C102_devices_ignored_partial, C102_round_robin_placement_refuted, C103_orders_that_work, C103_returned_order_works, C103_documented_order_refuted, C103_updates_without_variables_partial, C104_requested_functions_partial, C104_other_blocks_partial, C104_registration_partial, C104_requested_functions_refuted |
| Est/Props | ClassicalDedekindReals.sig_forall_dec | C101_two_steps_are_minimize_refuted |
| Est/VarsProps | none (closed under the global context) | C105_inverse_variables_listed_partial, C105_uncorrelated_variables_refuted, C105_replica_update_partial, C105_replica_series_refuted, C105_statistics_refuted, C105_statistics_partial |
| Examples/Props | ClassicalDedekindReals.sig_forall_dec, ClassicalDedekindReals.sig_not_dec, Classical_Prop.classic, FunctionalExtensionality.functional_extensionality_dep | C111_one_role, C111_gradient_count, C111_shares, C111_statistics_refuted, C111_statistics_partial, C111_out_of_range_refuted, C111_out_of_range_partial, C111_dedicated_refuted, C111_all_gradients_refuted, C112_schedule_partial, C112_schedule_refuted |
| Examples/Props | none (closed under the global context) | C111_twenty_percent_refuted, C113_manual, C113_period_zero, C113_chief, C113_estimator, C114_documented_flags, C116_each_example |
| Examples/Props | ClassicalDedekindReals.sig_forall_dec | C114_constructs, C114_undocumented_refuted, C115_eval_partial |
| Examples/Props | ClassicalDedekindReals.sig_forall_dec, FunctionalExtensionality.functional_extensionality_dep | C115_eval_refuted, C115_stale_refuted, C115_no_regularizer_refuted, C116_towers_average, C116_run_partial, C116_run_refuted, C116_no_devices_refuted |
| Graph/Props | none (closed under the global context) | C16_members_are_ancestors, C17_variable_uses_counts_real_consumers, C17_not_a_variable |
| Keras/BatchProps | none (closed under the global context) | C74_registered_batch_is_used, C74_refused_unchanged_partial, C74_refused_batch_forgotten_refuted, C106_saved_settings_partial |
| Keras/CallbackProps | ClassicalDedekindReals.sig_forall_dec, ClassicalDedekindReals.sig_not_dec, Classical_Prop.classic, FunctionalExtensionality.functional_extensionality_dep | C53_polynomial_decay, C53_exponential_rate_and_steps, C53_exponential_rate_and_final, C53_exponential_final_and_steps |
| Keras/CallbackProps | none (closed under the global context) | C53_unknown_hyperparameter |
| Keras/CallbackProps | ClassicalDedekindReals.sig_forall_dec, FunctionalExtensionality.functional_extensionality_dep | C69_exactly_two_options_refuted, C69_three_options_accepted, C69_exactly_two_options_partial |
| Keras/CompileProps | none (closed under the global context) | C126_compiled_as_saved_partial, C126_compiled, C126_custom_objects_refuted |
| Keras/ConfigProps | none (closed under the global context) | C54_keeps_user_settings_refuted, C54_momentum_refused_refuted, C54_learning_rate_refused_refuted, C54_keeps_user_settings_partial, C54_fills_missing_settings_partial, C54_nonzero_learning_rate_refused_partial, C54_untouched_without_adaptation, C71_rebuilt_optimizer_refuted, C71_rebuilt_fixedmu_refuted, C71_rebuilt_adaptive_refuted, C71_rebuilt_optimizer_partial, C72_mutable_hyperparameters, C72_training_uses_current_value, C72_set_hyper, C74_register_train_batch, C74_refused, C74_needed_for_adaptive_damping |
| Keras/LayerProps | ClassicalDedekindReals.sig_forall_dec, FunctionalExtensionality.functional_extensionality_dep | C55_weights_refuted, C73_weighted_loss_refuted, C73_weighted_loss_partial, C73_one_output_partial |
| Keras/LayerProps | ClassicalDedekindReals.sig_forall_dec | C55_arguments_unchanged_refuted, C55_losses_as_given_partial, C70_list_in_order_refuted, C70_list_in_order_partial, C70_dict, C70_serialized_dict, C70_default, C73_list_of_one_refuted, C75_serialized_losses_refuted |
| Keras/LayerProps | none (closed under the global context) | C75_supported_losses_partial, C75_unsupported_losses, C76_untrained_layers_refuted, C76_no_scale_refuted, C76_fused_uses_refuted, C76_layer_registration_partial, C76_unsupported_layers |
| Keras/LifeProps | none (closed under the global context) | C106_file_closed_partial, C106_file_closed_refuted, C106_not_compiled, C106_loaded_optimizer_partial, C106_adaptive_refuted, C107_created_once, C107_created_for, C107_layers_registered, C107_own_weights_partial, C107_disjoint_weights_partial, C107_all_weights_partial, C107_own_weights_refuted, C107_loss_function_partial, C107_loss_function_refuted |
| Keras/RestoreProps | none (closed under the global context) | C108_state_restored_partial, C108_state_restored_refuted |
| Match/Props | none (closed under the global context) | C48_matcher_sound_complete, C48_matcher_finds_an_assignment, C48_consumed_nodes, C48_all_matcher_enumerates, C48_matcher_returns_the_first, C48_outside_the_grammar, C48_no_single_producer, C48_ambiguous_identity, C49_history_independent_refuted, C49_each_call_appends_its_matches_partial, C62_dense_layers, C62_embeddings, C62_scale_and_shift, C62_fused_batch_norm, C62_batch_norm |
| Names/Props | ClassicalDedekindReals.sig_forall_dec, FunctionalExtensionality.functional_extensionality_dep | C89_own_statistics_refuted, C89_own_statistics_partial, C93_settings_partial |
| Names/Props | none (closed under the global context) | C89_bias_refuted, C89_sub_sampling_refuted, C90_inverses_own, C90_created, C91_concat_scale_shift_refuted, C91_every_layer_named_partial, C92_order, C92_identities, C93_initial_values_refuted, C94_sizes |
| Ops/Props | none (closed under the global context) | C83_patches_are_what_is_read, C83_convolution_is_a_product, C83_input_statistic, C84_mean_squared_gradients, C85_sampling_is_unbiased, C85_rows_used, C86_locations_counted_refuted, C86_locations_counted_partial, C87_gradients_refuted, C87_gradients_partial, C88_depthwise_refuted, C88_inverse_undoes_multiply_partial, C88_each_channel_partial, C88_diagonal_block |
| Registry/Props | ClassicalDedekindReals.sig_forall_dec, FunctionalExtensionality.functional_extensionality_dep | C19_no_variable_in_two_blocks, C19_overlap_rejected, C19_duplicate_rejected, C20_reuse_with_other_type_raises, C20_towers_are_the_successful_registrations, C21_finalized_calls_raise, C21_finalized_is_frozen, C22_check_accepts_exactly, C23_check_repeatable_refuted, C23_check_repeatable_partial, C24_approximation_selection, C24_selection_exists_unique, C24_linked_groups_disjoint, C25_one_coefficient_per_name, C25_registration_accepts_exactly, C25_towers_count_registrations, C28_failed_call_unchanged_partial |
| Registry/Props | none (closed under the global context) | C20_success_creates_or_adds_one_tower, C20_separable_registers_both_parts, C20_reuse_of_unregistered_raises, C20_auto_reuse, C21_finalize_needs_a_loss_and_runs_once, C24_known_approximations, C24_set_default_checks_table, C24_linking_accepts_exactly, C26_factors_shared_exactly, C27_default_scoped_refuted, C27_default_scoped_partial, C28_failed_call_unchanged_refuted |
| Registry/Props | ClassicalDedekindReals.sig_forall_dec, ClassicalDedekindReals.sig_not_dec, FunctionalExtensionality.functional_extensionality_dep | C25_total_loss |
| Registry/ScaleProps | none (closed under the global context) | C128_scale_broadcasts_refuted, C128_accepted_shapes_partial, C128_refused_shapes_partial, C128_broadcasting_accepted |
| Replica/Props | ClassicalDedekindReals.sig_forall_dec, FunctionalExtensionality.functional_extensionality_dep | C95_average_over_replicas, C95_replicator_decides, C95_identity_elsewhere_refuted, C95_identity_elsewhere_partial |
| Replica/Props | ClassicalDedekindReals.sig_forall_dec, ClassicalDedekindReals.sig_not_dec, FunctionalExtensionality.functional_extensionality_dep | C96_like_one_device, C97_replicas_stay_equal, C98_mirrored_like_one_device_partial, C98_mirrored_like_one_device_refuted |
| Replica/Props | none (closed under the global context) | C98_burnin_refused |
| Sched/Props | none (closed under the global context) | C01_batch_execute_selects, C01_batch_execute_count, C01_batch_execute_fair, C01_batch_execute_rate, C04_next_op_blocks_are_permutations, C04_next_op_counts, C04_next_op_gap, C05_kth_draw, C05_no_draw_lost, C05_async_fair, C05_async_stop, C06_cov_placement, C06_inv_placement, C06_trans_placement, C06_no_devices_no_placement, C06_loads_balanced, C07_thunk_runs_once, C07_loads_balanced |
| Sched/Props | ClassicalDedekindReals.sig_forall_dec | C07_map_gather_unreplicated, C07_all_sum, C08_no_inverse_variables_raises |
| Sched/Props | ClassicalDedekindReals.sig_forall_dec, FunctionalExtensionality.functional_extensionality_dep | C07_map_gather_replicated, C07_map_gather_transparent, C07_all_average, C08_replica_inverses_partial, C08_replica_inverses_refuted |
| Search/Props | none (closed under the global context) | C50_kept_records_partial, C50_ambiguous, C50_no_strict_part_refuted, C63_found_exactly, C63_one_reading, C63_order_of_variables, C63_unsupported_layers, C64_dilation_passed_refuted, C64_strides_and_format_partial, C65_folded_uses_partial, C65_no_uses, C65_uses_dimension_refuted, C66_search_covers_losses_partial, C66_search_covers_losses_refuted, C67_embedding_used_once_refuted, C67_embedding_used_often_partial |
| Search/Props | ClassicalDedekindReals.sig_forall_dec, FunctionalExtensionality.functional_extensionality_dep | C51_every_variable_registered |
| Series/Props | none (closed under the global context) | C77_concatenated_data, C77_separate_data, C77_statistics, C77_accepted_data, C78_option1_is_sequence_covariance_refuted, C78_option1_inverts_absolute_sequence_covariance_partial, C78_option1_positive_partial, C78_only_inverses, C79_option2_inverts_lag_sum, C79_lag_sum_is_limit, C80_statistics_of_a_batch, C80_statistics_of_any_history, C80_statistics_of_any_history_bias, C81_registrations_are_independent_refuted, C81_registrations_are_independent_partial, C82_independent_uses, C82_convolution_uses_all_examples_refuted, C82_convolution_uses_all_examples_partial, C82_series_rank3_refuted, C82_series_rank2_partial |
| Tensors/Props | none (closed under the global context) | C09_column_is_concatenation, C09_roundtrip_tensors, C09_roundtrip_column, C10_roundtrip_params, C10_roundtrip_matrix, C10_matrix_entries, C11_latest_assignment_wins, C11_sequence_lookup, C11_sequence_assignment, C11_set_get, C12_accepted_iff_consistent, C12_rejected_with_ValueError, C12_shape_is_shape_of_concatenation, C12_equality, C12_device, C14_every_history_decomposes, C15_valid_1d, C15_same_1d, C15_valid_2d, C15_same_2d, C15_default_strides, C15_malformed_rejected |
| Tensors/Props | ClassicalDedekindReals.sig_forall_dec, FunctionalExtensionality.functional_extensionality_dep | C13_weighted_mean, C13_constant_data, C13_convex_hull, C13_total_positive, C13_reset_forgets, C13_unnormalized, C14_mean_since_reset, C14_read_value_and_reset, C18_same_convolution |
| Tensors/Props | ClassicalDedekindReals.sig_forall_dec | C18_entries, C18_roundtrip, C18_roundtrip_back, C18_malformed_rejected |
| Train/AffineProps | ClassicalDedekindReals.sig_forall_dec, FunctionalExtensionality.functional_extensionality_dep | C123_coordinates |
| Train/AffineProps | ClassicalDedekindReals.sig_forall_dec, ClassicalDedekindReals.sig_not_dec, FunctionalExtensionality.functional_extensionality_dep | C123_step, C123_steps, C123_training |
| Train/DescentProps | ClassicalDedekindReals.sig_forall_dec, ClassicalDedekindReals.sig_not_dec, FunctionalExtensionality.functional_extensionality_dep | C110_momentum_refuted, C110_fixed_momentum_refuted, C110_weight_decay_refuted, C110_step_partial, C110_loss_goes_down_partial, C110_qmodel_partial |
| Train/Props | ClassicalDedekindReals.sig_forall_dec, ClassicalDedekindReals.sig_not_dec, FunctionalExtensionality.functional_extensionality_dep | C02_runs_exist, C02_covariance_schedule, C02_inverse_schedule, C02_step_uses_current_inverse, C03_burnin_only_covariances, C03_then_full_steps, C30_regular_closed_form, C30_regular_step, C30_no_momentum, C30_adam_closed_form, C30_adam_step, C31_regular_clip, C31_adam_clip, C31_clip_is_tight, C32_bounds_immediate, C32_bounds_delayed, C33_immediate_timing, C33_delayed_timing, C33_no_adaptation, C33_prediction_matches_update_refuted, C33_prediction_clipped_adam_refuted, C33_prediction_default_adam_refuted, C33_prediction_regular_partial, C33_prediction_adam_partial, C34_qmodel_optimal_partial, C34_qmodel_fixedmu_optimal_partial, C34_qmodel_optimal_refuted, C35_prediction_matches_step_refuted, C35_zero_previous_update_partial, C35_qmodel_prediction_partial |
| Train/Props | ClassicalDedekindReals.sig_forall_dec | C29_accepts_exactly_legal, C29_rejects_with_value_error, C29_rejects_before_variables_refuted, C29_rejects_before_variables_partial |
| Train/Props | ClassicalDedekindReals.sig_forall_dec, FunctionalExtensionality.functional_extensionality_dep | C32_rule |
| Train/QuadProps | ClassicalDedekindReals.sig_forall_dec, ClassicalDedekindReals.sig_not_dec, FunctionalExtensionality.functional_extensionality_dep | C117_exact_step_partial, C117_exact_run_partial, C117_damping_to_floor_partial, C117_one_parameter_refuted |
| Train/QuadProps | ClassicalDedekindReals.sig_forall_dec, FunctionalExtensionality.functional_extensionality_dep | C117_parallel_refuted |
| Train/RotateProps | ClassicalDedekindReals.sig_forall_dec, FunctionalExtensionality.functional_extensionality_dep | C121_coordinates |
| Train/RotateProps | ClassicalDedekindReals.sig_forall_dec, ClassicalDedekindReals.sig_not_dec, FunctionalExtensionality.functional_extensionality_dep | C121_step, C121_steps, C121_training, C121_training_goes_on |
| Train/UnitsProps | ClassicalDedekindReals.sig_forall_dec, ClassicalDedekindReals.sig_not_dec, FunctionalExtensionality.functional_extensionality_dep | C120_step, C120_steps, C120_training, C120_training_goes_on |
| Train/DecayProps | ClassicalDedekindReals.sig_forall_dec, ClassicalDedekindReals.sig_not_dec, FunctionalExtensionality.functional_extensionality_dep | C02_passed_decay_per_iteration, C02_default_decay_per_update |
| Keras/SavedLossProps | none (closed under the global context) | C75_saved_form |
| Keras/SavedLossProps | ClassicalDedekindReals.sig_forall_dec | C75_saved_losses_register_partial |
| Replica/ContextProps | none (closed under the global context) | C129_replicated_iff_replicas_partial, C129_replicated_iff_replicas_refuted |
| Curv/GgnFactorProps | ClassicalDedekindReals.sig_forall_dec, ClassicalDedekindReals.sig_not_dec, FunctionalExtensionality.functional_extensionality_dep | C38_ggn_factors, C39_ggn_one_hot_is_factor_column |
| Series/DiagProps | none (closed under the global context) | C77_diagonal_statistics |

## 4. What is modelled and what is not

| area | modelled code | left out |
|------|---------------|----------|
| Sched | `utils.batch_execute` 719-783; `op_queue.py`; the async worker loop; `placement.py`; `utils` map_gather, all_sum, all_average 519-708; the estimator's cov/inv thunks | TF threads beyond interleaving of draws; TPU and TF-Replicator primitives are oracles |
| Tensors | `utils` tensors_to_column .. mat2d_to_layer_params, `SequenceDict`, `PartitionedTensor`, `MovingAverageVariable`, `AccumulatorVariable`, `num_conv_locations`; filter reshapes of the depthwise blocks | dtype casts |
| Graph | `utils.SubGraph` 358-437 | ops as objects: consumers and inputs are functions |
| Registry | all of `LayerCollection` (registration, linking, defaults, reuse, losses, finalize, check_registration, make_or_get_factor, as_default) | docstrings; names given by TF; the numeric content of blocks (see Blocks) |
| Train | `KfacOptimizer.__init__` checks, velocities, clipping, damping, qmodel hyperparameters, `minimize`; `PeriodicInvCovUpdateKfacOpt` | slot creation and checkpointing; multi-replica reductions of the step (see Replica) |
| Est | the lists of variables of factors, `FisherEstimator._instantiate_factors` and its six gradient lists, the statistics of the parameters, `_register_matrix_functions` and the multiplications by powers and Cholesky factors as far as success goes, the order of the thunks; `KfacOptimizer.minimize`/`compute_gradients` as to variables; the constructor of the asynchronous optimizer | the graph is given by which loss depends on which tensor and by gradients; `tf.gradients` is trusted to be None exactly without a path; a loss has one input tensor |
| Replica | `all_sum`, `all_average`, `smart_assign`, `smart_cond`, `get_num_replicas`, `is_replicated` in every context; `compute_gradients`, `apply_gradients`, `minimize` and the periodic class on several replicas in step | asynchronous strategies; what a strategy does with variables that are not mirrored; `tf.cond` around reductions (damping adaptation) under `MirroredStrategy`, which TensorFlow does not support: the theorems say what follows if it worked. That `merge_call` runs the function of the first replica, and that the base class sums updates over replicas and refuses cross-replica contexts, is our reading of TensorFlow and is trusted |
| Curv | `loss_functions.py` for the four losses, `curvature_matrix_vector_products.py`, the estimator's gradients in the three modes, `_compute_transformation` | autodiff itself: Jacobians are arbitrary linear maps (chain rule is a hypothesis); sampling is an expectation over a finite product distribution |
| Blocks | `fisher_factors.py` dense, diagonal, convolutional, SUA factors; `fisher_blocks.py` Kronecker, full, diagonal blocks; `linear_operator.py`; pi and damping | see the "Remaining" list below |
| Series | `fisher_blocks.py` 1330-1842, `fisher_factors.py` 2497-2837, `utils.posdef_eig` | `ConvInputMultiKF` beyond its arguments |
| Ops | `utils.extract_*_patches` 786-907; `ConvInputKroneckerFactor`, `ConvDiagonalFactor`, `ScaleAndShiftFactor` statistics; sub-sampling; the strides given to blocks; `fisher_blocks.py` 1094-1318 | patch masks (Blocks); `Ops/Tensor.v` states what TensorFlow operations compute and is trusted |
| Names | `fisher_factors.py` 36-342 (constants, names), `_var_scope`, `_cov_shape`, `instantiate_cov_variables`, `instantiate_inv_variables` of all factors; the blocks' `instantiate_factors` | data types, devices; names and shapes of tensors are given by a `world` |
| Match | `graph_matcher.py`, `graph_patterns.py`, `tensorflow_graph_util.py` | Python's recursion limit |
| Search | `graph_search.py` | variable-scope names |
| Data | `data_reader.py`, `data_reader_alt.py` | queue runners; the dataset is a list |
| Keras | `callbacks.py`, `optimizers.py`, `utils.py`, `saving_utils.load_model` | the Keras training loop, the contents of HDF5 files, nested losses and metrics |
| Examples | `convnet.py` 311-362, 365-403, 443-460, 516-547, 607-700, 826-846; `mnist.py` 86-127; batch-size schedules, flags and evaluation of `classifier_mnist.py`, `autoencoder_mnist.py`, `rnn_mnist.py` | the models themselves, checkpoints, cluster set-up, the TPU examples; the schedule of sizes is in exact arithmetic |

Remaining (not modelled): the tests, and
whatever a later row of section 2 does not name.

## 5. Findings

Properties that the unchanged code violates.  Each has a `..._refuted` theorem with the
witness and a `..._partial` theorem with what holds.

* **C08.** Refuted for factors that write inverse-related variables they do not expose (SUA convolution factor), and construction raises when no factor has inverse variables; the partial theorem covers all factors whose update writes exactly what get_inv_vars returns.
* **C23.** Check_registration inserts zero entries for unregistered variables, so a failed check makes a later correct check fail; and a list with duplicates passes while omitting a registered variable. The _partial theorem: a passing check changes nothing, repeating the same check repeats its answer.
* **C27.** As_default has no try/finally, so a raising body leaves its collection installed and the next as_default raises. The _partial theorem covers bodies that end normally.
* **C28.** Separable convolutions, index inputs with weight/bias pairs and multi-use layers with unequal lists leave a half-registered layer behind. The _partial theorem: every other call is all-or-nothing.
* **C29.** Acceptance and the exception are proved for all options. 'before any variable is created' - with adapt_damping=True the damping variable is created before the train_batch and learning-rate checks; proved without adapt_damping.
* **C33.** Timing and loss pairs proved in both modes. the recorded prediction is not for the applied update with use_weight_decay, in clipped adam mode, and in adam mode with the default that excludes damping; proved for the remaining cases.
* **C34.** Refuted when the gradient is orthogonal to a non-zero previous update (the zero-previous-update shortcut is then taken); proved otherwise, including the reported change and its sign.
* **C35.** The shortcut tests <gradient, previous update> = 0, not previous update = 0; with fixed mu the prediction then differs from the model value of the applied step. Proved when the previous update is zero, and for the prediction in qmodel mode.
* **C37.** Refuted for a loss with two inputs (NormalMeanVariance): the product computer reads .dtype of a tuple and raises AttributeError. _partial theorems: any number of one-input losses, any Jacobian, coefficients >= 0; factorisation, adjointness, linearity, symmetry, PSD, coefficient scaling, and the J^T F J form.
* **C45.** Refuted in its second half: check_partial_batch_sizes zips sources with towers, so with one source only tower 0 is compared with itself and unequal towers are accepted although their covariance differs from that of the concatenated batch. Proved: equal towers (and replicas) give the single-tower covariance for every statistic, equal towers are accepted, unequal ones are rejected when there are at least as many sources as towers.
* **C49.** All_matcher's result list is created once and shared by all calls, so earlier matches reappear. The partial theorem says exactly what a call returns.
* **C50.** Refuted in its third rule: a strict part of another candidate is kept when the two records share no variable (batch normalisation of a variable). Proved: exact characterisation of the kept records with the shared-variable form of the rule, disjointness of what remains, and when it raises.
* **C54.** When only one of invert_every and damping_adaptation_interval is given it is overwritten by 5; in the adaptive mode a momentum, or a learning rate of zero, is dropped without an error. Proved: everything else is kept and filled in as documented.
* **C55.** The weight of an output that is a nested model is looked up under the name of an inner layer, so 1.0 is used, and the caller's loss dict is changed. Proved for models, nested or not, whose outputs are plain layers with distinct names.
* **C57.** Refuted as stated: exact mode with mat_type GGN always raises AttributeError (nonexistent attribute), and modes curvature_prop and exact raise for NormalMeanVariance. _partial theorems: gradients mode for every loss (normal targets with integrals against the Gaussian density); curvature_prop and exact modes for one-input losses.
* **C59.** The operator is channel-major (Kronecker(cov, I)) while the reshaped filter is spatial-major and the block does not permute; entries pair different spatial offsets. Proved: it is the intended operator in channel-major order, and in the filter's own order for 1x1 filters or one channel.
* **C61.** Refuted for the diagonal block: the mask is not flattened before broadcasting against [.., height*width*channels] patches; 2x2 filters with two channels always raise and one channel silently masks by image location. Proved for Kronecker-factored blocks and for 1x1 filters.
* **C64.** Dilations are never passed on; proved: strides and data format of a convolution used once. Padding and format are one flag in the model.
* **C65.** Refuted for [num_uses, batch_size, size] inputs: shape[1], the batch size, is passed. Proved for folded inputs, including when it raises.
* **C66.** Refuted for NormalMeanVariance losses, whose inputs are a tuple: skipped, or AttributeError if first. Proved when all losses have one parameter.
* **C67.** Used once, the requested kron_indep_in_diag is unknown to register_fully_connected, always ValueError. Proved: several uses select a known block.
* **C68.** The assignment of the cached size does not depend on the size check, so a run may change the cached size before the check fails. Proved instead: stored rows and positions are untouched, only the size may change.
* **C69.** The options are counted by truth value, so final_value=0.0 with one other option is rejected and three options of which one is zero are accepted. Proved: the exact condition for non-zero options.
* **C70.** Refuted for the list form: two layers with the same name in different nested models both get the last approximation. Proved for distinct names; the dict form is proved in full.
* **C71.** The default cov_ema_decay is stored as if given and raised to the power cov_update_every on rebuilding; qmodel_fixedmu optimizers cannot be rebuilt; a rebuilt adaptive optimizer has no loss function and no batch size. Proved for non-adaptive optimizers with cov_ema_decay given or cov_update_every left at 1.
* **C73.** With one output the weight is ignored, and a list of one loss or a serialized loss object fails. Proved for several outputs.
* **C74.** A tuple of tensors that is refused for its size is stored before the error and used by the wrapped optimizer, then without a batch size (C74_refused_batch_forgotten_refuted). Proved: the size, what is refused, that an accepted batch and its size reach the wrapped optimizer through every sequence of other calls, and that anything that is not a tuple of tensors changes nothing.
* **C75.** A serialized loss object is refused, also the one serialize_loss made. Proved for names, functions and objects in any spelling; the saved form of every argument is characterised, and that of names and functions makes the same registrations on every model.
* **C76.** An activation layer without parameters can make registration fail; a normalization with neither scale nor shift raises IndexError; the learning phase set to 0 is taken for unset. Proved: what a registration consists of, and the other refusals.
* **C78.** Option 1 diagonalises the whitened covariance of successive uses with posdef_eig, which takes absolute values of the eigenvalues, so for covariances that are not positive the served inverse is that of another process; proved for what it does invert (relative absolute values) and for positive semidefinite symmetrised covariances.
* **C81.** The loop over option 1 dampings overwrites C1 by its symmetric part, so a block of option 2 that shares the factor gets a different inverse when any block registered option 1; proved independent otherwise.
* **C82.** Refuted in two parts: ConvKFCBasicMultiIndepFB passes num_uses in the position of sub_sample_inputs, so a fifth of the inputs is used by default; a rank 3 tensor makes the series vectors of the size of its second dimension, so building fails unless it equals the third. The scaling and damping are proved.
* **C86.** With dilation and VALID padding the count ignores the dilation; the approximation kron_sua forgets the strides; spatial strides given to register_convolution raise IndexError. Partial: exact count for SAME padding or no dilation with strides given in full.
* **C87.** Inputs that are smaller than the outputs (broadcast by the scale) give a statistic of another size than the variable declared. Partial: inputs of the shape of the outputs, any broadcasting of scale and shift.
* **C88.** With correlated channels the Kronecker-factored depthwise block mixes channels and its inverse does not undo it. Partial: uncorrelated channels; the diagonal block is exact.
* **C89.** Two tensor names may become the same word (a/b and a_b), and then two layers share one average silently; the names omit the bias of diagonal factors and the sub-sampling settings. The partial theorem needs words that can be told apart and printed parts that differ.
* **C91.** Refuted for scale-and-shift layers under the concat strategy (AttributeError for each of them); proved for all other layers and for the separate strategy.
* **C93.** Refuted for init_covariances_at_zero and init_inverses_at_zero: the initializers are chosen on import. Proved for the other modelled constants.
* **C95.** Inside a strategy's scope but outside of its replicas all_average divides by the number of replicas without having summed; proved for all supported contexts and for contexts with one replica.
* **C98.** Under MirroredStrategy smart_cond's branches are the first replica's, so only its mini-batch enters the statistics; proved: everything else is as on one device with the whole batch.
* **C99.** In exact mode every loss must depend on every tensor, the error can name connected tensors or none, and without losses nothing is checked. Proved for the other modes (empirical with targets), with an exact condition for exact mode.
* **C100.** A tuple of variables raises TypeError. Proved for lists, in every mode that works, and for replicas.
* **C101.** Compute_gradients without var_list takes the trainable variables rather than the optimizer's. Proved when these agree and for explicit lists.
* **C102.** The devices are parameters of the constructor and never handed on. Proved: nothing is ever placed, which is right for None only.
* **C103.** Dampings of a layer read both factors' covariances. Proved: with that condition added the orders that work are characterised exactly; the returned order works.
* **C104.** Series blocks lack the power 1 and Cholesky factors, SUA blocks fail at registration, diagonal blocks have every power. Proved: exact description for every kind of block.
* **C105.** A spatially uncorrelated factor lists one of every two or four inverse variables and never its mean; series factors list tuples, which the replica placement cannot assign; the statistics are listed as computed tensors. Proved: completeness and the replica update for all other factors.
* **C106.** The file stays open if the architecture cannot be read, and a model saved with the state of an optimizer that adapts its damping cannot be loaded, as the training batch is not saved; the rest is proved.
* **C107.** A dot in the name matches other names, so weights of another optimizer are included; and a model given to register_layers is not used by the loss function. Proved for plain names and the constructor's model.
* **C108.** Two dampings of one factor are kept in a set, and their inverses can be exchanged without an error. Proved if there is at most one registration of each kind per factor.
* **C110.** With momentum carried over (regular or fixed momentum) or with weight decay a step may go uphill. Proved without both, and with momentum for qmodel.
* **C111.** Refuted in part: exactly one task inverts (not 20%), no task accumulates statistics below five tasks, one or two tasks accept any id, the dedicated-workers example calls a method the optimizer lacks, and with a chief only ceil(0.6 n) gradients are aggregated. One duty per task, the number of awaited gradients, and the exact shares are proved for the floating-point expressions.
* **C112.** Refuted for a data set of exactly the start size (division by zero); otherwise proved, in exact real arithmetic (in binary64 the last entries can be one lower).
* **C114.** Refuted in part: an undocumented value gives an UnboundLocalError, not a report. The documented values are proved.
* **C115.** The regularization term is that of the old or the trained values, never of the averages, and l2_reg = 0 is an error; errors and data terms are proved for every order.
* **C116.** A run fails unless the number of towers divides the number of examples of all epochs, and always without devices; otherwise proved.
* **C117.** When the previous update is a multiple of the preconditioned gradient (always, from the second step on, with one scalar parameter) the 2x2 system is singular and the step divides by zero. Proved for every step and run in which the system is solvable: exact prediction, monotone loss, damping to the floor.
* **C120.** In mode 'empirical' the statistics of coeff-weighted losses grow with the square of the constant, with PI_TYPE off the inverse product changes, and so it does when one factor's covariance vanishes. The optimizer's step and whole runs, the other estimation modes, all statistics, curvature products, full and diagonal blocks and Kronecker blocks with the trace-norm adjustment and non-zero traces are proved.
* **C124.** Refuted as intended: for an input that depends on none of the tensors the Jacobian product is None instead of zeros (C124_jacobian_none_refuted); the Hessian product raises if the loss does not depend on one of the tensors (C124_hessian_raises_refuted), and follows dependencies between the tensors, which the Jacobian products hold fixed (C124_wrt_dependencies_refuted). Proved for everything else; entries of tensors are modelled one by one, reals instead of floats except for NaN.
* **C126.** Losses.get is not given the custom objects, so a loss saved as a class of the user is refused; the class name inside the description of a custom metric is replaced by the class; a non-empty dictionary of the caller gets the entry Kfac. Proved otherwise, for all nested structures.
* **C127.** Refuted for inputs that depend on none of the tensors (C127_unused_input_refuted); proved where every input depends on one of the tensors. The products of the losses are any graph builder with the right values; for squared errors they are modelled (C127_squared_error_partial).
* **C128.** The scale is not compared with the inputs from above, so a scale of 5 entries for inputs with one feature is accepted (C128_scale_broadcasts_refuted); a shift of that shape is refused. Proved: what is accepted, what is refused and that nothing is registered then, and that broadcasting shapes are accepted in a fresh collection. Corner: shapes that are both of rank 0 are accepted by the model where the code fails with an index error.
* **C129.** In a cross-replica context with several replicas the placement is refused, in a TPU context with one shard accepted. Proved in replica contexts and without a strategy.

## 6. Tests against wrong programs

`seeded/LOG.jsonl` holds one line per wrong program: the model was edited as a realistic
bug would change the code, rebuilt in a scratch copy, and the property theorems that no
longer hold are listed.  Where a theorem survived an edit that falsifies its claim, it was
tightened and the line names it.

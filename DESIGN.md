# Formal model of coax in Coq 8.16.1

The code under study is the python package in `/repo/coax`.  It was read as text; nothing was run.

## 1. Layout

For an area `X` there are up to four kinds of files in `rocq/theories`:

* `XModel.v`  - the model: total Gallina functions that mirror the python functions branch by branch.
  Each definition cites file and lines and names its simplifications.  Exceptions are values (`Err kind`),
  mutation is a returned new state, loops are structural recursion or folds.  No proofs.
* `XSpec.v`   - the specification vocabulary, written without using the model's helpers.
* `XProofs*.v` - lemmas.
* `XProps.v`  - the property theorems, `Print Assumptions`, and beside each theorem an `Example` showing that a
  concrete non-trivial case meets its hypotheses.

Naming: `Cnn_...` belongs to property `Cnn` of `properties.jsonl`.  `..._partial` proves a part of the statement (the
comment and the note in `MANIFEST.json` say what is missing); `..._refuted` proves that the documented statement is
false for the code as it is.

## 2. Modelling conventions

* Python ints are `nat`/`Z`.  Floating point numbers are real numbers (`R`, Coq's standard library) unless
  the algorithm is generic, in which case the element type is a parameter (a section variable, hence
  universally quantified after the section closes).  Rounding, overflow, NaN and infinities are not
  modelled unless a definition says so (a mean over an empty array or a division by zero that the code can
  reach is an explicit `None` or error value).
* numpy/jax arrays are lists (of rows).  dtype changes are modelled only where they matter (int32 ids).
* Random draws are arguments (an oracle value), so that theorems quantify over all draws.  Probabilities are
  computed exactly by finite distributions where a theorem is about probabilities.
* Neural networks (haiku/jax functions), optimizers (optax; C130: Adam by its documented formulas) and jit compilation are parameters: arbitrary
  functions.  jax.grad is "any list of the partial derivatives" (derivable_pt_lim).
* Concurrency (ray actors) is an interleaving semantics whose atomic steps are the remote calls.
* Properties that the code violates are proved as `..._refuted` with a witness, next to the strongest positive
  statement found.  Section 5 lists these findings.

## 3. Plan per property

| id | what is modelled | how it is proved |
|----|------------------|------------------|
| C01 | `SegmentTree` as a flat array, `set_values` level loop, with SumTree, MinTree and MaxTree as instances | invariant "each inner node = reducer of its children" by induction on levels and histories; refinement to a list of leaves; root = fold by associativity |
| C02 | scalar run of the two-finger loop of `partial_reduce` | loop invariant: a . (blocks strictly between i and j) . b = slice |
| C03 | batched run of the same loop with the shared `done` mask and out-of-range gather | simulation with the scalar run; witness for the failing batch |
| C04 | `inverse_cdf` descent over the array of reals | invariant: value < node, prefix(i) + value = u*root |
| C05 | same, u = 1 | witness, and exact result for u = 1 |
| C06 | `_check_idx` | case analysis |
| C07 | `SimpleReplayBuffer` state machine | refinement to `lastn` of the added list by induction over operations |
| C08 | `random.setstate/getstate` protocol with abstract generator | simulation between runs with different foreign operations |
| C09 | `PrioritizedReplayBuffer` storage | refinement to a window by induction over operations |
| C10 | `update` incl. the vectorised where + scatter | refinement for collision-free batches; witness for collisions |
| C11 | weights in `sample` over R | real analysis (`Rpower`) |
| C12 | `alpha` setter over R incl. `isclose` early exit | real analysis; witness |
| C13, C14, C17 | `NStep` as a state machine with deques | induction over the episode; closed form of the deque contents |
| C15, C16 | `MonteCarlo`; algebra of returns | induction |
| C18 | `from_single` checks as an error value | witness, and the positive statement for valid data |
| C19, C20 | `TransitionBatch` as a record of lists with optional fields; `__eq__` as zip of flattened leaves | induction; witnesses |
| C21-C24, C56 | `ConnectFourEnv` as a state machine over a 6x7 matrix of naturals | window/filter enumeration vs line specification by reflection over the 69 lines; invariants by induction over moves; positional number system for ids |
| C25 | `chunks_pow2` | strong induction |
| C26 | `StepwiseLinearFunction` over R | piecewise analysis by induction on knots |
| C27 | `diff_transform_matrix` | binomial identities |
| C28 | `RollingAverage`, `ExponentialAverage` over R | induction over histories |
| C29 | `sync_shared_params`, `merge_dicts` over association lists | induction over keys |
| C30, C59 | `quantiles_uniform`, `quantiles`, `quantile_cos_embedding` over R | positivity of cumulative sums; index arithmetic |
| C31 | `FrameStacking` with bounded deque | induction over histories |
| C32, C33, C35, C60 | `TrainMonitor` counters, `period`, metrics, snapshot aliasing (heap of mutable dicts) | induction over histories; witness for aliasing |
| C34 | reservoir step as a finite distribution over R | exact inclusion probability by induction |
| C36, C40, C61 | box wrappers: sigmoid / clip / logit over R, info dict | monotonicity and inverse laws |
| C37, C38, C62 | softmax, entropy, KL, normal densities over R | Gibbs inequality from `ln x <= x-1`; algebra of the gaussian |
| C39, C41, C63, C64 | `affine_transform`, squashed log density, quantile and interval distributions | witness; algebraic identity; derivative of tanh |
| C42 | C51 projection with floor/ceil over R | sum exchange, case analysis floor = ceil |
| C43, C44, C65 | losses over R | real analysis (derivable_pt_lim) |
| C45 | `LogTransform` | real analysis |
| C46, C47, C66-C68 | TD targets, losses, TD error over R | non-expansiveness of max/min/logsumexp; derivative of the loss; witnesses |
| C48, C69-C74 | policy objectives, regularizers, policy calls | case analysis; score-function identity; Gumbel-softmax algebra; witnesses |
| C49, C55, C75-C77 | parameters as a heap of named arrays; `soft_update`, copies, setters, `update`/`apply_grads` with abstract optimizer | induction over leaves; frame lemmas; witnesses |
| C50, C83 | repeat/tile/reshape on lists for type-1/type-2 functions; discrete and other action spaces | index arithmetic; case analysis for the refusals |
| C51 | `EpsilonGreedy`, `Boltzmann` | real analysis |
| C52 | `valid_from_done` mask of `NStepEntropyRegularizer` | exact characterisation of the correct offset lists; witnesses |
| C53, C81 | interleaving semantics of pull/push of worker and learner loops | invariants over all interleavings; schedules with any number of lost updates as witnesses |
| C54, C82 | `StochasticV`/`StochasticQ`/`StochasticRewardFunction` constructors and outputs | bin centres are inside the interval; witness with LogTransform |
| C57, C58 | `safe_sample`, `argmax`/`argmin` with noise | case analysis; gap argument |
| C78 | `Worker.rollout` with arbitrary environment, policy and tracer | induction over the loop |
| C79 | `buffer_sample` polling loop over a history of lengths | least n; non-termination as "no fuel suffices" |
| C80 | object trees with recursive attribute access | induction over paths |
| C84 | `SuccessorStateQ` type-1/type-2 forward passes | the replica reshape is index arithmetic; affine functions commute with expectations; witness |
| C85 | `RandomPolicy` | logarithm of a product |
| C86-C88 | `ModelUpdater` loss with numpy broadcasting | zero-loss characterisation; permutation invariance; expectation over a finite noise law |
| C89 | `OrnsteinUhlenbeckNoise` as a state machine over R | induction over calls; clip is non-expansive; witness |
| C90 | wrappers as a list of layers | induction over layers |
| C91 | nested gymnasium spaces, elements and batches as trees | mutual induction over batches; one-hot and clip lemmas; witness |
| C92, C93, C96 | pytrees of nested lists; `expand_dims`, `squeeze`, `stack`, `take` | structural induction |
| C94, C95 | `double_relu`, diagnostics, quantiles over R | sorted lists, permutation invariance |
| C97, C98 | `MetaPolicyEnv`, `render_episode` over an arbitrary environment | induction over meta-actions; every call fails |
| C99 | `check_preprocessors` with a sequence of random keys | case analysis; witnesses |
| C100, C101 | registry as association list; specs and time steps | case analysis; witnesses |
| C102 | loss of `_base.py` as a function of parameters with separate target parameters; SGD; `update` of `CoreModel` | chain rule for `derivable_pt_lim`; uniqueness of gradients; witness that the full (residual) gradient differs |
| C103 | one-hot linear layers, learner plus optional target network, programs of `update`/`soft_update` | contraction: each entry moves to its target by a factor in [0,1]; invariant over programs; value iteration for existence; witness with bias |
| C104 | the loop of the examples on top of the `NStep` model | simulation of the loop by a program of C103 with one-row batches; witness for truncation |
| C105, C106 | `PipeModel`: the loop tracer -> buffer -> sample, the scripts with their two choices of the done flag | invariant combining the tracer history (C14) with the buffer log (C07); witness for the done flag |
| C107 | the same loop with `PrioModel` | simulation: every run of the loop is a program of C09-C12 |
| C108 | `PrioModel` (sample), draws uniform on (0,1); expectation = iterated stdlib Riemann integral (`MeanSpec`) | the draws fall into brackets of the sum tree, hence an integral of a step function; several rows by induction; importance weights by algebra; witness for the bias |
| C109 | `DistModel.cat_sample`, `cat_post`, `PolicyModel.policy_call` | Gumbel-max: category a wins iff u_j lies below u_a^c_j for all j; iterated integrals of powers by induction over the categories before and after a |
| C110 | `UtilsModel.argmax`, `PolicyModel.policy_mode` | the race of C109 with the logits 50 and -50 |
| C111 | `CompModel` (nested spaces, `mk`, `c_sample`, `c_mode`, `c_log_proba`, `c_pre`, `c_post`) | an inductive relation between distribution, parameters, variate and probability carries the iterated integrals of C109 through the nesting (independent components multiply); spaces by induction over their structure; boxes and mixed spaces by the relations `valued` and `drawing` of `CompSpec2` |
| C112 | `DqnModel` (`dqn_step`, `dqn_run`), on top of `PipeModel` and `LearnModel` | C106 shows that sampled rows are transitions of played episodes; episodes that follow the environment make them genuine; the run equals a program of updates and synchronisations, to which the contraction argument of C103 applies |
| C113 | `PerModel` (`y_td_error`, `per_drain`, `per_step`, `per_run`), on top of `PrioModel`, `TracerModel` and `LearnModel` | joint invariant of learner, tracer and buffer over arbitrary programs; importance weights lie in (0,1] (C11) and are clipped to 1/10 from below in the loss, which gives the contraction of C103; inverse brackets of the sum tree (C108) for the choice of any batch |
| C114 | `DensModel` (`c_call`), on top of `DistModel` and `CompModel` | change of variables for Riemann integrals (fundamental theorem on an interval) with the map from the action to the normal draw; rectangles coordinate by coordinate; exponentials of sums of logarithms |
| C115 | `BuildModel` (`v_init`, `q_init`, `s2_init`, `s1_init`, `t_init` and the calls; trees of arrays with shapes; functions are arbitrary maps from argument trees, flag and the shapes they were made for) | the expected tree of a space matches exactly the trees laid out like the space (induction over spaces); traceability carries success and form from the example to every call; C111 turns fitting parameters into elements; witnesses |
| C116 | `EntModel` (`e_entropy`, `e_pair`, `e_affine`), on top of `CompModel` | induction over spaces and the distributions made for them; sums over products of lists of elements factor; Gibbs' inequality at the leaves, equality through the log-probabilities of all variates; witnesses |
| C117 | `LearnModel` (same code as C104); the environment takes a noise argument, the noise of each row is an oracle value | distance to the interval between worst and best luck is a pseudo-norm contracted by each round (one-sided monotonicity of the three valuations); Banach iteration for the fixed points; the mean over noise lists is a finite weighted sum, linear updates commute with it, hence the mean run is the run of the mean environment; explicit computation for the two witnesses |
| C118 | `PgModel` (loop over `TracerModel` MonteCarlo, `PolicyModel` objective, `CoreModel` optimizer step, `DistModel` log-probabilities); the gradient function is any function that returns the partial derivatives of the loss | the log-probability is differentiated through the log-softmax; induction over the episode for the exact update; the mean over episodes is a finite nested sum whose derivative is computed by the product rule (mean of scores is 0, reward-to-go); chain rule along curves for the derivative at learning rate 0; explicit computation for the witness |
| C119 | `AcModel` (loop over `TracerModel` NStep, `TDModel` SimpleTD, `PolicyModel` objective, `CoreModel` optimizer step and soft update); gradient functions are any functions that return the partial derivatives of the losses | invariant of the tracer (a window of the episode) for the loop; chain rule for critic and actor gradients, td_error by uniqueness of derivatives; induction over the n steps of a target for bounds and means; products of TD errors with scores compared with those of returns; velocities of curves of parameters for the derivative at learning rate 0; explicit computation for the witness |
| C120 | `PpoModel` (`PolicyModel` objective, `CoreModel` optimizer step, `DistModel` log-probabilities); the gradient function is any function that returns the partial derivatives of the loss at batches without rows at a kink | the loss is rewritten as a mean over rows and differentiated; the clipped term is below advantage x ratio, importance sampling turns its mean into that of the new policy, induction over the horizon gives the improvement; the relaxed sample for two actions is computed in closed form |
| C121 | `RoundModel` (on `PipeModel`, `ReplayModel`, `TracerModel`) | invariant: transitions so far = those of earlier rounds ++ those in the buffer's log; the number available after t steps is computed from the cut into episodes; schedules are inductive; witnesses for every n and capacity |
| C122 | `RegModel` (on `LearnModel`, `PolicyModel`) | reduction: a regularised update is an unregularised one on the batch with the bonus added to Rn, so C102/C103 apply to the environment with bonuses; soft values by an induction over the horizon; witness for two steps |
| C123 | `DblModel` (on `LearnModel`, `TDModel`) | contraction for K learners in an asymmetric norm (underestimates weigh less by 1-2gamma than overestimates, because the maximum bounds the bootstrapped value from above only); bounds by monotonicity; cycles computed step by step for a symbolic gamma and an exponent n with gamma(1+...+gamma^n) > 1 |
| C124 | `VtModel` (on `LearnModel`, `TDModel`, `LossModel`) | errors of called values: mixtures of transformed values bounded with the slopes of the transform, put into the contraction of C123; slopes of LogTransform from ln x <= x - 1; refutations by fixed tables, an explicit diverging sequence and an explicit limit |
| C125 | `PlayModel` (on `PolicyModel`, `LearnModel`) | induction over the steps of a play; the mean over the draws of one step by C109, of several steps by splitting iterated integrals; entropy at most ln n; smallest gap between optimal and other actions; the script by C104 |
| C126 | `DpgModel` (on `LearnModel`, `PolicyModel`, `PgModel`) | derivative of the value of softmax(logits/tau); a step along its own gradient raises a softmax mean for every step size; if the value stayed below the best action, the mass of better actions relative to worse ones would grow without bound (by contradiction, no uniqueness of the best action assumed); critic errors are summable by C103, so that the value is a supermartingale-like sequence; smallest gap between optimal and other actions |
| C127 | `MbModel` (on `StochModel`, `TDModel`, `LearnModel`) | the losses are weighted sums over table cells, so each update moves every entry by a fixed share towards a weighted mean; v contracts at rate 1 - lr(1-gamma)/(10N); the error of the composite is bounded by those of v, p, r; improvement by looking at the state where the difference of values is least; `C127_episodes_refuted`: an ending action looks better than it is |
| C128 | `CatModel` (on `DistModel`, `StochModel`, `LearnModel`) | the loss is a sum of cross-entropies of softmax rows, gradient = probability minus target; potential ln-sum-exp minus linear decreases for learning rates below 1, which bounds the number of updates with a large error; the projection is non-expansive for Kantorovich distance (interpolation of 1-Lipschitz functions), so the distributional Bellman operator contracts by gamma; the floor moves a distribution by at most 2K*1e-16*(hi-lo); QLearning keeps its greedy actions inside the margin, so that it is Sarsa there; `C128_global`: without ties the mean of the target is the maximum, so one round brings the means closer to the optimal values by gamma; `C128_ties_refuted`, `C128_expected_refuted`: three atoms, two actions with equal means |
| C129 | `QrModel` (on `CatModel`, `LossModel`, `LearnModel`) | derivative of the quantile Huber loss is minus the pull of each target; if the targets are within gamma*D of the action value and lr*weight <= 1, an entry moves to at most max(gamma*D, D - c*min(1,(1-gamma)*D)) when it is visited and never further than max(old, gamma*D) otherwise; stretches of calls compose these one-entry bounds, soft updates are convex combinations; each stretch lowers the bound by a fixed amount while it is above eps; `C129_limits_refuted`: four rewards 0, 10, 20, 30 and fractions 1/4, 3/4, all pulls cancel for v1 in [1,9], v2 in [21,29] |
| C130 | `AdamModel` (optimizer of `CoreModel`'s learners, on `LearnModel` for tables) | invariant: the optimizer state holds the faded sums of all gradients and squares so far; bias correction turns them into weighted averages; Cauchy-Schwarz on the weights gives the step bound; recurrence by contradiction: a value that stays on one side has a first moment bounded below and a second moment bounded above, so it moves by a constant per update; tables: the cell of the gradient is a weight between 0 and 10 times the derivative of the loss at the target |
| C131 | `ChanceModel` (`PlayModel` with a noise per step), `LearnModel` for the training | backward induction over the steps: the mean of one step plus the rest lies within gamma times the error of the rest of the mean Bellman equation; the same lemma serves agents, samples (iterated means) and strategies with memory; separation: the mean values lie between those of the worst and the best luck (contraction); refutation: the last j lucky draws bring the value of the bet above the other one from wherever it was, and have probability 4^-j |
| C132 | `SchedModel` (an optimizer whose state counts the updates) with `LearnModel` | every update moves its pair by the learning rate of its number towards its target, so a value is a weighted walk of the noise (`track`); the square error splits into bias and variance step by step; square errors tend to 0 since the product of 1 - c_k does and c_k^2 <= e c_k eventually; Markov's inequality over the finitely many pairs for the greedy agents; refutation: the product of 1 - 2^-(k+1) is at least 1/4 |
| C133 | `VtModel.target_q_t` (one argument for each transform) with `LearnModel` | the update theorem of C102 on the transformed scale, with the targets read through the inverse transform of the target network; refutations: an explicit synchronisation, and the recursion x' = (e^x - 1)/2 with e^x >= (1 + x/4)^4 |

## 4. Trusted base

* Coq's kernel (8.16.1), checked again by coqchk.  No axioms, parameters or admitted proofs of our own.
* Axioms of Coq's standard library, through its real numbers.  `Print Assumptions` lists at most these four:
  * S = `ClassicalDedekindReals.sig_forall_dec`
  * N = `ClassicalDedekindReals.sig_not_dec`
  * F = `FunctionalExtensionality.functional_extensionality_dep`
  * C = `Classical_Prop.classic`

`Print Assumptions` per theorem (each is also printed under the theorem in its `XProps.v`):

* closed under the global context (106): `C01_level_indices`, `C01_nodes_are_reductions`, `C01_root_is_reduction`, `C01_values_follow_history`, `C02_bounds_wrap`, `C02_empty_range_rejected`, `C02_partial_reduce_commutative`, `C02_partial_reduce_refuted`, `C02_stop_zero_means_end`, `C03_batched_partial_reduce_characterised`, `C03_batched_partial_reduce_refuted`, `C06_indices_wrap_like_python`, `C06_rejected_call_changes_nothing`, `C06_wrong_length_changes_nothing`, `C07_readding_refuted`, `C07_window_partial`, `C08_global_state_overwritten`, `C08_isolated`, `C08_outputs`, `C08_sample_distinct`, `C100_make_dmc_first`, `C100_make_dmc_parameters_refuted`, `C101_specs_rejected`, `C101_step`, `C115_q_blind`, `C115_q_checks`, `C115_v`, `C115_v_checks`, `C11_batch_size_zero`, `C14_add_rejected`, `C21_result`, `C22_available`, `C22_reachable_legal`, `C22_tokens_stay`, `C23_games_end`, `C23_rejected`, `C24_id_length`, `C24_ids_distinct`, `C24_missing_attribute`, `C24_roundtrip_partial`, `C24_set_state_refuted`, `C29_merge`, `C29_merge_is_dict`, `C31_frame_k`, `C31_frames`, `C31_rejects`, `C32_total`, `C33_zero_rejected`, `C36_num_bins`, `C50_rejects`, `C50_replicas`, `C50_type2_view`, `C53_bounded`, `C53_exact_if_uninterrupted_partial`, `C53_final_refuted`, `C53_never_overcounts`, `C53_refuted`, `C53_single_worker_exact`, `C53_stop_partial`, `C56_documented_orientation_refuted`, `C56_observation`, `C57_discrete_refuted`, `C61_a_orig`, `C61_none_refuted`, `C62_mean_rejects`, `C64_floats_refuted`, `C74_batch_eval`, `C74_batch_eval_type1_refuted`, `C78_rollout`, `C79_returns`, `C79_small_buffer_refuted`, `C79_store_blocks_refuted`, `C79_store_does_not_wait`, `C79_waits_until_filled`, `C80_default`, `C80_default_refuted`, `C80_get`, `C80_set`, `C81_lost_updates_refuted`, `C81_no_mixed_states`, `C81_single_learner`, `C82_arguments_refuted`, `C83_continuous`, `C83_quantile_mode_refuted`, `C84_constructor`, `C84_continuous`, `C84_stochastic_refuted`, `C85_discrete_refuted`, `C90_found_at_any_depth_refuted`, `C90_get_env_attr_outermost`, `C90_has_iff_get`, `C92_axis_errors`, `C92_squeeze_expand`, `C92_unvectorize_errors`, `C92_unvectorize_inverts`, `C93_index_semantics`, `C93_single_batch_round_trip`, `C93_stack_trees_errors`, `C93_stack_trees_rows`, `C96_tree_sample_checks`, `C96_tree_sample_joint`, `C98_render_episode_refuted`, `C99_check_preprocessors_deterministic`, `C99_check_preprocessors_needs_two`, `C99_match_means_same_refuted`, `C99_same_means_match_refuted`.
* S (42): `C101_observations_in_space`, `C101_time_limit_truncates_refuted`, `C115_q`, `C115_q_action_refused`, `C115_q_refuted`, `C115_training_refuted`, `C15_add_rejected`, `C17_extra_info`, `C19_concatenation`, `C19_concatenation_rejected`, `C19_defaults`, `C19_to_singles`, `C25_chunks_pow2`, `C46_q_learning_continuous`, `C46_sarsa_continuous`, `C46_simple_td`, `C50_batch_sizes`, `C78_cut_refuted`, `C78_rollouts_are_episodes`, `C84_formula`, `C84_views`, `C96_axis_respected_refuted`, `C97_meta_policy_asserts`, `C97_meta_policy_plays`, `C97_works_on_all_pythons_refuted`, `copies_are_independent`, `copies_draw_the_same_keys`, `learner_structure_is_kept`, `optimizer_setter`, `optimizer_state_fits`, `policy_optimizer_never_replaced`, `policy_optimizer_state_refuted`, `setters_check_structure`, `soft_update_formula`, `soft_update_other_class`, `soft_update_other_structure`, `structure_is_kept`, `update_all_or_params`, `update_atomic_for_lawful_optimizers`, `update_with_failing_grads`, `update_with_nan`, `update_without_nan`.
* S, F (213): `C01_min_max_root`, `C02_min_max_range`, `C04_inverse_cdf_brackets`, `C04_inverse_cdf_interval`, `C04_no_mass_raises`, `C05_inverse_cdf_at_one`, `C05_out_of_range_rejected`, `C05_total_on_unit_interval_refuted`, `C102_gradient_exists`, `C102_not_residual`, `C102_semi_gradient_huber`, `C102_semi_gradient_mse`, `C102_table_update`, `C103_bias_refuted`, `C103_optimal`, `C104_truncation_refuted`, `C105_episode_done`, `C105_invalid_raises`, `C105_montecarlo`, `C105_montecarlo_never_raises`, `C105_nstep`, `C105_nstep_never_raises`, `C106_done_only_exact`, `C106_done_only_refuted`, `C106_script`, `C106_stub_raises`, `C111_construct`, `C115_model_checks`, `C115_policy_checks`, `C119_critics`, `C119_tables`, `C121_dropped_refuted`, `C121_once`, `C121_rounds`, `C121_small_raises`, `C121_small_silent`, `C123_clipped_cycle_refuted`, `C123_clipped_interval`, `C123_clipped_rate`, `C123_clipped_sync`, `C123_clipped_update`, `C123_double_alone`, `C123_double_cycle_refuted`, `C123_double_interval`, `C123_double_rate`, `C124_rate`, `C124_update`, `C127_converges`, `C127_episodes_refuted`, `C127_improves`, `C127_own_policy`, `C127_recorded`, `C127_tables`, `C127_terminal`, `C128_means`, `C129_calls`, `C129_control`, `C129_converges`, `C129_limits_refuted`, `C129_no_target`, `C129_shapes`, `C129_sync`, `C129_update`, `C12_constructor`, `C131_best`, `C133_sync`, `C133_update`, `C13_nstep_episode`, `C14_any_schedule`, `C14_schedule_independent`, `C15_any_schedule`, `C15_montecarlo_episode`, `C16_consistent`, `C16_flushed`, `C18_failing_pop_exact`, `C18_failing_pop_loses_data_refuted`, `C18_not_ready`, `C18_zero_steps`, `C19_from_single`, `C20_different_structure_refuted`, `C20_eq_same_shape_partial`, `C20_refl_partial`, `C20_symmetric_refuted`, `C26_flat_after`, `C26_flat_before`, `C26_knots`, `C26_linear_between`, `C26_range`, `C26_rejects`, `C27_diff_transform`, `C28_exponential`, `C28_rolling`, `C29_sync`, `C30_quantiles_partial`, `C30_quantiles_positive_refuted`, `C30_uniform_partial`, `C30_uniform_strict_refuted`, `C32_T_counts_steps_refuted`, `C32_avg_G_mean`, `C32_avg_over_100_refuted`, `C32_counters`, `C32_info`, `C33_after_every_step`, `C33_after_every_step_refuted`, `C33_catches_up`, `C33_never_too_often`, `C33_once_per_period`, `C34_distinct_positions`, `C34_distribution`, `C34_draws`, `C34_size`, `C34_uniform`, `C35_file`, `C35_file_fresh`, `C35_memory_partial`, `C35_memory_refuted`, `C36_discrete`, `C36_discrete_onto`, `C36_discrete_recover`, `C37_roundtrip`, `C42_mass_and_mean`, `C42_shares`, `C43_docstring_refuted`, `C43_huber`, `C43_mse`, `C46_clipped_continuous`, `C46_contract_clipped`, `C46_contract_clipped_refuted`, `C46_contract_double_refuted`, `C46_contract_q_learning`, `C46_contract_sarsa`, `C46_contract_simple`, `C46_q_learning`, `C46_sarsa`, `C47_clipped`, `C47_clipped_choice`, `C47_clipped_needs_two`, `C47_maximum`, `C47_type1_ties_refuted`, `C47_unique`, `C48_bound_is_tight`, `C48_vanilla_shapes`, `C48_weights`, `C50_back_and_forth`, `C50_call`, `C50_type1_view`, `C50_type1_view_dist`, `C52_categorical_refuted`, `C52_consecutive_partial`, `C52_gaps_refuted`, `C52_general`, `C52_nan`, `C52_unfinished_partial`, `C54_range_checked`, `C58_argmax`, `C58_argmax_every`, `C58_argmin`, `C58_argmin_every`, `C58_empty`, `C60_metrics`, `C63_mean`, `C63_sorted_partial`, `C63_sorted_refuted`, `C64_high_refuted`, `C64_integers_partial`, `C65_batch`, `C65_gradient`, `C65_pair`, `C66_gradients_exist`, `C66_metrics`, `C66_td_error_huber`, `C66_td_error_mse`, `C66_update_direction`, `C67_discretized_refuted`, `C67_weights`, `C67_weights_in_range`, `C67_weights_quantile`, `C69_reinforce`, `C70_deterministic`, `C70_rejects`, `C70_soft_type1`, `C70_soft_type2`, `C86_regularizer`, `C86_regularizer_refuted`, `C86_reward`, `C86_transition`, `C87_batch_size_refuted`, `C87_single_refuted`, `C87_square_refuted`, `C89_integer_actions_get_no_small_noise`, `C89_noise_bounded`, `C89_noise_closed_form`, `C89_noise_follows_the_process`, `C89_noise_forgets`, `C89_output_clipped_refuted`, `C89_reset_is_fresh`, `C89_shape_change_rejected`, `C91_batch_is_rows`, `C91_box_clipped`, `C91_discrete_one_hot`, `C91_discrete_start_refuted`, `C91_members_distinguished`, `C91_rejects`, `C94_double_relu_injective`, `C94_double_relu_lossless`, `C95_magnitude_quantiles`, `C95_quantiles_order_free`, `apply_grads_atomic_refuted`, `soft_update_atomic_refuted`, `soft_update_between`, `soft_update_shape_refuted`, `soft_updates_are_smoothing`, `soft_updates_converge`.
* S, N, F (35): `C109_total`, `C110_chances`, `C111_priors`, `C111_total`, `C117_fluctuation`, `C127_values`, `C128_calls`, `C128_fixed`, `C40_post_in_box`, `C41_in_box`, `C41_mode`, `C46_contract_expected`, `C46_expected_sarsa`, `C46_expected_type1_refuted`, `C48_flat`, `C48_gradient`, `C48_inside`, `C48_on_policy`, `C48_pessimistic`, `C48_shapes`, `C48_value`, `C59_cos_embedding`, `C59_documented_frequencies_refuted`, `C62_sample`, `C73_same_partial`, `C82_bins_refuted`, `C83_interval_partial`, `C83_quantile_refuted`, `C84_expectation_partial`, `C84_expectation_refuted`, `C88_expected_loss`, `C95_grads_diagnostics_empty`, `C95_grads_diagnostics_global`, `C95_grads_diagnostics_leaves`, `C95_leaf_norm_bounds`.
* S, N, F, C (265): `C09_add_rejected`, `C09_readding_refuted`, `C09_slots_partial`, `C09_window_partial`, `C103_bellman_solution`, `C103_converges`, `C103_never_worse`, `C103_q_learning`, `C103_rate`, `C104_loop_rate`, `C104_q_learning_optimal`, `C106_per_stub_raises`, `C107_episode_done`, `C107_feedback`, `C107_invalid_raises`, `C107_montecarlo`, `C107_never_raises`, `C107_nstep`, `C108_batch_of_one`, `C108_bounds`, `C108_equal_priorities`, `C108_law`, `C108_position`, `C108_probabilities`, `C108_unbiased_refuted`, `C108_unnormalised_unbiased`, `C109_boltzmann`, `C109_epsilon_greedy`, `C109_policy_call`, `C109_sample`, `C10_large_id_ignored`, `C10_priorities_follow_history`, `C10_stale_id_refuted`, `C10_update_exact`, `C10_update_named_partial`, `C10_update_rejected`, `C110_argmax`, `C110_argmin`, `C110_mode`, `C111_defined`, `C111_density`, `C111_drawn`, `C111_log_proba`, `C111_member`, `C111_mode`, `C111_probability`, `C111_refused`, `C111_start_refuted`, `C112_never_worse`, `C112_optimal`, `C112_rate`, `C113_any_batch`, `C113_never_worse`, `C113_optimal`, `C113_raises`, `C113_rate`, `C114_call`, `C114_call_refuted`, `C114_logp`, `C114_logp_refuted`, `C114_probability`, `C114_ratio`, `C115_model`, `C115_policy`, `C115_stochastic_v`, `C115_transition`, `C115_transition_checks`, `C115_transition_refuted`, `C116_affine`, `C116_affine_box`, `C116_affine_integers`, `C116_affine_keys`, `C116_affine_lengths`, `C116_affine_mismatch`, `C116_affine_nones`, `C116_affine_refuted`, `C116_cross_entropy`, `C116_entropy`, `C116_entropy_bounds`, `C116_kl`, `C116_kl_zero`, `C116_missing_index`, `C116_missing_key`, `C116_mixed`, `C116_value_transform_refused`, `C117_bounded`, `C117_luck_exists`, `C117_luck_limit`, `C117_luck_rate`, `C117_mean`, `C117_mean_solution`, `C117_q_learning_mean_refuted`, `C117_stays_between`, `C118_direction`, `C118_discounted_refuted`, `C118_episode`, `C118_improves`, `C118_improves_layered`, `C118_networks`, `C118_performance`, `C118_row_sums`, `C118_tables`, `C118_undiscounted`, `C119_advantage`, `C119_baseline`, `C119_bounded`, `C119_direction`, `C119_episode`, `C119_gradient`, `C119_huber_refuted`, `C119_improves`, `C11_empty`, `C11_sample`, `C11_weights`, `C120_grads`, `C120_improvement`, `C120_on_policy`, `C120_recorded_partial`, `C120_recorded_refuted`, `C120_stops`, `C120_transitions`, `C120_unbiased`, `C120_update`, `C120_vanilla`, `C122_converges`, `C122_rate`, `C122_soft_values`, `C122_two_steps_refuted`, `C122_update`, `C123_clipped_converges`, `C123_double_converges`, `C124_expected_refuted`, `C124_log_converges`, `C124_noise_refuted`, `C124_soft_refuted`, `C125_boltzmann`, `C125_epsilon_greedy`, `C125_greedy`, `C125_improvement_refuted`, `C125_optimal_play`, `C125_script`, `C125_sharp`, `C126_bias_refuted`, `C126_converges`, `C126_ddpg`, `C126_improves`, `C126_play`, `C126_slow_refuted`, `C126_type2`, `C126_update`, `C128_control`, `C128_converges`, `C128_expected_refuted`, `C128_global`, `C128_inner`, `C128_no_target`, `C128_shapes`, `C128_stationary`, `C128_ties_refuted`, `C128_update`, `C12_alpha_exact`, `C12_base_partial`, `C12_from_start_partial`, `C12_setters`, `C12_small_change_refuted`, `C130_default`, `C130_drift`, `C130_first`, `C130_other_pairs_refuted`, `C130_overshoot`, `C130_returns`, `C130_step`, `C130_tables`, `C130_unvisited`, `C130_update`, `C131_boltzmann`, `C131_epsilon_greedy`, `C131_greedy`, `C131_optimal_play`, `C131_regret`, `C131_reliable_refuted`, `C131_separated`, `C132_average`, `C132_decay_refuted`, `C132_mean_square`, `C132_reliable`, `C132_settles`, `C133_diverges_refuted`, `C133_same_refuted`, `C36_reals`, `C36_reals_onto`, `C37_entropy`, `C37_mode`, `C37_probabilities`, `C37_rejects`, `C37_sample`, `C37_shift_invariant`, `C38_categorical`, `C38_categorical_value`, `C38_composite`, `C38_missing_component`, `C38_normal`, `C39_mean_partial`, `C39_mean_refuted`, `C39_variance`, `C40_error`, `C40_identity`, `C40_post_pre`, `C40_pre_post`, `C41_box_refuted`, `C41_default_clip_refuted`, `C41_mean_refuted`, `C41_product_partial`, `C41_unit_box_partial`, `C42_affine_transform`, `C42_rejects`, `C44_agree`, `C44_closed_range_refuted`, `C44_infinite`, `C44_nonneg`, `C44_proper`, `C44_sign_nonneg`, `C45_bijection`, `C45_formula`, `C45_rejects`, `C46_contract_soft`, `C46_expected_log_refuted`, `C46_soft_q`, `C46_terminal`, `C46_width_checked`, `C47_soft`, `C47_soft_limit`, `C51_boltzmann`, `C51_epsilon_greedy`, `C54_exact`, `C54_identity`, `C54_quantile_refuted`, `C54_refuted`, `C54_transformed_partial`, `C57_box_exact`, `C57_box_partial`, `C57_box_refuted`, `C62_density`, `C62_mode`, `C68_projection_refuted`, `C69_log_proba`, `C69_unbiased`, `C71_call_partial`, `C71_logp_refuted`, `C71_uniform_partial`, `C72_boltzmann`, `C72_epsilon_greedy`, `C72_mode_mean`, `C73_each_action_once_partial`, `C73_refuted`, `C73_sample_partial`, `C74_entropy`, `C74_kl`, `C82_range`, `C84_reward_transform_refuted`, `C85_box`, `C85_box_params_refuted`, `C85_dist_params`, `C85_other_spaces`, `C88_fit_refuted`.

### 4.1 What is modelled, and what is not

The theorems are about the Gallina definitions in the `*Model.v` files.  That these definitions describe the python
code is not proved; it rests on reading.  Every definition names the file and lines it was read from.

| code | modelled in | not modelled |
|------|-------------|--------------|
| `utils/_segment_tree.py` | `SegTreeModel` | `__repr__`; `SumTree.sample` only as inverse_cdf of given draws; float rounding |
| `experience_replay/_simple.py`, `_prioritized.py` | `ReplayModel`, `PrioModel` | the generators themselves (abstract state); python object identity except where a definition says so |
| `reward_tracing/*` | `TracerModel`, `TransModel` | `_get_transition_batch` for nested pytrees beyond lists of rows; the `extra_info` of user subclasses |
| `envs/_connect_four.py` | `ConnectFourModel` | `render`; numpy integer subclasses as actions other than `Z` |
| `utils/_array.py`, `_misc.py`, `_quantile_funcs.py`, `_rolling.py` | `UtilsModel`, `MiscModel` | `generate_gif`, `dump`/`load`, notebook helpers, logging helpers |
| `utils/_action_noise.py`, `utils/_dmc_gym.py` | `MiscModel` | array-valued noise parameters; rendering; dm_control itself |
| `utils/_jit.py`, `_base/test_case.py`, `typing.py` | - | glue around jax, unittest |
| `wrappers/*` | `WrappersModel`, `MiscModel` (`MetaPolicyEnv`) | tensorboard output, logging |
| `proba_dists/*` | `DistModel`, `CompModel`, `DensModel`, `EntModel` | spaces of rank above one; `dmc` spaces |
| `value_losses`, `value_transforms` | `LossModel` | float underflow |
| `_core/q.py`, `v.py`, `base_func.py`, `base_stochastic_func_type{1,2}.py` | `QModel`, `CoreModel`, `PolicyModel`, `StochModel`, `BuildModel` | haiku transforms (a function is an arbitrary map), random keys; the isinstance checks for gymnasium spaces |
| `td_learning/*` | `TDModel` | metrics other than td_error and loss; target network bookkeeping outside `soft_update` |
| `policy_objectives/*`, `regularizers/*`, `_core/value_based_policy.py` | `PolicyModel` | gradient diagnostics |
| `_core/worker.py` | `WorkerModel` | ray itself: remote calls are atomic and never fail |
| `_core/stochastic_*.py`, `successor_state_q.py`, `random_policy.py`, `reward_function.py`, `model_updaters/*` | `StochModel`, `BuildModel`, `MbModel`, `CatModel`, `QrModel` | calls of type-2 dynamics models with nested observation spaces |
| `doc/examples/frozen_lake/qlearning.py` and the like, `td_learning/_base.py` as a whole | `LearnModel` | networks other than one-hot linear layers, optimizers other than SGD; continuous state spaces; noise correlated with the choice of rows (C117) |
| `doc/examples/stubs/reinforce.py` | `PgModel` | optimizers other than SGD, continuous actions (C114), regularizers in the loop; infinite noise |
| `doc/examples/frozen_lake/a2c.py`, `stubs/a2c.py` | `AcModel` | as above; the replay buffer and `sync_shared_params` of stubs/a2c.py; stochastic value functions |
| PPO updates of `doc/examples/stubs/ppo.py` | `PpoModel` | as above; the interplay of acting, buffer and updates; entropy regularizer of atari/ppo.py |
| `td_learning/_base.py` with `policy_regularizer` (one-step updates of tables) | `RegModel` | policies that are trained at the same time; stochastic q-functions with a regularizer |
| `doc/examples/frozen_lake/ddpg.py`: `policy_objectives/_deterministic_pg.py`, QLearning and target networks together | `DpgModel` | Box actions in loops; Adam; the replay buffer (batches are arbitrary); networks other than one-hot linear layers |
| playing an episode with a value-based policy (`doc/examples/frozen_lake/qlearning.py:61-77` and the loops of the other examples) | `PlayModel`, `ChanceModel` (environments with noise) | noise that is not independent from step to step, infinitely many outcomes; truncation other than by the number of steps; policies that are functions of their own |
| learners with `optax.sgd(schedule)` (`td_learning/_base.py:24-45, 60-116`; optax itself by its documentation) | `SchedModel` | schedules combined with momentum or Adam; bootstrapping from a table that changes during training |
| `value_transforms` in training loops (`_qlearning.py`, `_expectedsarsa.py`, `_softqlearning.py`) | `VtModel` | different transforms for q and q_targ; transforms with other algorithms in loops |
| `td_learning/_doubleqlearning.py`, `_clippeddoubleqlearning.py` in training loops | `DblModel` | Box actions (policies in the targets) in loops; stochastic q-functions in loops |
| rounds of `doc/examples/stubs/ppo.py`, `stubs/a2c.py`, `atari/ppo.py` | `RoundModel` | the policy that acts; metrics; soft updates between rounds |
| `doc/examples/cartpole/dqn.py`, `stubs/dqn.py`, `stubs/dqn_per.py`, `atari/dqn_per.py` | `PipeModel` | what the agent chooses and what the environment answers (arbitrary) |
| `doc/examples/cartpole/dqn.py` with the updates | `DqnModel` | networks other than one-hot linear layers, optimizers other than SGD |
| the default optimizer `optax.adam(1e-3)` (`td_learning/_base.py:36`, `policy_objectives/_base.py:42`, `model_updaters/_model_updater.py:63`) | `AdamModel` | optax itself (its documented formulas are taken as given); convergence of the loops with Adam (only recurrence, C130) |
| `doc/examples/atari/dqn_per.py` | `PerModel` | as above; preprocessing of frames, GIFs, record_metrics |

## 5. Findings

Behaviour of the code that contradicts its documentation or the natural reading of its API.  Items with a theorem name
are proved; the others were noticed while reading and are reflected in comments of the model.

**Segment tree.** A non-commutative reducer is applied in the wrong order and a batched `partial_reduce` whose ranges
finish at different times raises IndexError (C03); `partial_reduce(0, 0)` reduces everything instead of an empty range; bounds outside the array wrap modulo the capacity
without an error (C02);
`inverse_cdf(1.0)` returns the last slot of the padded array (C05).

**Replay buffers.** Adding the same one-row object twice, adding it to a second buffer, or assigning `idx` changes the
stored ids (C07, C09); an `add` that is refused has already renumbered the caller's batch (C09); the constructor and `sample` of `SimpleReplayBuffer` overwrite the global random state of
`random`.  `update`: a stale id later in the batch that shares a slot undoes a valid update (C10); ids are cast to
int32; `update([], [])` raises ValueError; ids restart at 0 after `clear`, so that ids sampled before hit new
transitions.  A change of `alpha` below 1% is silently ignored, and priorities below 1e-15 are clamped (C12).  `clear`
reseeds the sampling.

**Reward tracing.** A failing pop loses the step (C18); `NStep(n=0)` is accepted and loses the last step of every episode
(C18); `to_singles` yields first to last although documented in
reverse; `flush` gives every row `idx` 0; `TransitionBatch.__eq__` truncates, ignores missing fields, broadcasts and is
asymmetric (C20).

**ConnectFour.** `set_state` uses `np._base_repr` (AttributeError) and leaves a mixed state behind (C24); the two
observation layers are swapped with respect to the documentation (C56); the first move belongs to player 2.

**Utilities.** `quantiles` starts at 0 and zero draws give repeated fractions (C30); `safe_sample` leaves boxes that do
not contain 0 and ignores `Discrete.start` (C57); `quantile_cos_embedding` uses frequencies 1..n (C59);
`diff_transform_matrix` overflows int32 at about 35 frames; `OrnsteinUhlenbeckNoise` does not clip its output although
the documentation says so.

**Wrappers.** `T` counts resets as well as steps, `avg_G` is a different average than documented (C32); `period` with
p = 1 falls behind (C33); `get_counters` returns the live objects (C35); `info=None` loses `a_orig` (C61);
`MetaPolicyEnv` calls `inspect.getargspec`, which python 3.11 removed; `smoothing=0` divides by zero.

**Distributions.** `NormalDist.affine_transform` does not scale the mean (C39); `SquashedNormalDist.log_proba` is wrong for
boxes other than [-1,1] and raises TypeError with the default `clip_logvar=None` (C41), its `mean` is not the mean of its samples (`C41_mean_refuted`),
its entropies are those of the
unsquashed variable; the quantile transform with a negative scale does not reverse (C63);
`DiscretizedIntervalDist.preprocess_variate` rejects floats and maps the upper end to zeros (C64), one bin divides by
zero; `EmpiricalQuantileDist.sample` draws whole rows across the batch and has no `mode`; the base
`postprocess_variate` ignores `index`.

**Losses.** The docstring of `huber` lacks the factor 1/2 (C43); `logloss` is nan at certain correct predictions (C44).

**TD learning.** Mixed actions average distribution parameters, not distributions (C68); type-1 q-functions are evaluated
at mixed actions (C46, C47); `DoubleQLearning` and discrete `ClippedDoubleQLearning` targets jump (C46);
`ExpectedSarsa` takes the expectation in transformed space (C46); the cross entropy loss of `DiscretizedIntervalDist`
ignores importance weights (C67); the entropy term of a deterministic function is subtracted in transformed space; the
metric `td_error_targ` carries an extra 1/B.

**Policies.** `return_logp` is the log-propensity of the relaxed sample (C71), so the PPO ratio is not 1 on policy; the metric
`kl_div_old` weights by the old policy twice and can be negative (C73); `NStepEntropyRegularizer` is right only for
offsets 0..m-1 and windows that end before the episode (C52); `Regularizer.batch_eval` raises TypeError for type-1
functions (C74); `SoftPG` takes the minimum in transformed space; `DeterministicPG` documents KL[prior, pi] and
computes KL[pi, prior].

**Parameters.** `soft_update` and `apply_grads` are not atomic, and broadcasting can change array shapes (C77);
`PolicyObjective.optimizer = ...` always raises AttributeError and `optimizer_state` is not checked (C76); a copy
draws the same random keys as the original.

**Workers.** Pull and push of the step counter are separate calls: any number of steps can be lost and `T` can decrease
(C53); learners overwrite each other's updates (C81); `buffer_sample` can wait for ever (C79); the default of
`pull_getattr` applies to the last component only (C80); rollouts without environment truncation are joined by the
tracer (C78).

**Stochastic functions and models.** `f_inv` is never applied to the outputs of stochastic value functions (C54);
`StochasticRewardFunction` ignores all arguments but `value_range` (C82); `StochasticQ.mean(s)` with quantiles
repeats the value of action 0 (C83); `SuccessorStateQ` evaluates v at the mean next observation and does not undo a
transform of r (C84); `RandomPolicy` with a discrete space raises AttributeError for `return_logp=True` (C85);
`ModelUpdater` raises UnboundLocalError for a deterministic model with regularizer (C86), is unusable for
`StochasticRewardFunction` (C87), and for stochastic transition models its expected loss decreases with the variance
of the model (C88).

**Helpers.** `OrnsteinUhlenbeckNoise` clips the noise and not the output action, and truncates the noise of integer actions
(C89); `default_preprocessor` ignores `Discrete.start` (C91); `batch_to_single` clamps indices of jax arrays (C93);
`tree_sample` ignores `axis` (C96); `MetaPolicyEnv` needs `inspect.getargspec`, gone since python 3.11 (C97);
`render_episode` fails in its first step for every gymnasium environment (C98); `check_preprocessors` can call a
function that uses its random key different from itself (C99); `make_dmc` ignores the parameters of every call but the
first for a task (C100) and the wrapper reports time limits as terminations (C101).

**Training.** With the bias of the documented networks an update on a true transition can move other values away from the
solution (C103); time limits passed as `done or truncated` bias the values, however many episodes are played (C104).

**Prioritized replay.** The importance weights are divided by the maximum of the sampled batch instead of a constant, so the mean
weighted loss of a batch is not an unbiased estimate of the mean over the buffer, even with beta = 1; a batch of one row
carries weight one, i.e. no correction at all (C108).

**Composite distributions.** Draws for `Discrete(n, start=k)` are counted from 0, so that a policy for such an action space returns
actions outside of it (C111).  `affine_transform` of a composite distribution adds the shift but does not scale the mean, accepts no
`value_transform` at all (jit without static arguments), and raises for any integer component (C116).

**Continuous actions.** `log_proba` of a preprocessed action is the log-density of the raw (logit) coordinate, without the Jacobian
of the squashing: it is not the log-density of the action (C114).  Ratios of two policies are not affected; entropies and
SAC-like targets are shifted.

**Constructors.** `Q` (hence `RewardFunction`) and `TransitionModel` initialise and check the function on observations preprocessed with
the default preprocessor, not with the given `observation_preprocessor`: functions that never work are accepted and working ones are
refused (C115).  `SuccessorStateQ` cannot be built with a `StochasticTransitionModel`, which it explicitly allows: it reads the missing
attribute `observation_postprocessor` (C84).

**Scripts.** stubs/dqn.py, dqn_per.py, sarsa.py, ddpg.py, td3.py, iqn.py, dmc/sac.py, pendulum/{sac,dsac,ddpg,td3,td4}.py,
frozen_lake/{a2c,ppo}.py and atari/{ppo,ddpg}.py pass `done` alone to the tracer and do not reset it: after a truncated
episode they train on a transition from its last state to the first state of the next episode (C106).  stubs/dqn.py and ddpg.py call
`buffer.sample(batch_size=32)` after the first step, which raises ValueError; stubs/dqn_per.py raises RuntimeError there
(C106).

**Stochastic environments.** With a constant learning rate QLearning overestimates in the mean for ever: in the two-state environment of
`C117_q_learning_mean_refuted` all optimal values are 0 and the mean of Q(0, 0) is 1/4 after any number of rounds.  The mean square
deviation of a value tends to lr / (2 - lr) times the variance of the reward, not to 0 (C117_fluctuation).

**Policy gradients.** The documented REINFORCE loop cites Sutton & Barto, section 13.3, whose update has the factor gamma^t; the loop does
not.  For gamma < 1 the mean update is therefore not the gradient of the expected discounted return, and it can make that return worse for
all small learning rates (C118_discounted_refuted: two steps, gamma = 1/2, one parameter: gradient 1/16, mean direction -1/8).
The A2C examples use SimpleTD with its default loss huber(delta=1) and pass its td_error to VanillaPG as the advantage.  That td_error is minus
the derivative of the loss, hence clipped to [-1, 1], and not the G - v(s) of stubs/a2c.rst; even with an exact critic the mean update can make the
return worse (C119_huber_refuted: an arm with reward 10 of probability 1/5 against an arm with reward 1; gradient 1/4, mean direction -1/40).
PPO-clip in the examples uses the log-propensity returned by `policy(s, return_logp=True)`, which is that of a relaxed sample (C71).  For two actions
with logits further apart than 2 ln(1 + epsilon) (0.36 for the default) there is an open set of draws for which the ratio of the unchanged policy is
already above 1 + epsilon: the transition is ignored from the first update on (C120_recorded_refuted).
The PPO and A2C loops with a buffer lose up to n transitions per round: if an episode ends while the buffer is nearly full, n + 1 transitions are popped
at once and the oldest are dropped before the length is compared with the capacity (C121_dropped_refuted).  With a capacity below 8 the stubs never update
(4 * capacity // 32 = 0), with 8 to 31 the first round raises ValueError (C121).
TD learning with an EntropyRegularizer adds the bonus of the state of the transition, not of its next state, and also at the end of an episode; the learned
values are the soft values of the literature plus the bonus of the state itself (C122_soft_values).  With n-step transitions, n >= 2, the entropies in
between are missing and the learned values are not soft values of any kind for the same policy (C122_two_steps_refuted); the SAC examples use n = 5 with
NStepEntropyRegularizer(n=[tracer.n]), which adds the entropy of the last state only.

**Double Q-learning.** `DoubleQLearning` with a target network and `ClippedDoubleQLearning` are not contractions: the greedy action of one table can
be arbitrarily bad according to the other.  For every gamma in (1/2, 1) there is an environment with two states in which both run through a cycle of
tables with a wrong greedy action for ever, although every pair is updated exactly and the target networks are synchronised in every round
(C123_double_cycle_refuted, C123_clipped_cycle_refuted); QLearning converges there.  The cycle needs an order of updates in which one pair is updated
several times between two synchronisations; `DoubleQLearning` without q_targ is as safe as QLearning (C123_double_alone), and overestimation vanishes
in every order (C123_double_converges).

**Value transforms (C124).**  Only QLearning in deterministic environments learns the untransformed values.  ExpectedSarsa averages transformed
values over the actions (_expectedsarsa.py:114-118), so that LogTransform makes it learn values that depend on the initial parameters and are wrong
for every initial table (C124_expected_refuted: 0 or 3 instead of 25/3).  SoftQLearning takes the log-sum-exp of transformed values
(_softqlearning.py:102), which is a p-norm of the values and expands: without any reward the values grow without bound for gamma >= 1/2
(C124_soft_refuted).  With noisy rewards the loss averages transformed targets and QLearning converges to the wrong value (C124_noise_refuted: 1
instead of 3/2).

**Improvement (C125).**  The greedy agent of a q-function can get worse by an exact update on a genuine transition, although all errors shrink
(C125_improvement_refuted): lowering an overestimated best action below an overestimated bad one.  In the limit this cannot happen (C125_script).

**DDPG with discrete actions (C126).**  The loop of frozen_lake/ddpg.py learns optimal actions from any tables (C126_ddpg, C126_play), but no
number of updates is enough for all initial tables (C126_slow_refuted): DeterministicPG follows the gradient of a softmax, which vanishes when the policy is
sure of the wrong action.  The bias of hk.Linear couples the states: an update on one state can lower the value of another (C126_bias_refuted).
`pi_targ`, which the script passes to QLearning and keeps synchronised, is not looked at in discrete action spaces (_qlearning.py:107-128).

- **C127**: `SuccessorStateQ(v, p, r, gamma)` has no notion of the end of an episode, and the tracers record the last
  state of an episode as its own successor.  So q(s,a) of an action that ends the episode tends to its mean reward plus
  `gamma*v(s)` instead of its mean reward (`C127_terminal`); with two states a greedy agent takes the wrong action from
  some number of updates on, for all learning rates, losses and initial tables (`C127_episodes_refuted`).
- **C128**: distributional updates ignore the importance weights `W` (only their shape is checked), so prioritized
  replay is not corrected for a categorical `StochasticQ` (`C128_update` has no weights in it). When the next action is a
  mixture of actions, `function_type1` mixes the logits: the target is a geometric mixture, and its mean is wrong even if
  all the actions have the same value. This concerns ties in `QLearning` (`C128_ties_refuted`) and every target of
  `ExpectedSarsa` (`C128_expected_refuted`; doc/examples/frozen_lake/stochastic_expected_sarsa.py).
- **C129**: on data with random rewards the limit of quantile TD learning is not unique and its mean is not the action
  value (`C129_limits_refuted`): with four rewards 0, 10, 20, 30 and the fractions 1/4 and 3/4, the values [1; 21] and
  [9; 29] (means 11 and 19) are never changed by any update, while the mean of the data is 15.  `q.mean`, and with it
  greedy policies, therefore depend on the initial values.  On deterministic data the limit is right (`C129_converges`).
- **C130**: with the default optimizer (Adam) an update also changes the values of pairs that are not in its batch
  (`C130_other_pairs_refuted`: in every update after the first gradient of the pair), and takes a value that is almost right
  away from its target (`C130_overshoot`).  C102 to C104, C127 to C129 are about SGD, for which neither happens.
- **C131**: in a stochastic environment, training with a constant learning rate does not make a greedy agent reliable,
  however long (`C131_reliable_refuted`): the probability that it takes the worse action stays above a positive constant.
- **C132**: a learning rate schedule must not decay too fast: with the positive rates 1/2, 1/4, 1/8, ... a value never gets
  near its targets (`C132_decay_refuted`), without any sign of it.  Exponential decay schedules are of this kind.
- **C133**: nothing checks that `q` and `q_targ` have the same value transform.  `soft_update` (documented for a copy of the same object) mixes parameters, so with
  different transforms a synchronised `q_targ` returns other numbers than `q` (`C133_same_refuted`) and training can diverge
  even when all rewards are 0 (`C133_diverges_refuted`).

## 6. Mutation testing

`seeded/LOG.jsonl` has one line per seeded bug: the definition edited, the edit, the claim it breaks, the theorems that
no longer compile and the theorems tightened because of it.  Bugs that no theorem noticed led to new or stronger
theorems, or are recorded as equivalent with the reason.

{
 "claims": [
  {
   "property": "C01",
   "status": "proved",
   "theorems": [
    "C01_values_follow_history",
    "C01_root_is_reduction",
    "C01_nodes_are_reductions",
    "C01_level_indices",
    "C01_min_max_root"
   ],
   "note": ""
  },
  {
   "property": "C02",
   "status": "proved",
   "theorems": [
    "C02_partial_reduce_commutative",
    "C02_partial_reduce_refuted",
    "C02_stop_zero_means_end",
    "C02_empty_range_rejected",
    "C02_min_max_range",
    "C02_bounds_wrap"
   ],
   "note": "proved for associative and commutative reducers; the documented claim for every associative reducer is refuted (the right end is accumulated in reverse order)"
  },
  {
   "property": "C03",
   "status": "partial",
   "theorems": [
    "C03_batched_partial_reduce_characterised",
    "C03_batched_partial_reduce_refuted"
   ],
   "note": "false as stated: refuted with a witness; the exact set of failing batches is proved (bad_batch), all other batches are computed entry by entry"
  },
  {
   "property": "C04",
   "status": "proved",
   "theorems": [
    "C04_inverse_cdf_brackets",
    "C04_inverse_cdf_interval",
    "C04_no_mass_raises"
   ],
   "note": "exact real arithmetic; float rounding is outside the model"
  },
  {
   "property": "C05",
   "status": "partial",
   "theorems": [
    "C05_total_on_unit_interval_refuted",
    "C05_inverse_cdf_at_one",
    "C05_out_of_range_rejected"
   ],
   "note": "false as stated: u = 1 returns an index >= capacity; exact behaviour at u = 1 is proved, [0,1) is covered by C04"
  },
  {
   "property": "C06",
   "status": "proved",
   "theorems": [
    "C06_rejected_call_changes_nothing",
    "C06_indices_wrap_like_python",
    "C06_wrong_length_changes_nothing"
   ],
   "note": ""
  },
  {
   "property": "C07",
   "status": "partial",
   "theorems": [
    "C07_window_partial",
    "C07_readding_refuted"
   ],
   "note": "proved for every program that does not re-add, or renumber, a one-row object that is stored at that moment; without the restriction it is refuted (add stores the caller's object and overwrites its idx)"
  },
  {
   "property": "C08",
   "status": "proved",
   "theorems": [
    "C08_isolated",
    "C08_sample_distinct",
    "C08_global_state_overwritten",
    "C08_outputs"
   ],
   "note": "random.sample is an arbitrary function with its documented contract; also proved: the buffer overwrites the global generator state"
  },
  {
   "property": "C09",
   "status": "partial",
   "theorems": [
    "C09_window_partial",
    "C09_slots_partial",
    "C09_readding_refuted",
    "C09_add_rejected"
   ],
   "note": "same restriction and same refutation as C07"
  },
  {
   "property": "C10",
   "status": "partial",
   "theorems": [
    "C10_update_exact",
    "C10_update_rejected",
    "C10_update_named_partial",
    "C10_priorities_follow_history",
    "C10_stale_id_refuted",
    "C10_large_id_ignored"
   ],
   "note": "exact rule proved for every batch; the documented rule holds for int32 ids that do not collide modulo the capacity and is refuted otherwise"
  },
  {
   "property": "C11",
   "status": "proved",
   "theorems": [
    "C11_sample",
    "C11_weights",
    "C11_empty",
    "C11_batch_size_zero"
   ],
   "note": "exact real arithmetic"
  },
  {
   "property": "C12",
   "status": "partial",
   "theorems": [
    "C12_alpha_exact",
    "C12_base_partial",
    "C12_from_start_partial",
    "C12_small_change_refuted",
    "C12_setters",
    "C12_constructor"
   ],
   "note": "exact rule proved; the documented claim holds when the change exceeds 1% and no priority is below 1e-15, refuted for smaller changes"
  },
  {
   "property": "C13",
   "status": "proved",
   "theorems": [
    "C13_nstep_episode"
   ],
   "note": "Exact reals; steps valid (logp <= 0, native positive weight, gamma in [0,1])."
  },
  {
   "property": "C14",
   "status": "proved",
   "theorems": [
    "C14_any_schedule",
    "C14_schedule_independent",
    "C14_add_rejected"
   ],
   "note": "All add/pop programs with valid steps; in-order, exactly-once for the drained prefix and independence of the schedule."
  },
  {
   "property": "C15",
   "status": "proved",
   "theorems": [
    "C15_montecarlo_episode",
    "C15_any_schedule",
    "C15_add_rejected"
   ],
   "note": "Exact reals."
  },
  {
   "property": "C16",
   "status": "proved",
   "theorems": [
    "C16_consistent",
    "C16_flushed"
   ],
   "note": "Exact reals."
  },
  {
   "property": "C17",
   "status": "proved",
   "theorems": [
    "C17_extra_info",
    "C13_nstep_episode"
   ],
   "note": "The transitions are those of C13 with record_extra_info."
  },
  {
   "property": "C18",
   "status": "partial",
   "theorems": [
    "C18_failing_pop_loses_data_refuted",
    "C18_failing_pop_exact",
    "C18_not_ready",
    "C18_zero_steps"
   ],
   "note": "False as stated: a pop whose data from_single rejects loses one step. Proved: InsufficientCacheError changes nothing, any other failure removes exactly the one step."
  },
  {
   "property": "C19",
   "status": "proved",
   "theorems": [
    "C19_to_singles",
    "C19_from_single",
    "C19_concatenation",
    "C19_concatenation_rejected",
    "C19_defaults"
   ],
   "note": "Pytrees of arrays seen as lists of rows."
  },
  {
   "property": "C20",
   "status": "partial",
   "theorems": [
    "C20_different_structure_refuted",
    "C20_symmetric_refuted",
    "C20_eq_same_shape_partial",
    "C20_refl_partial"
   ],
   "note": "False as stated (missing fields, broadcasting, asymmetric tolerance). Proved for batches with the same structure and batch size: == iff all entries close; reflexive."
  },
  {
   "property": "C21",
   "status": "proved",
   "theorems": [
    "C21_result"
   ],
   "note": "For every legal state; all reachable states are legal (C22_reachable_legal)."
  },
  {
   "property": "C22",
   "status": "proved",
   "theorems": [
    "C22_reachable_legal",
    "C22_available",
    "C22_tokens_stay"
   ],
   "note": "Integer actions."
  },
  {
   "property": "C23",
   "status": "proved",
   "theorems": [
    "C23_games_end",
    "C23_rejected"
   ],
   "note": "Integer actions."
  },
  {
   "property": "C24",
   "status": "partial",
   "theorems": [
    "C24_set_state_refuted",
    "C24_missing_attribute",
    "C24_roundtrip_partial",
    "C24_ids_distinct",
    "C24_id_length"
   ],
   "note": "set_state uses np._base_repr, which numpy does not have: it raises AttributeError and leaves a mixed state. Proved: the round trip if that attribute were numpy.base_repr, and that ids of distinct reachable states are distinct."
  },
  {
   "property": "C56",
   "status": "partial",
   "theorems": [
    "C56_observation",
    "C56_documented_orientation_refuted"
   ],
   "note": "Mask row as documented; the two layers are swapped with respect to the documentation. The exact behaviour is proved."
  },
  {
   "property": "C25",
   "status": "proved",
   "theorems": [
    "C25_chunks_pow2"
   ],
   "note": "Batches of at least one row."
  },
  {
   "property": "C26",
   "status": "proved",
   "theorems": [
    "C26_knots",
    "C26_flat_before",
    "C26_flat_after",
    "C26_linear_between",
    "C26_range",
    "C26_rejects"
   ],
   "note": "Exact real arithmetic."
  },
  {
   "property": "C27",
   "status": "proved",
   "theorems": [
    "C27_diff_transform"
   ],
   "note": "Exact integer matrix; the int32 overflow for large n is not modelled."
  },
  {
   "property": "C28",
   "status": "proved",
   "theorems": [
    "C28_rolling",
    "C28_exponential"
   ],
   "note": "Exact real arithmetic."
  },
  {
   "property": "C29",
   "status": "proved",
   "theorems": [
    "C29_sync",
    "C29_merge",
    "C29_merge_is_dict"
   ],
   "note": "Positive weights and equal structures."
  },
  {
   "property": "C30",
   "status": "partial",
   "theorems": [
    "C30_uniform_partial",
    "C30_uniform_strict_refuted",
    "C30_quantiles_partial",
    "C30_quantiles_positive_refuted"
   ],
   "note": "False as stated: zero draws give repeated or zero fractions, and quantiles starts at 0. Proved: the exact conditions."
  },
  {
   "property": "C57",
   "status": "partial",
   "theorems": [
    "C57_box_partial",
    "C57_box_refuted",
    "C57_discrete_refuted",
    "C57_box_exact"
   ],
   "note": "False for boxes that do not contain 0 and for Discrete spaces with a nonzero start; proved for boxes containing 0."
  },
  {
   "property": "C58",
   "status": "proved",
   "theorems": [
    "C58_argmax",
    "C58_argmax_every",
    "C58_argmin",
    "C58_argmin_every",
    "C58_empty"
   ],
   "note": "Noise bounded by 50, as float32 gumbel noise is."
  },
  {
   "property": "C59",
   "status": "partial",
   "theorems": [
    "C59_cos_embedding",
    "C59_documented_frequencies_refuted"
   ],
   "note": "The code uses frequencies 1..n where the documentation says 0..n-1; the exact behaviour is proved."
  },
  {
   "property": "C31",
   "status": "proved",
   "theorems": [
    "C31_frames",
    "C31_frame_k",
    "C31_rejects"
   ],
   "note": ""
  },
  {
   "property": "C32",
   "status": "partial",
   "theorems": [
    "C32_counters",
    "C32_total",
    "C32_avg_G_mean",
    "C32_T_counts_steps_refuted",
    "C32_avg_over_100_refuted",
    "C32_info"
   ],
   "note": "All counters characterised for every history. False parts of the documentation: T also counts resets; avg_G is not an average over 100 episodes."
  },
  {
   "property": "C33",
   "status": "partial",
   "theorems": [
    "C33_never_too_often",
    "C33_once_per_period",
    "C33_catches_up",
    "C33_zero_rejected",
    "C33_after_every_step",
    "C33_after_every_step_refuted"
   ],
   "note": "Both counters. Polling once per step is enough for p >= 2; for p = 1 it falls behind because resets also count."
  },
  {
   "property": "C34",
   "status": "proved",
   "theorems": [
    "C34_distribution",
    "C34_distinct_positions",
    "C34_uniform",
    "C34_draws",
    "C34_size"
   ],
   "note": ""
  },
  {
   "property": "C35",
   "status": "partial",
   "theorems": [
    "C35_file",
    "C35_file_fresh",
    "C35_memory_partial",
    "C35_memory_refuted"
   ],
   "note": "True through a file; in memory the snapshot shares the mutable attributes, so only the numbers are restored."
  },
  {
   "property": "C36",
   "status": "proved",
   "theorems": [
    "C36_reals",
    "C36_reals_onto",
    "C36_discrete",
    "C36_discrete_recover",
    "C36_discrete_onto",
    "C36_num_bins"
   ],
   "note": "Exact reals."
  },
  {
   "property": "C60",
   "status": "proved",
   "theorems": [
    "C60_metrics"
   ],
   "note": ""
  },
  {
   "property": "C61",
   "status": "partial",
   "theorems": [
    "C61_a_orig",
    "C61_none_refuted"
   ],
   "note": "False when the environment returns info=None (the new dict is not returned); proved for an info dict."
  },
  {
   "property": "C37",
   "status": "proved",
   "theorems": [
    "C37_probabilities",
    "C37_shift_invariant",
    "C37_mode",
    "C37_sample",
    "C37_entropy",
    "C37_roundtrip",
    "C37_rejects"
   ],
   "note": "Exact reals."
  },
  {
   "property": "C38",
   "status": "proved",
   "theorems": [
    "C38_categorical",
    "C38_categorical_value",
    "C38_normal",
    "C38_composite",
    "C38_missing_component"
   ],
   "note": "Exact reals; logvar after clipping, as in the code."
  },
  {
   "property": "C39",
   "status": "partial",
   "theorems": [
    "C39_mean_refuted",
    "C39_mean_partial",
    "C39_variance"
   ],
   "note": "False: the mean is not scaled. Proved: the mean is right iff scale = 1 or mean = 0, and the variance is scale^2 times the old one, up to clipping."
  },
  {
   "property": "C40",
   "status": "proved",
   "theorems": [
    "C40_post_in_box",
    "C40_post_pre",
    "C40_identity",
    "C40_error",
    "C40_pre_post"
   ],
   "note": "Exact reals, default clip_reals for the round trips."
  },
  {
   "property": "C41",
   "status": "partial",
   "theorems": [
    "C41_unit_box_partial",
    "C41_product_partial",
    "C41_box_refuted",
    "C41_default_clip_refuted",
    "C41_in_box",
    "C41_mode",
    "C41_mean_refuted"
   ],
   "note": "False for boxes other than [-1,1] (the variate is not scaled back, the Jacobian lacks the scale) and for the default clip_logvar=None (TypeError). Proved for the unit box. mean is the image of mu (C41_mode), not the mean of the samples (C41_mean_refuted). Boxes of rank above one are not modelled."
  },
  {
   "property": "C42",
   "status": "proved",
   "theorems": [
    "C42_shares",
    "C42_mass_and_mean",
    "C42_affine_transform",
    "C42_rejects"
   ],
   "note": "At least two bins (with one bin the code divides by zero)."
  },
  {
   "property": "C62",
   "status": "proved",
   "theorems": [
    "C62_density",
    "C62_sample",
    "C62_mode",
    "C62_mean_rejects"
   ],
   "note": "Exact reals."
  },
  {
   "property": "C63",
   "status": "partial",
   "theorems": [
    "C63_mean",
    "C63_sorted_partial",
    "C63_sorted_refuted"
   ],
   "note": "False for negative scales: the values are not reversed, so they no longer belong to their quantile fractions. Proved for scale >= 0."
  },
  {
   "property": "C64",
   "status": "partial",
   "theorems": [
    "C64_integers_partial",
    "C64_floats_refuted",
    "C64_high_refuted"
   ],
   "note": "False for floats (AssertionError) and at the upper end of the interval; proved for integers in [low, high)."
  },
  {
   "property": "C43",
   "status": "proved",
   "theorems": [
    "C43_huber",
    "C43_mse",
    "C43_docstring_refuted"
   ],
   "note": "Everything in the statement is proved; the formula printed in the docstring of huber (without 1/2 in the quadratic part) is refuted."
  },
  {
   "property": "C44",
   "status": "partial",
   "theorems": [
    "C44_agree",
    "C44_nonneg",
    "C44_proper",
    "C44_sign_nonneg",
    "C44_infinite",
    "C44_closed_range_refuted"
   ],
   "note": "Proved for probabilities strictly inside (0,1); on the documented closed range certain predictions give nan."
  },
  {
   "property": "C45",
   "status": "proved",
   "theorems": [
    "C45_bijection",
    "C45_formula",
    "C45_rejects"
   ],
   "note": "Exact reals."
  },
  {
   "property": "C65",
   "status": "proved",
   "theorems": [
    "C65_batch",
    "C65_pair",
    "C65_gradient"
   ],
   "note": "Exact reals."
  },
  {
   "property": "C50",
   "status": "proved",
   "theorems": [
    "C50_type2_view",
    "C50_type1_view",
    "C50_type1_view_dist",
    "C50_back_and_forth",
    "C50_call",
    "C50_rejects",
    "C50_replicas",
    "C50_batch_sizes"
   ],
   "note": "Networks act row by row."
  },
  {
   "property": "C68",
   "status": "partial",
   "theorems": [
    "C68_projection_refuted"
   ],
   "note": "False: for mixed actions (ties, ExpectedSarsa) the distribution parameters are averaged, not the distributions."
  },
  {
   "property": "C46",
   "status": "partial",
   "theorems": [
    "C46_simple_td",
    "C46_sarsa",
    "C46_sarsa_continuous",
    "C46_expected_sarsa",
    "C46_q_learning",
    "C46_q_learning_continuous",
    "C46_soft_q",
    "C46_terminal",
    "C46_contract_simple",
    "C46_contract_sarsa",
    "C46_contract_q_learning",
    "C46_contract_expected",
    "C46_contract_soft",
    "C46_clipped_continuous",
    "C46_contract_clipped",
    "C46_contract_double_refuted",
    "C46_contract_clipped_refuted",
    "C46_expected_log_refuted",
    "C46_expected_type1_refuted",
    "C46_width_checked"
   ],
   "note": "False for DoubleQLearning and discrete ClippedDoubleQLearning (the target jumps with the argmax), for ExpectedSarsa with LogTransform (expectation in transformed space) and with type-1 q-functions (evaluated at mixed actions). The target formula, the terminal rows and the other contractions are proved."
  },
  {
   "property": "C47",
   "status": "proved",
   "theorems": [
    "C47_maximum",
    "C47_unique",
    "C47_type1_ties_refuted",
    "C47_soft",
    "C47_soft_limit",
    "C47_clipped",
    "C47_clipped_needs_two",
    "C47_clipped_choice"
   ],
   "note": "Everything in the statement is proved; for type-1 q-functions with ties the maximum is refuted."
  },
  {
   "property": "C66",
   "status": "proved",
   "theorems": [
    "C66_td_error_mse",
    "C66_td_error_huber",
    "C66_gradients_exist",
    "C66_update_direction",
    "C66_metrics"
   ],
   "note": "Exact reals; jax.grad is any list of the partial derivatives."
  },
  {
   "property": "C67",
   "status": "partial",
   "theorems": [
    "C67_weights",
    "C67_weights_in_range",
    "C67_weights_quantile",
    "C67_discretized_refuted"
   ],
   "note": "False for DiscretizedIntervalDist: its cross entropy loss ignores the weights."
  },
  {
   "property": "C48",
   "status": "proved",
   "theorems": [
    "C48_value",
    "C48_pessimistic",
    "C48_inside",
    "C48_bound_is_tight",
    "C48_flat",
    "C48_gradient",
    "C48_on_policy",
    "C48_weights",
    "C48_shapes",
    "C48_vanilla_shapes"
   ],
   "note": "Exact reals; the log-probabilities are arbitrary functions of the parameter."
  },
  {
   "property": "C51",
   "status": "proved",
   "theorems": [
    "C51_epsilon_greedy",
    "C51_boltzmann"
   ],
   "note": "Exact reals. boltzmann n z is the softmax of the returned logits."
  },
  {
   "property": "C52",
   "status": "partial",
   "theorems": [
    "C52_consecutive_partial",
    "C52_unfinished_partial",
    "C52_general",
    "C52_gaps_refuted",
    "C52_nan",
    "C52_categorical_refuted"
   ],
   "note": "False in general: correct for offsets 0..m-1 and for windows that end before the episode does; every other ascending choice of offsets is wrong for some episode; unsorted or unrecorded offsets give nan; categorical policies are rejected."
  },
  {
   "property": "C69",
   "status": "proved",
   "theorems": [
    "C69_reinforce",
    "C69_unbiased",
    "C69_log_proba"
   ],
   "note": "The unbiasedness theorem is for categorical policies."
  },
  {
   "property": "C70",
   "status": "proved",
   "theorems": [
    "C70_deterministic",
    "C70_soft_type1",
    "C70_soft_type2",
    "C70_rejects"
   ],
   "note": "Deterministic q-functions without value transform (the code does not invert it)."
  },
  {
   "property": "C71",
   "status": "partial",
   "theorems": [
    "C71_call_partial",
    "C71_uniform_partial",
    "C71_logp_refuted"
   ],
   "note": "False: the log-propensity is that of the relaxed Gumbel-softmax sample. Proved: bounds, convergence for small tau, exactness for uniform policies."
  },
  {
   "property": "C72",
   "status": "proved",
   "theorems": [
    "C72_mode_mean",
    "C72_epsilon_greedy",
    "C72_boltzmann"
   ],
   "note": "Categorical policies; eps < 1."
  },
  {
   "property": "C73",
   "status": "partial",
   "theorems": [
    "C73_sample_partial",
    "C73_each_action_once_partial",
    "C73_same_partial",
    "C73_refuted"
   ],
   "note": "False for batches drawn from the old policy (the probability enters twice)."
  },
  {
   "property": "C74",
   "status": "partial",
   "theorems": [
    "C74_entropy",
    "C74_kl",
    "C74_batch_eval",
    "C74_batch_eval_type1_refuted"
   ],
   "note": "The loss formulas are proved; batch_eval fails for type-1 functions."
  },
  {
   "property": "C49",
   "status": "proved",
   "theorems": [
    "soft_update_formula",
    "soft_update_between",
    "soft_updates_are_smoothing",
    "soft_updates_converge",
    "soft_update_other_class",
    "soft_update_other_structure"
   ],
   "note": "For functions of the same class and array shapes; arrays of rank 1."
  },
  {
   "property": "C55",
   "status": "proved",
   "theorems": [
    "update_with_nan",
    "update_with_failing_grads",
    "update_without_nan",
    "update_all_or_params",
    "update_atomic_for_lawful_optimizers"
   ],
   "note": "The random key moves also when update raises. Atomicity for other failures than nan is C77."
  },
  {
   "property": "C75",
   "status": "proved",
   "theorems": [
    "copies_are_independent",
    "copies_draw_the_same_keys",
    "structure_is_kept"
   ],
   "note": "Attributes other than class, params, function_state and random key are not modelled."
  },
  {
   "property": "C76",
   "status": "partial",
   "theorems": [
    "learner_structure_is_kept",
    "optimizer_state_fits",
    "policy_optimizer_never_replaced",
    "setters_check_structure",
    "optimizer_setter",
    "policy_optimizer_state_refuted"
   ],
   "note": "True for TD learners and model updaters; PolicyObjective does not check optimizer_state and its optimizer setter always raises AttributeError."
  },
  {
   "property": "C77",
   "status": "partial",
   "theorems": [
    "soft_update_formula",
    "update_atomic_for_lawful_optimizers",
    "update_all_or_params",
    "soft_update_atomic_refuted",
    "soft_update_shape_refuted",
    "apply_grads_atomic_refuted"
   ],
   "note": "False in general; true for matching shapes and lawful optimizers; params are never changed by an update that raises."
  },
  {
   "property": "C53",
   "status": "partial",
   "theorems": [
    "C53_never_overcounts",
    "C53_exact_if_uninterrupted_partial",
    "C53_single_worker_exact",
    "C53_refuted",
    "C53_final_refuted",
    "C53_bounded",
    "C53_stop_partial"
   ],
   "note": "False: pull and push are separate, so steps are lost and T can decrease, by any amount. Proved for all interleavings: never overcounts, bounded overshoot, termination; exact without interruption."
  },
  {
   "property": "C78",
   "status": "partial",
   "theorems": [
    "C78_rollout",
    "C78_rollouts_are_episodes",
    "C78_cut_refuted"
   ],
   "note": "One episode per rollout only if the environment itself truncates at max_episode_steps; otherwise the tracer joins rollouts."
  },
  {
   "property": "C79",
   "status": "partial",
   "theorems": [
    "C79_waits_until_filled",
    "C79_returns",
    "C79_store_does_not_wait",
    "C79_small_buffer_refuted",
    "C79_store_blocks_refuted"
   ],
   "note": "Waits for ever if the capacity is below warmup or batch size, or if the parameter store has a larger warmup than the buffer length at the time of the call."
  },
  {
   "property": "C80",
   "status": "partial",
   "theorems": [
    "C80_get",
    "C80_set",
    "C80_default",
    "C80_default_refuted"
   ],
   "note": "The default applies to the last component only."
  },
  {
   "property": "C81",
   "status": "partial",
   "theorems": [
    "C81_single_learner",
    "C81_no_mixed_states",
    "C81_lost_updates_refuted"
   ],
   "note": "True for one learner; with two, updates are lost. No mixtures in any interleaving."
  },
  {
   "property": "C54",
   "status": "partial",
   "theorems": [
    "C54_identity",
    "C54_transformed_partial",
    "C54_refuted",
    "C54_quantile_refuted",
    "C54_range_checked",
    "C54_exact"
   ],
   "note": "True without a transform. With a transform the outputs stay in the transformed space; f_inv is never applied."
  },
  {
   "property": "C82",
   "status": "partial",
   "theorems": [
    "C82_range",
    "C82_arguments_refuted",
    "C82_bins_refuted"
   ],
   "note": "All arguments except value_range are ignored."
  },
  {
   "property": "C83",
   "status": "partial",
   "theorems": [
    "C83_interval_partial",
    "C83_quantile_refuted",
    "C83_continuous",
    "C83_quantile_mode_refuted"
   ],
   "note": "True for discretized intervals; for quantile distributions every entry is the mean of action 0."
  },
  {
   "property": "C84",
   "status": "partial",
   "theorems": [
    "C84_formula",
    "C84_views",
    "C84_expectation_partial",
    "C84_expectation_refuted",
    "C84_reward_transform_refuted",
    "C84_continuous",
    "C84_constructor",
    "C84_stochastic_refuted"
   ],
   "note": "The code uses v at the mean next observation: equal to the expectation for affine v on one-hot states (or deterministic p). A transform of r itself is not undone. The constructor raises AttributeError for every StochasticTransitionModel (C84_stochastic_refuted)."
  },
  {
   "property": "C85",
   "status": "partial",
   "theorems": [
    "C85_box",
    "C85_dist_params",
    "C85_discrete_refuted",
    "C85_box_params_refuted",
    "C85_other_spaces"
   ],
   "note": "Box log-density and discrete dist_params are uniform; return_logp raises for Discrete, dist_params of a box are not uniform."
  },
  {
   "property": "C86",
   "status": "partial",
   "theorems": [
    "C86_reward",
    "C86_transition",
    "C86_regularizer",
    "C86_regularizer_refuted"
   ],
   "note": "mse and huber. With a regularizer the update of a deterministic model raises UnboundLocalError."
  },
  {
   "property": "C87",
   "status": "partial",
   "theorems": [
    "C87_batch_size_refuted",
    "C87_single_refuted",
    "C87_square_refuted"
   ],
   "note": "False: raises unless the batch size is 1 or the number of bins, and then does not measure the prediction error."
  },
  {
   "property": "C88",
   "status": "partial",
   "theorems": [
    "C88_expected_loss",
    "C88_fit_refuted"
   ],
   "note": "False for normal distributions: smaller variances always have smaller expected loss."
  },
  {
   "property": "C89",
   "status": "partial",
   "theorems": [
    "C89_noise_follows_the_process",
    "C89_noise_closed_form",
    "C89_noise_bounded",
    "C89_noise_forgets",
    "C89_reset_is_fresh",
    "C89_shape_change_rejected",
    "C89_output_clipped_refuted",
    "C89_integer_actions_get_no_small_noise"
   ],
   "note": "The process is proved for float actions. False: the noise is clipped, not the output action; for integer actions the draws are truncated to integers."
  },
  {
   "property": "C90",
   "status": "partial",
   "theorems": [
    "C90_get_env_attr_outermost",
    "C90_has_iff_get",
    "C90_found_at_any_depth_refuted"
   ],
   "note": "Proved for every max_depth; attributes below layer 100 are not found with the default."
  },
  {
   "property": "C91",
   "status": "partial",
   "theorems": [
    "C91_batch_is_rows",
    "C91_members_distinguished",
    "C91_box_clipped",
    "C91_discrete_one_hot",
    "C91_discrete_start_refuted",
    "C91_rejects"
   ],
   "note": "Injective for zero-based Discrete spaces; False for Discrete(n, start=k)."
  },
  {
   "property": "C92",
   "status": "proved",
   "theorems": [
    "C92_unvectorize_inverts",
    "C92_unvectorize_errors",
    "C92_squeeze_expand",
    "C92_axis_errors"
   ],
   "note": "Non-negative axes."
  },
  {
   "property": "C93",
   "status": "partial",
   "theorems": [
    "C93_single_batch_round_trip",
    "C93_stack_trees_rows",
    "C93_stack_trees_errors",
    "C93_index_semantics"
   ],
   "note": "jax arrays replace an index out of range by the nearest one (part of C93_index_semantics); lists of different lengths are cut to the shortest."
  },
  {
   "property": "C94",
   "status": "proved",
   "theorems": [
    "C94_double_relu_lossless",
    "C94_double_relu_injective"
   ],
   "note": ""
  },
  {
   "property": "C95",
   "status": "proved",
   "theorems": [
    "C95_grads_diagnostics_global",
    "C95_grads_diagnostics_empty",
    "C95_leaf_norm_bounds",
    "C95_magnitude_quantiles",
    "C95_quantiles_order_free",
    "C95_grads_diagnostics_leaves"
   ],
   "note": ""
  },
  {
   "property": "C96",
   "status": "partial",
   "theorems": [
    "C96_tree_sample_joint",
    "C96_tree_sample_checks",
    "C96_axis_respected_refuted"
   ],
   "note": "The argument axis has no effect."
  },
  {
   "property": "C97",
   "status": "partial",
   "theorems": [
    "C97_meta_policy_plays",
    "C97_meta_policy_asserts",
    "C97_works_on_all_pythons_refuted"
   ],
   "note": "Proved for python versions with inspect.getargspec; from python 3.11 on every valid step raises AttributeError."
  },
  {
   "property": "C98",
   "status": "partial",
   "theorems": [
    "C98_render_episode_refuted"
   ],
   "note": "False for every gymnasium environment: the first step raises ValueError."
  },
  {
   "property": "C99",
   "status": "partial",
   "theorems": [
    "C99_check_preprocessors_deterministic",
    "C99_check_preprocessors_needs_two",
    "C99_same_means_match_refuted",
    "C99_match_means_same_refuted"
   ],
   "note": "Exact for deterministic preprocessors on the samples drawn."
  },
  {
   "property": "C100",
   "status": "partial",
   "theorems": [
    "C100_make_dmc_first",
    "C100_make_dmc_parameters_refuted"
   ],
   "note": "Only the first call per task determines the parameters."
  },
  {
   "property": "C101",
   "status": "partial",
   "theorems": [
    "C101_observations_in_space",
    "C101_step",
    "C101_time_limit_truncates_refuted",
    "C101_specs_rejected"
   ],
   "note": "Time limits are reported as terminations."
  },
  {
   "property": "C102",
   "status": "proved",
   "theorems": [
    "C102_semi_gradient_mse",
    "C102_semi_gradient_huber",
    "C102_gradient_exists",
    "C102_not_residual",
    "C102_table_update"
   ],
   "note": "Networks are arbitrary functions whose predictions have gradients; jax.grad is any list of partial derivatives."
  },
  {
   "property": "C103",
   "status": "partial",
   "theorems": [
    "C103_never_worse",
    "C103_rate",
    "C103_converges",
    "C103_bellman_solution",
    "C103_optimal",
    "C103_q_learning",
    "C103_bias_refuted"
   ],
   "note": "For tables without bias, SGD, deterministic environments and value transform identity; with a bias, as in the documented examples, an update can increase the distance."
  },
  {
   "property": "C104",
   "status": "partial",
   "theorems": [
    "C104_loop_rate",
    "C104_q_learning_optimal",
    "C104_truncation_refuted"
   ],
   "note": "For episodes that end by termination; episodes cut off by a time limit are passed to the tracer as done, which biases the values."
  },
  {
   "property": "C105",
   "status": "proved",
   "theorems": [
    "C105_nstep",
    "C105_montecarlo",
    "C105_nstep_never_raises",
    "C105_montecarlo_never_raises",
    "C105_invalid_raises",
    "C105_episode_done"
   ],
   "note": "random.sample is any function that returns k distinct positions."
  },
  {
   "property": "C106",
   "status": "partial",
   "theorems": [
    "C106_script",
    "C106_done_only_refuted",
    "C106_done_only_exact",
    "C106_stub_raises",
    "C106_per_stub_raises"
   ],
   "note": "Proved for loops that pass `done or truncated` and wait for a warm-up of at least the batch size. False for the scripts that pass only `done` (stubs/dqn.py, pendulum/sac.py and others) when an episode is truncated; stubs/dqn.py, ddpg.py and dqn_per.py raise at the first step."
  },
  {
   "property": "C107",
   "status": "proved",
   "theorems": [
    "C107_nstep",
    "C107_montecarlo",
    "C107_never_raises",
    "C107_feedback",
    "C107_invalid_raises",
    "C107_episode_done"
   ],
   "note": "The feedback part for at most 2^31 transitions added (ids are cast to int32)."
  },
  {
   "property": "C108",
   "status": "partial",
   "theorems": [
    "C108_probabilities",
    "C108_law",
    "C108_position",
    "C108_unnormalised_unbiased",
    "C108_bounds",
    "C108_equal_priorities",
    "C108_batch_of_one",
    "C108_unbiased_refuted"
   ],
   "note": "Expectations are iterated Riemann integrals over the uniform draws. The weights the buffer delivers are normalised by the maximum of each batch; with them the mean weighted loss is biased even for beta = 1 (C108_unbiased_refuted)."
  },
  {
   "property": "C109",
   "status": "proved",
   "theorems": [
    "C109_sample",
    "C109_policy_call",
    "C109_epsilon_greedy",
    "C109_boltzmann",
    "C109_total"
   ],
   "note": "Probabilities are iterated Riemann integrals over the uniform draws; the tie-breaking noise is any fixed noise in (-50, 50)."
  },
  {
   "property": "C110",
   "status": "proved",
   "theorems": [
    "C110_argmax",
    "C110_argmin",
    "C110_mode",
    "C110_chances"
   ],
   "note": "Probabilities are iterated Riemann integrals over the uniform draws; jax.random.categorical is the argmax of logits plus Gumbel noise."
  },
  {
   "property": "C111",
   "status": "partial",
   "theorems": [
    "C111_construct",
    "C111_member",
    "C111_defined",
    "C111_start_refuted",
    "C111_probability",
    "C111_log_proba",
    "C111_total",
    "C111_mode",
    "C111_priors",
    "C111_density",
    "C111_drawn",
    "C111_refused"
   ],
   "note": "False for Discrete spaces with start != 0, whose draws are counted from 0 (C111_start_refuted). affine_transform is not covered."
  },
  {
   "property": "C112",
   "status": "proved",
   "theorems": [
    "C112_never_worse",
    "C112_rate",
    "C112_optimal"
   ],
   "note": "Deterministic environments, one-hot linear layers without bias, SGD, episodes that end by termination (for truncation see C104_truncation_refuted)."
  },
  {
   "property": "C113",
   "status": "proved",
   "theorems": [
    "C113_never_worse",
    "C113_rate",
    "C113_optimal",
    "C113_any_batch",
    "C113_raises"
   ],
   "note": "Deterministic environments, one-hot linear layers without bias, SGD, episodes that end by termination; at most 2^31 recorded steps (ids are cast to int32)."
  },
  {
   "property": "C114",
   "status": "partial",
   "theorems": [
    "C114_probability",
    "C114_logp",
    "C114_logp_refuted",
    "C114_ratio",
    "C114_call",
    "C114_call_refuted"
   ],
   "note": "log_proba of a preprocessed action lacks the Jacobian factor, so it is not the log-density of the action (C114_logp_refuted; exact value in C114_logp); ratios are exact (C114_ratio). The returned log-probability differs from log_proba of the preprocessed action once clip_reals is active (C114_call_refuted)."
  },
  {
   "property": "C115",
   "status": "partial",
   "theorems": [
    "C115_v_checks",
    "C115_v",
    "C115_training_refuted",
    "C115_q_checks",
    "C115_q",
    "C115_q_blind",
    "C115_q_refuted",
    "C115_policy_checks",
    "C115_policy",
    "C115_stochastic_v",
    "C115_model_checks",
    "C115_model",
    "C115_transition_checks",
    "C115_transition",
    "C115_transition_refuted",
    "C115_q_action_refused"
   ],
   "note": "Acceptance is characterised exactly (C115_*_checks) and accepted V, Policy, StochasticV, StochasticTransitionModel always work; for Q, RewardFunction and TransitionModel only if the observation preprocessor gives trees of the same form as the default one: their constructors check the function on the default preprocessor (C115_q_blind, C115_q_refuted, C115_transition_refuted). is_training=False is never checked (C115_training_refuted). Calls of TransitionModel and StochasticTransitionModel are covered for type-1 functions."
  },
  {
   "property": "C116",
   "status": "partial",
   "theorems": [
    "C116_entropy",
    "C116_cross_entropy",
    "C116_kl",
    "C116_entropy_bounds",
    "C116_kl_zero",
    "C116_mixed",
    "C116_missing_key",
    "C116_missing_index",
    "C116_affine",
    "C116_affine_refuted",
    "C116_affine_integers",
    "C116_value_transform_refused",
    "C116_affine_keys",
    "C116_affine_lengths",
    "C116_affine_nones",
    "C116_affine_box",
    "C116_affine_mismatch"
   ],
   "note": "Entropies and divergences are proved for all nested spaces. affine_transform does what is documented only in part: mu is not multiplied with scale (C116_affine_refuted; exact result in C116_affine), any integer component makes it raise NotImplementedError, and any value_transform that contains a function is refused with TypeError."
  },
  {
   "property": "C117",
   "status": "partial",
   "theorems": [
    "C117_stays_between",
    "C117_luck_rate",
    "C117_luck_limit",
    "C117_luck_exists",
    "C117_bounded",
    "C117_mean",
    "C117_mean_solution",
    "C117_q_learning_mean_refuted",
    "C117_fluctuation"
   ],
   "note": "Luck bounds and rates hold for QLearning, ExpectedSarsa and SoftQLearning in every execution. The mean over the noise converges for ExpectedSarsa with mse when pairs and weights are decided before the noise is drawn (C117_mean; rows chosen adaptively are not covered); for QLearning the mean stays too large (C117_q_learning_mean_refuted), and with a constant learning rate the values themselves do not settle (C117_fluctuation, exact mean square)."
  },
  {
   "property": "C118",
   "status": "partial",
   "theorems": [
    "C118_episode",
    "C118_networks",
    "C118_tables",
    "C118_row_sums",
    "C118_direction",
    "C118_undiscounted",
    "C118_performance",
    "C118_improves",
    "C118_improves_layered",
    "C118_discounted_refuted"
   ],
   "note": "The exact update of an episode, the policy gradient and the comparison of both hold for every network with differentiable logits (continuously, C118_networks), every finite noise distribution, every gamma in [0,1] and every horizon; with gamma = 1 the mean update is the gradient and small learning rates improve the mean return (C118_undiscounted, C118_improves). For gamma < 1 the documented loop omits the factor gamma^t of the cited algorithm: the improvement can fail (C118_discounted_refuted), but holds if no parameter matters at two different times (C118_improves_layered). SGD only; floating point is real arithmetic."
  },
  {
   "property": "C119",
   "status": "partial",
   "theorems": [
    "C119_episode",
    "C119_critics",
    "C119_tables",
    "C119_bounded",
    "C119_advantage",
    "C119_baseline",
    "C119_gradient",
    "C119_direction",
    "C119_improves",
    "C119_huber_refuted"
   ],
   "note": "The exact updates, the bounds, the mean TD error as advantage, the policy gradient and the first-order direction hold for every continuously differentiable value and policy network, mse and Huber losses, with or without target network (for the direction: synchronised at the beginning of the episode) and any ratio of the learning rates. With mse, an exact critic and gamma = 1 small learning rates improve the mean return (C119_improves). With the default loss huber(1) the td_error is clipped and the improvement can fail even with an exact critic (C119_huber_refuted). SGD only; floating point is real arithmetic; the replay buffer of stubs/a2c.py is not part of the loop."
  },
  {
   "property": "C120",
   "status": "partial",
   "theorems": [
    "C120_update",
    "C120_grads",
    "C120_stops",
    "C120_on_policy",
    "C120_vanilla",
    "C120_unbiased",
    "C120_improvement",
    "C120_recorded_refuted",
    "C120_recorded_partial",
    "C120_transitions"
   ],
   "note": "Exact updates, stopping, agreement with VanillaPG, unbiasedness and the improvement bound hold for every network with continuously differentiable log-probabilities, every epsilon and all pairs of parameters; rows exactly at a kink are excluded from the update theorems, where jax's subgradient convention would decide. The log-propensities that policy(s, return_logp=True) records are those of a relaxed sample (C71): with logits more than 2 ln(1+epsilon) apart an open set of draws makes the very first on-policy update a no-op (C120_recorded_refuted); for equal logits they are exact (C120_recorded_partial). SGD only; floating point is real arithmetic."
  },
  {
   "property": "C121",
   "status": "partial",
   "theorems": [
    "C121_rounds",
    "C121_once",
    "C121_dropped_refuted",
    "C121_small_silent",
    "C121_small_raises"
   ],
   "note": "Times and contents of all rounds for every stream of episodes, every n, capacity and batch size. The implicit expectation that every transition can be used is refuted: an episode that ends while the buffer is nearly full makes n+1 transitions available at once, and up to n are dropped before the round (C121_dropped_refuted). With capacity < batch size the loop raises ValueError or, below a quarter of it, silently never updates. What the updates do with the batches is C119/C120; the policy's actions are arguments."
  },
  {
   "property": "C122",
   "status": "partial",
   "theorems": [
    "C122_update",
    "C122_rate",
    "C122_converges",
    "C122_soft_values",
    "C122_two_steps_refuted"
   ],
   "note": "Exact updates, rate and limit for every finite environment, every policy, beta and prior, with one-step transitions. For transitions of two or more steps the last sentence is false: EntropyRegularizer adds the entropy of the first state only, the entropies of the states in between are missing, and an update on a true transition moves a table away from the soft values it already has (C122_two_steps_refuted). The policy of the regularizer is fixed during training; tables and SGD; a deterministic q-function."
  },
  {
   "property": "C123",
   "status": "partial",
   "theorems": [
    "C123_clipped_update",
    "C123_clipped_sync",
    "C123_double_interval",
    "C123_double_rate",
    "C123_double_alone",
    "C123_double_converges",
    "C123_clipped_interval",
    "C123_clipped_rate",
    "C123_clipped_converges",
    "C123_double_cycle_refuted",
    "C123_clipped_cycle_refuted"
   ],
   "note": "Exact updates, bounds and the absence of overestimation in the limit hold for every gamma < 1; convergence to the optimal values holds for every gamma < 1/2, and for every gamma without target network (double). For every gamma between 1/2 and 1 convergence is false: in an environment with two states there are rounds of exact single-row updates and full synchronisations that lead both algorithms through the same tables for ever, with a wrong greedy action after every round (C123_double_cycle_refuted, C123_clipped_cycle_refuted; QLearning converges with the same rounds, C103). gamma = 1/2 exactly is left open. Discrete actions, tables, SGD; the order of the calls is an argument, not drawn by a policy."
  },
  {
   "property": "C124",
   "status": "partial",
   "theorems": [
    "C124_update",
    "C124_rate",
    "C124_log_converges",
    "C124_expected_refuted",
    "C124_soft_refuted",
    "C124_noise_refuted"
   ],
   "note": "For QLearning: the exact update in terms of called values, the rate for every increasing transform with bounded slopes, convergence from any tables with LogTransform of every scale and both losses. The rest of the statement is false. ExpectedSarsa with LogTransform has several tables that no program can change, none of them right (C124_expected_refuted): the mean over actions is taken of transformed values. SoftQLearning with LogTransform diverges for gamma >= 1/2 in an environment without rewards (C124_soft_refuted). With noisy rewards QLearning with LogTransform converges to a wrong value (C124_noise_refuted): the mean of transforms is not the transform of the mean. q and q_targ have the same transform; tables and SGD."
  },
  {
   "property": "C125",
   "status": "partial",
   "theorems": [
    "C125_greedy",
    "C125_optimal_play",
    "C125_script",
    "C125_boltzmann",
    "C125_epsilon_greedy",
    "C125_sharp",
    "C125_improvement_refuted"
   ],
   "note": "All bounds are proved for every environment and every q-function; expectations are iterated integrals over the uniform draws of all steps. The factor 2 is optimal (C125_sharp). Only the last sentence is false: a single exact update on a genuine transition, which decreases the errors, can turn an optimal agent into the worst one (C125_improvement_refuted). Deterministic environments; C125_boltzmann for q-functions without value transform; C125_script with tables and SGD."
  },
  {
   "property": "C126",
   "status": "partial",
   "theorems": [
    "C126_update",
    "C126_improves",
    "C126_converges",
    "C126_ddpg",
    "C126_play",
    "C126_slow_refuted",
    "C126_bias_refuted",
    "C126_type2"
   ],
   "note": "Everything but the last sentence is proved for tables without bias: exact update, monotone improvement under the critic for every step size, convergence with a fixed critic and with a critic that is still learning, optimal play from some call on. The last sentence is false (C126_slow_refuted): for every N there is an initial table with which the mode is still the worse action after N updates. With a bias in the policy's network an update can lower the value of other states (C126_bias_refuted); convergence with a bias is not settled. pi_targ plays no role with discrete actions. SGD only."
  },
  {
   "property": "C127",
   "status": "partial",
   "theorems": [
    "C127_values",
    "C127_tables",
    "C127_converges",
    "C127_own_policy",
    "C127_improves",
    "C127_recorded",
    "C127_terminal",
    "C127_episodes_refuted"
   ],
   "note": "Proved without ends of episodes: values of the data exist and are unique, exact tables after any program of updates, convergence of both call signatures of the composite q-function, its limits as action values of the data's own policy, improvement by acting greedily. C127_tables, C127_values and C127_converges hold with ends of episodes too, but then the last sentence is false (C127_terminal, C127_episodes_refuted): the tracer records the last state as its own next state and SuccessorStateQ has no notion of an end, so q of an ending action tends to reward plus gamma*v(s); in the witness every greedy policy takes the wrong action from some number of updates on, whatever the losses, rates and initial tables. One fixed batch (the whole data set); tables without bias; SGD."
  },
  {
   "property": "C128",
   "status": "partial",
   "theorems": [
    "C128_calls",
    "C128_update",
    "C128_stationary",
    "C128_inner",
    "C128_fixed",
    "C128_means",
    "C128_converges",
    "C128_control",
    "C128_global",
    "C128_ties_refuted",
    "C128_expected_refuted",
    "C128_shapes",
    "C128_no_target"
   ],
   "note": "Proved: exact updates of all logits (with and without q_targ), stationary points, convergence with a fixed q_targ, existence and uniqueness of the solution, its means, convergence with synchronised q_targ for Sarsa (global, in Wasserstein distance) and for QLearning (means; from within half of the action gap of the optimal values, and from arbitrary logits as long as q_targ has no exactly tied greedy actions at the start of a round, C128_global). False and refuted: importance weights do not rescale anything (C128_update holds for all weights, which do not occur in it); mixtures of actions mix logits, not distributions, so the mean of the target is not the mean of the values, neither for tied greedy actions (C128_ties_refuted) nor for ExpectedSarsa (C128_expected_refuted). Not settled: convergence without q_targ. Tables without bias; SGD."
  },
  {
   "property": "C129",
   "status": "partial",
   "theorems": [
    "C129_calls",
    "C129_update",
    "C129_sync",
    "C129_converges",
    "C129_control",
    "C129_limits_refuted",
    "C129_shapes",
    "C129_no_target"
   ],
   "note": "Proved: exact updates of all values, soft updates, convergence on deterministic data for every sequence of updates and soft updates in which pairs and soft updates recur (Sarsa from any values, QLearning from within half of the action gap; the number of stretches depends only on eps, the distance at the start and the constants). False and refuted: with random rewards a whole rectangle of tables never changes, with means from 11 to 19 where the data mean is 15 (C129_limits_refuted). The table does not depend on the quantile fractions (iqn.py embeds them); tables without bias; SGD."
  },
  {
   "property": "C130",
   "status": "partial",
   "theorems": [
    "C130_update",
    "C130_step",
    "C130_drift",
    "C130_first",
    "C130_unvisited",
    "C130_overshoot",
    "C130_returns",
    "C130_tables",
    "C130_other_pairs_refuted",
    "C130_default"
   ],
   "note": "Proved: exact updates after any history of gradients, the bound on the size of updates and on the drift of n updates, the first update, the infinite recurrence of values at their targets (for any network with gradients that push towards the target, and for tables). The last sentence is false: a pair that is not in the batch moves on in every update after its first gradient (C130_unvisited, C130_other_pairs_refuted), and a value closer than lr/2 - eps/kap to its target is taken further away by the first update (C130_overshoot). The formulas of optax.adam are those of its documentation; optax is not part of the repository."
  },
  {
   "property": "C131",
   "status": "partial",
   "theorems": [
    "C131_greedy",
    "C131_best",
    "C131_regret",
    "C131_optimal_play",
    "C131_boltzmann",
    "C131_epsilon_greedy",
    "C131_separated",
    "C131_reliable_refuted"
   ],
   "note": "Proved: the bounds for greedy and sampling agents, optimality against all strategies with memory, optimal play of every q-function close enough, optimal play after training when luck cannot change the best action. False and refuted: with a constant learning rate, training does not make the agent reliable; in an environment with a sure 1/4 and a fair bet of 1, the greedy agents take the bet with a probability bounded away from 0 after every large number of rounds (C131_reliable_refuted)"
  },
  {
   "property": "C132",
   "status": "partial",
   "theorems": [
    "C132_mean_square",
    "C132_settles",
    "C132_average",
    "C132_reliable",
    "C132_decay_refuted"
   ],
   "note": "Proved: the exact mean square error, exact averages with 1/(k+1), convergence in mean square when the learning rates vanish with an infinite sum per pair, reliable greedy agents in contextual bandits. The last sentence is false: with the positive learning rates 1/2, 1/4, 1/8, ... a value that starts at 0 stays below 3/4 although all its targets are 1 (C132_decay_refuted). Not covered: schedules with bootstrapped targets that change during training. The formulas of optax.sgd(schedule) are those of its documentation; optax is not part of the repository."
  },
  {
   "property": "C133",
   "status": "partial",
   "theorems": [
    "C133_update",
    "C133_sync",
    "C133_same_refuted",
    "C133_diverges_refuted"
   ],
   "note": "Proved for any two transforms: the exact updates of the returned values and the exact effect of a soft update. The last sentence is false: soft_update copies parameters, not returned values, so after a full synchronisation q_targ returns 3 where q returns ln 4 (C133_same_refuted); with one state, no reward and discount 1/2, rounds of one update and one synchronisation let the value grow beyond all bounds (C133_diverges_refuted). Nothing checks that the two transforms agree."
  }
 ]
}
{"id": "C01", "title": "SegmentTree stays consistent under every history of set_values", "statement": "After any sequence of accepted set_values calls on a SegmentTree (int, list, array or ellipsis indices, negative and duplicated indices included), `values` equals a plain array of length capacity to which the same assignments were applied in order (last duplicate wins, untouched entries keep init_value), and `root_value` equals reduce(reducer, values, init_value), for every associative reducer whose unit is init_value. Every inner node tree[level, k] is the reduction of its own block of leaves.", "quantifier": "all capacities >= 1, all element types, all associative reducers with unit, all finite histories of set_values batches", "why_tests_cant": "tests use a handful of capacities and a few updates; the incremental bottom-up repair touches only parents of touched leaves, so a stale inner node can survive in some history no test visits", "anchors": ["coax/utils/_segment_tree.py: SegmentTree.__init__, SegmentTree.set_values, SegmentTree.root_value, SegmentTree.values, SegmentTree.__getitem__, SegmentTree._check_idx"]}
{"id": "C02", "title": "partial_reduce over one range equals the reduction of that slice", "statement": "For 0 <= start < stop <= capacity, tree.partial_reduce(start, stop) on a consistent tree returns reduce(reducer, values[start:stop]) for every associative and commutative reducer with unit init_value (sum, min, max, product). The documentation states this for every reducer.", "quantifier": "all capacities, all ranges, all contents, all commutative monoids; associativity alone is examined too", "why_tests_cant": "the iterative two-finger walk has a case split per level; tests sample ranges of one small tree with commutative reducers only", "anchors": ["coax/utils/_segment_tree.py: SegmentTree.partial_reduce, SegmentTree._check_start_stop_to_i_j"]}
{"id": "C03", "title": "Batched partial_reduce equals element-wise partial_reduce", "statement": "For arrays start, stop of equal length whose ranges are each valid on their own, partial_reduce(start, stop) returns, entry by entry, what partial_reduce(start[k], stop[k]) returns; batching never changes a result or introduces an error.", "quantifier": "all capacities, all batches of valid ranges", "why_tests_cant": "failure depends on which ranges share a batch; tests do not enumerate batches", "anchors": ["coax/utils/_segment_tree.py: SegmentTree.partial_reduce"]}
{"id": "C04", "title": "SumTree.inverse_cdf is the exact inverse of the cumulative weights", "statement": "For non-negative values with a positive sum and u in [0,1), inverse_cdf(u) returns an index i < capacity with values[i] > 0 and prefix_sum(i) <= u*sum(values) < prefix_sum(i+1). Hence i is returned exactly for u in an interval of length values[i]/sum(values): sampling is proportional to the weights, and a zero-weight entry is never sampled. If the sum is not positive the call raises and returns nothing.", "quantifier": "all capacities, all non-negative real weight vectors, all u in [0,1)", "why_tests_cant": "sampling tests are statistical; boundaries of the CDF have measure zero and are never hit by random tests", "anchors": ["coax/utils/_segment_tree.py: SumTree.inverse_cdf, SumTree.sample"]}
{"id": "C05", "title": "inverse_cdf is total on its documented domain [0,1]", "statement": "For every u that inverse_cdf accepts (0 <= u <= 1) the returned index is a valid index (< capacity) of an entry with positive weight.", "quantifier": "all capacities, all non-negative weight vectors with positive sum, all u in [0,1]", "why_tests_cant": "the failing input is a single boundary point combined with a capacity that is not a power of two or a trailing zero weight", "anchors": ["coax/utils/_segment_tree.py: SumTree.inverse_cdf"]}
{"id": "C06", "title": "A rejected set_values leaves the tree unchanged; accepted indices wrap like Python", "statement": "set_values with any index outside [-capacity, capacity) raises IndexError and leaves all values and nodes unchanged; a negative index k denotes capacity+k.", "quantifier": "all trees, all index batches", "why_tests_cant": "needs all batches, including those in which only one of many entries is bad", "anchors": ["coax/utils/_segment_tree.py: SegmentTree._check_idx, SegmentTree.set_values"]}
{"id": "C07", "title": "SimpleReplayBuffer is a sliding window of the last `capacity` transitions", "statement": "After any sequence of add and clear calls, len(buffer) = min(capacity, number added since the last clear), the buffer holds exactly the most recently added transitions in insertion order, and their idx values are consecutive integers ending at (number added since clear) - 1.", "quantifier": "all capacities, all histories of add (batches of any size, also larger than capacity) and clear", "why_tests_cant": "eviction, batch boundaries and clears interleave in unboundedly many ways", "anchors": ["coax/experience_replay/_simple.py: SimpleReplayBuffer.add, SimpleReplayBuffer.clear, SimpleReplayBuffer.__len__"]}
{"id": "C08", "title": "SimpleReplayBuffer sampling is isolated from the global random state", "statement": "The sequence of batches produced by sample calls depends only on the buffer contents, the seed and the buffer's own sampling history; arbitrary use of the global `random` module by other code in between cannot change it. A sample consists of pairwise distinct stored transitions and is rejected when batch_size exceeds the number stored. (The documentation of random isolation is implicit in the save/restore of the generator state.)", "quantifier": "all interleavings of buffer calls with foreign use of the global generator", "why_tests_cant": "isolation quantifies over all schedules of foreign code", "anchors": ["coax/experience_replay/_simple.py: SimpleReplayBuffer.sample, SimpleReplayBuffer.__init__"]}
{"id": "C09", "title": "PrioritizedReplayBuffer is a sliding window of the last `capacity` transitions", "statement": "After any sequence of add, update, sample, alpha/beta changes and clear, the set of stored transitions is exactly the most recently added min(capacity, n) ones, each carrying the id given to it when added; ids are 0..n-1 in order of addition, and len agrees.", "quantifier": "all capacities and histories of calls", "why_tests_cant": "circular overwriting plus id bookkeeping; wrap-arounds occur only after long histories", "anchors": ["coax/experience_replay/_prioritized.py: PrioritizedReplayBuffer.add, PrioritizedReplayBuffer.__len__, PrioritizedReplayBuffer.__iter__, PrioritizedReplayBuffer.clear"]}
{"id": "C10", "title": "update(idx, Adv) changes the priority of exactly the named, still stored transitions", "statement": "update(idx, Adv) sets the priority of each stored transition whose id occurs in idx to (|Adv|+epsilon)^alpha of its last occurrence, and changes no other priority; ids of transitions that were already overwritten have no effect at all.", "quantifier": "all histories, all update batches including stale, repeated and colliding ids", "why_tests_cant": "only batches in which a stale and a live id share a slot behave differently", "anchors": ["coax/experience_replay/_prioritized.py: PrioritizedReplayBuffer.update"]}
{"id": "C11", "title": "Sampled importance weights follow (1/(N P(i)))^beta / max", "statement": "For each sampled transition i in a batch, its weight is multiplied by w_i = (N*P(i))^(-beta) / max_j (N*P(j))^(-beta), P(i) = priority_i / sum of priorities, with max over the batch. Consequently 0 < w_i <= 1, some w_i is 1, w is non-increasing in the priority, and the result does not depend on N.", "quantifier": "all stored priorities > 0, all beta >= 0, all batches", "why_tests_cant": "a relation over all real priorities and batches", "anchors": ["coax/experience_replay/_prioritized.py: PrioritizedReplayBuffer.sample"]}
{"id": "C12", "title": "Changing alpha re-expresses every stored priority with the new exponent", "statement": "After buffer.alpha = new, every stored priority (|Adv|+eps)^old becomes (|Adv|+eps)^new, unused slots stay at zero, and the sampling distribution is the one obtained by having used the new alpha from the start.", "quantifier": "all priorities, all old and new alpha > 0", "why_tests_cant": "tests check one jump of alpha; schedules anneal alpha in many small steps", "anchors": ["coax/experience_replay/_prioritized.py: PrioritizedReplayBuffer.alpha"]}
{"id": "C13", "title": "NStep emits exactly one correct n-step transition per time step of an episode", "statement": "Feeding an episode (s_0,a_0,r_0),...,(s_{T-1},a_{T-1},r_{T-1}) with done on the last step and popping until exhausted yields exactly T transitions in time order. The t-th has S=s_t, A=a_t, logP, W of step t, Rn = sum_{k<n, t+k<T} gamma^k r_{t+k}, In = gamma^n if t+n < T and 0 otherwise, and if t+n < T then S_next = s_{t+n}, A_next = a_{t+n}, logP_next likewise.", "quantifier": "all n >= 1, all gamma, all episode lengths and contents", "why_tests_cant": "off-by-one errors at the tail of the episode depend on T mod n and T < n", "anchors": ["coax/reward_tracing/_nstep.py: NStep.add, NStep.pop, NStep.__bool__, NStep.__len__"]}
{"id": "C14", "title": "NStep output does not depend on when it is popped", "statement": "For a fixed stream of add calls over any number of successive episodes, every schedule of pops that respects bool(tracer) and drains the tracer before the next episode starts yields the same sequence of transitions; no transition mixes data of two episodes; adding past the end before draining raises EpisodeDoneError and changes nothing.", "quantifier": "all schedules interleaving add and pop", "why_tests_cant": "quantifies over all schedules", "anchors": ["coax/reward_tracing/_nstep.py: NStep.add, NStep.pop", "coax/reward_tracing/_base.py: BaseRewardTracer.flush"]}
{"id": "C15", "title": "MonteCarlo emits the full discounted return for every step", "statement": "After an episode of T steps, popping yields T transitions in reverse time order; the one for step t has Rn = sum_{k>=0} gamma^k r_{t+k} over the rest of the episode and In = 0. Adding past the end before draining raises and changes nothing.", "quantifier": "all gamma, all episode lengths and rewards", "why_tests_cant": "recursion over the whole episode", "anchors": ["coax/reward_tracing/_montecarlo.py: MonteCarlo.add, MonteCarlo.pop"]}
{"id": "C16", "title": "n-step and Monte-Carlo targets are consistent", "statement": "If the episode has at most n steps, the NStep transitions carry the same returns as MonteCarlo. In general, for any value function v, evaluating the n-step target with v equal to the exact Monte-Carlo return of the remaining episode gives the Monte-Carlo return: Rn + In * G(S_next) = G(S).", "quantifier": "all n, gamma, episodes", "why_tests_cant": "relates two tracers on all inputs", "anchors": ["coax/reward_tracing/_nstep.py: NStep.pop", "coax/reward_tracing/_montecarlo.py: MonteCarlo.pop"]}
{"id": "C17", "title": "NStep extra_info holds the next n+1 steps, padded at the episode end", "statement": "With record_extra_info=True the t-th transition carries lists of n+1 states, actions, rewards, dones, logps and weights: entry k is that of step t+k while t+k < T, and the last step of the episode repeated afterwards; dones is True exactly from the terminal step on.", "quantifier": "all n, episode lengths, positions", "why_tests_cant": "padding differs for each distance to the end of the episode", "anchors": ["coax/reward_tracing/_nstep.py: NStep._extra_info, NStep.pop"]}
{"id": "C18", "title": "A failing pop does not lose data", "statement": "If pop raises because the recorded data cannot form a valid transition, the tracer is left unchanged (so no recorded step silently disappears).", "quantifier": "all tracer states and all recorded values", "why_tests_cant": "depends on invalid data being discovered only after the cache was mutated", "anchors": ["coax/reward_tracing/_nstep.py: NStep.pop", "coax/reward_tracing/_montecarlo.py: MonteCarlo.pop", "coax/reward_tracing/_transition.py: TransitionBatch.from_single"]}
{"id": "C19", "title": "TransitionBatch splits and re-batches without loss", "statement": "Splitting a batch with to_singles and concatenating the singles gives back the batch field by field, in order, with the idx and W of each row preserved; each single has batch_size 1. A batch built from a single has W = w, In = gamma or 0 and idx as given.", "quantifier": "all batch sizes and field contents (optional fields missing or present)", "why_tests_cant": "all sizes and all patterns of optional fields", "anchors": ["coax/reward_tracing/_transition.py: TransitionBatch.from_single, TransitionBatch.to_singles, TransitionBatch.batch_size"]}
{"id": "C20", "title": "TransitionBatch equality distinguishes different batches", "statement": "a == b implies that a and b have the same fields with (numerically close) equal contents; == is symmetric.", "quantifier": "all pairs of batches", "why_tests_cant": "the failing pairs differ in structure (missing optional fields), or lie at the edge of an asymmetric tolerance", "anchors": ["coax/reward_tracing/_transition.py: TransitionBatch.__eq__"]}
{"id": "C21", "title": "ConnectFour reports a win exactly when the mover has four in a row", "statement": "After a legal move, done with reward 1 is reported iff the board contains four aligned tokens of the player who just moved (any of the horizontal, vertical and two diagonal lines of length four on the 6x7 grid); a draw (done with reward 0) is reported iff there is no such line and the board is full; otherwise the game continues with reward 0.", "quantifier": "all board contents and all last moves", "why_tests_cant": "about 4.5e12 positions; the code inspects only 4x4 windows with ten filters", "anchors": ["coax/envs/_connect_four.py: ConnectFourEnv.step, ConnectFourEnv._done_reward"]}
{"id": "C22", "title": "ConnectFour boards reachable by play are legal", "statement": "In every state reached from reset by any sequence of accepted moves: each column is filled from the bottom without gaps, the fill level bookkeeping matches the board, the two players' token counts differ by at most one and match whose turn it is, available actions are exactly the non-full columns, and a token once placed never changes.", "quantifier": "all move sequences", "why_tests_cant": "induction over histories of unbounded variety", "anchors": ["coax/envs/_connect_four.py: ConnectFourEnv.step, ConnectFourEnv.reset, ConnectFourEnv.available_actions, ConnectFourEnv.available_actions_mask"]}
{"id": "C23", "title": "ConnectFour games end, and rejected moves have no effect", "statement": "Every game ends after at most 42 accepted moves. A move after the end, outside the action space or in a full column raises and leaves the state untouched.", "quantifier": "all move sequences, all bad actions", "why_tests_cant": "all histories and all bad inputs", "anchors": ["coax/envs/_connect_four.py: ConnectFourEnv.step"]}
{"id": "C24", "title": "ConnectFour state_id/set_state round-trips", "statement": "For every state reachable by play, env.set_state(id) with id = env.state_id of that state restores the board, player, fill levels, last move and done flag; distinct reachable states have distinct ids.", "quantifier": "all reachable states", "why_tests_cant": "injectivity over an astronomically large state space", "anchors": ["coax/envs/_connect_four.py: ConnectFourEnv.state_id, ConnectFourEnv.set_state"]}
{"id": "C25", "title": "chunks_pow2 partitions a batch into power-of-two chunks", "statement": "Concatenating the chunks of chunks_pow2(batch) gives back the batch in order; every chunk size is a power of two; the sizes are strictly decreasing; nothing is dropped or repeated.", "quantifier": "all batch sizes", "why_tests_cant": "all sizes", "anchors": ["coax/utils/_array.py: chunks_pow2"]}
{"id": "C26", "title": "StepwiseLinearFunction interpolates its knots and is flat outside", "statement": "f(t_k) = v_k at every knot; f is constant before the first and after the last knot; between two neighbouring knots it is the straight line; all values lie between the smallest and the largest knot value; ill-ordered knots are rejected.", "quantifier": "all knot lists and all real arguments", "why_tests_cant": "all knots and arguments", "anchors": ["coax/utils/_array.py: StepwiseLinearFunction"]}
{"id": "C27", "title": "diff_transform applies iterated finite differences", "statement": "Multiplying a stack of frames (x_0,...,x_{n-1}) by diff_transform_matrix(n) yields the backward differences of orders n-1, ..., 1, 0 of the last frame; in particular the transform is invertible (no information is lost).", "quantifier": "all n and all frame contents", "why_tests_cant": "all matrix sizes", "anchors": ["coax/utils/_array.py: diff_transform, diff_transform_matrix"]}
{"id": "C28", "title": "RollingAverage and ExponentialAverage match their definitions", "statement": "After any sequence of updates RollingAverage.value is the mean of the last n values; ExponentialAverage.value is the plain mean while at most n values were seen and follows avg += (x-avg)/n afterwards. Both always lie between the minimum and maximum of the values seen.", "quantifier": "all n >= 1, all sequences", "why_tests_cant": "history dependence; accumulated incremental sums", "anchors": ["coax/utils/_rolling.py: RollingAverage.update, ExponentialAverage.update"]}
{"id": "C29", "title": "sync_shared_params averages exactly the shared entries", "statement": "After sync_shared_params(*objs), every top-level key held by at least two of the dicts has the weighted average of its holders in all of them, every other entry is unchanged, and a second sync changes nothing. merge_dicts gives later dicts precedence and contains exactly the union of keys.", "quantifier": "all dictionaries, weights and numbers of objects", "why_tests_cant": "all key overlap patterns", "anchors": ["coax/utils/_array.py: sync_shared_params, merge_dicts"]}
{"id": "C30", "title": "Quantile fractions are sorted and inside [0,1]", "statement": "quantiles_uniform returns strictly increasing fractions in (0,1] whose last element is 1 for every random draw; quantiles returns the equally spaced fractions in (0,1).", "quantifier": "all numbers of quantiles and all random draws", "why_tests_cant": "all random draws", "anchors": ["coax/utils/_quantile_funcs.py: quantiles_uniform, quantiles"]}
{"id": "C31", "title": "FrameStacking always shows the last num_frames observations", "statement": "After reset and t steps, the observation is the tuple of exactly num_frames frames (o_{t-n+1},...,o_t), where frames before the reset are copies of the first observation; nothing leaks from the previous episode.", "quantifier": "all num_frames and all interleavings of step and reset", "why_tests_cant": "history dependence across episodes", "anchors": ["coax/wrappers/_frame_stacking.py: FrameStacking.step, FrameStacking.reset"]}
{"id": "C32", "title": "TrainMonitor counters describe the history", "statement": "After any sequence of reset and step calls: ep is the number of resets, t the number of steps since the last reset, T the number of all steps (plus resets, as counted), G the undiscounted return since the last reset, avg_r the mean reward of the episode, avg_G the documented smoothing of episode returns.", "quantifier": "all histories of reset/step with any rewards and done flags", "why_tests_cant": "all histories", "anchors": ["coax/wrappers/_train_monitor.py: TrainMonitor.reset, TrainMonitor.step"]}
{"id": "C33", "title": "TrainMonitor.period fires once per period", "statement": "If period(name, T_period=p) is polled after every step, it returns True exactly once for each multiple of p reached by T. For any polling pattern it never fires more often than T//p times and catches up; the same for ep_period.", "quantifier": "all polling schedules and all periods", "why_tests_cant": "all polling schedules", "anchors": ["coax/wrappers/_train_monitor.py: TrainMonitor.period"]}
{"id": "C34", "title": "StreamingSample keeps a uniform sample of the stream", "statement": "After n appends the reservoir holds min(n, maxlen) of the appended items (each position of the stream at most once), and for n > maxlen every stream position is contained with probability exactly maxlen/n; reset empties it.", "quantifier": "all stream lengths and maxlen, over the random choices", "why_tests_cant": "a distributional statement for every stream length", "anchors": ["coax/wrappers/_train_monitor.py: StreamingSample"]}
{"id": "C35", "title": "TrainMonitor counters can be saved and restored", "statement": "set_counters(get_counters()) taken at an earlier time restores the monitor to that earlier time, whatever happened in between; likewise for save_counters/load_counters through a file.", "quantifier": "all histories between snapshot and restore", "why_tests_cant": "aliasing shows only when the monitor is used between snapshot and restore", "anchors": ["coax/wrappers/_train_monitor.py: TrainMonitor.get_counters, TrainMonitor.set_counters, TrainMonitor.save_counters, TrainMonitor.load_counters"]}
{"id": "C36", "title": "Box action wrappers map into the original box and are faithful", "statement": "BoxActionsToReals maps every real vector into the original Box, strictly increasing in each coordinate on [-1e15,1e15] and constant outside. BoxActionsToDiscrete maps bin k of coordinate d into the k-th of num_bins equal sub-intervals, so the bin can be recovered from the resulting action.", "quantifier": "all boxes, all actions, all random draws", "why_tests_cant": "all real inputs", "anchors": ["coax/wrappers/_box_spaces.py: BoxActionsToReals, BoxActionsToDiscrete"]}
{"id": "C37", "title": "CategoricalDist defines a probability distribution", "statement": "For all logits, exp(log_proba(one_hot a)) are positive numbers summing to one; adding a constant to the logits changes nothing; mode puts most weight on a most likely category; entropy lies in [0, log n].", "quantifier": "all n >= 1, all real logits", "why_tests_cant": "all logits", "anchors": ["coax/proba_dists/_categorical.py: CategoricalDist.log_proba, mean, mode, entropy"]}
{"id": "C38", "title": "cross_entropy = entropy + kl_divergence, and kl_divergence >= 0 with equality iff equal", "statement": "For CategoricalDist, NormalDist and products of them (ProbaDist), cross_entropy(p,q) = entropy(p) + kl_divergence(p,q), kl_divergence(p,q) >= 0, and it is 0 iff p and q are the same distribution.", "quantifier": "all parameters of all dimensions", "why_tests_cant": "inequality over a continuum (Gibbs)", "anchors": ["coax/proba_dists/_categorical.py: kl_divergence, cross_entropy", "coax/proba_dists/_normal.py: kl_divergence, cross_entropy, entropy", "coax/proba_dists/_composite.py: ProbaDist"]}
{"id": "C39", "title": "NormalDist.affine_transform transforms the distribution of the variate", "statement": "If X has the distribution given by dist_params, affine_transform(dist_params, scale, shift) describes scale*X + shift: mean becomes scale*mu + shift and variance scale^2 * var.", "quantifier": "all parameters, scales and shifts", "why_tests_cant": "a test with scale 1 or mean 0 cannot see the difference", "anchors": ["coax/proba_dists/_normal.py: NormalDist.affine_transform"]}
{"id": "C40", "title": "Box pre-/post-processing of NormalDist is a bijection inside the box", "statement": "postprocess_variate maps every real x into the Box; preprocess_variate followed by postprocess_variate is the identity on the interior region where the clipping is inactive, coordinate by coordinate.", "quantifier": "all boxes and points", "why_tests_cant": "all real inputs", "anchors": ["coax/proba_dists/_normal.py: preprocess_variate, postprocess_variate", "coax/utils/_array.py: clipped_logit"]}
{"id": "C41", "title": "SquashedNormalDist.log_proba is the density of the squashed variate", "statement": "log_proba(dist_params, X) for X in the open Box equals the log-density of the random variable obtained by squashing a Gaussian into the Box, i.e. the Gaussian log-density at the pre-image minus the sum of log|dX/dx|. Samples, mean and mode lie inside the Box, and mean returns the mean of the samples.", "quantifier": "all boxes, parameters and points", "why_tests_cant": "tests use the unit box", "anchors": ["coax/proba_dists/_squashed_normal.py: SquashedNormalDist.log_proba"]}
{"id": "C42", "title": "The categorical projection preserves mass and, inside the support, the mean", "statement": "DiscretizedIntervalDist.affine_transform (the C51 projection) maps every distribution on the atoms to a distribution on the same atoms: total mass is preserved, all masses are non-negative; each source atom lands only on its (one or two) neighbouring atoms; the mean of the result is the mean of the transformed values clipped to the range of the atoms.", "quantifier": "all numbers of bins, supports, probabilities, scales and shifts", "why_tests_cant": "floor/ceil coincidences (a transformed atom falling exactly on an atom or on the edge)", "anchors": ["coax/proba_dists/_discretized_interval.py: DiscretizedIntervalDist.affine_transform"]}
{"id": "C43", "title": "Huber loss shape", "statement": "huber(y, yhat, delta) is non-negative, zero iff y = yhat, equals the half squared error for |y-yhat| <= delta, continues linearly with slope delta (continuously differentiable, slope bounded by delta), never exceeds the mse loss, and is symmetric and monotone in the error. The weighted loss is the mean of weight times loss.", "quantifier": "all reals and delta > 0", "why_tests_cant": "pointwise analytic claims over the reals", "anchors": ["coax/value_losses/_losses.py: huber, mse, _mean_with_weights"]}
{"id": "C44", "title": "logloss and logloss_sign agree and are proper", "statement": "logloss_sign applied to labels in {-1,1} and logits equals logloss applied to labels in {0,1} and sigmoid of the logits (where no clipping is active); both are non-negative.", "quantifier": "all logits", "why_tests_cant": "all reals", "anchors": ["coax/value_losses/_losses.py: logloss, logloss_sign"]}
{"id": "C45", "title": "LogTransform is an increasing bijection with the documented inverse", "statement": "inverse_func(transform_func(x)) = x and transform_func(inverse_func(y)) = y for all reals; both are odd, strictly increasing and fix 0.", "quantifier": "all reals, all scales > 0", "why_tests_cant": "all reals", "anchors": ["coax/value_transforms/_log_transform.py: LogTransform"]}
{"id": "C46", "title": "Bootstrapped targets never look past a terminal state and contract by In", "statement": "For every TD-learning variant (SimpleTD, Sarsa, QLearning, DoubleQLearning, SoftQLearning, ClippedDoubleQLearning) with identity transform the target is Rn + In*B, where B is the bootstrap value. If In = 0 it does not depend on any value function. Changing all target values by at most eps changes the target by at most |In|*eps; with LogTransform the un-transformed target satisfies the same bound.", "quantifier": "all batches, all value tables", "why_tests_cant": "non-expansiveness over all value functions", "anchors": ["coax/td_learning/_qlearning.py: target_func", "coax/td_learning/_simple_td.py: target_func", "coax/td_learning/_sarsa.py: target_func", "coax/td_learning/_softqlearning.py: target_func", "coax/td_learning/_clippeddoubleqlearning.py: target_func", "coax/td_learning/_doubleqlearning.py: target_func", "coax/td_learning/_expectedsarsa.py: target_func"]}
{"id": "C47", "title": "Greedy bootstrapping evaluates to the maximum, also with ties", "statement": "In QLearning with a type-2 q-function the bootstrap value equals max_a q_targ(s_next,a) for every pattern of ties; SoftQLearning lies between that maximum and maximum + temperature*log(n), approaching it; ClippedDoubleQLearning never exceeds any of the competing bootstrap values and equals one of them.", "quantifier": "all q-value tables, all tie patterns, all temperatures > 0", "why_tests_cant": "ties have measure zero; bounds hold over a continuum", "anchors": ["coax/td_learning/_qlearning.py: target_func", "coax/td_learning/_softqlearning.py: target_func", "coax/td_learning/_clippeddoubleqlearning.py: target_func"]}
{"id": "C48", "title": "PPO-clip objective is a pessimistic bound and removes the incentive outside the trust region", "statement": "The per-sample objective is at most W*Adv*ratio; it coincides with it for ratios within [1-eps,1+eps]; for Adv > 0 it is constant in the ratio above 1+eps, for Adv < 0 constant below 1-eps; the importance weights used lie in [0.1,10].", "quantifier": "all ratios, advantages, eps", "why_tests_cant": "all reals", "anchors": ["coax/policy_objectives/_ppo_clip.py: PPOClip.objective_func"]}
{"id": "C49", "title": "soft_update is exponential smoothing", "statement": "soft_update(other, tau) gives (1-tau)*theta + tau*theta_other for every leaf; tau=1 copies, tau=0 keeps; for 0<=tau<=1 every leaf stays between the two; k soft updates towards a fixed target leave exactly the fraction (1-tau)^k of the initial difference.", "quantifier": "all parameter trees, tau, numbers of updates", "why_tests_cant": "all histories", "anchors": ["coax/_core/base_func.py: BaseFunc.soft_update"]}
{"id": "C50", "title": "type-1 and type-2 views of a q-function agree", "statement": "For discrete actions, function_type2 of a type-1 q-function has entry [b][a] = q(s_b, one_hot(a)), and function_type1 of a type-2 q-function applied to one_hot(a) gives the a-th entry of q(s_b, .); converting back and forth is the identity, for every batch size and number of actions.", "quantifier": "all batch sizes, numbers of actions, q-functions acting row by row", "why_tests_cant": "index arithmetic of repeat/tile/reshape for all shapes", "anchors": ["coax/_core/q.py: Q.function_type1, Q.function_type2", "coax/_core/base_stochastic_func_type1.py: BaseStochasticFuncType1.function_type1, function_type2"]}
{"id": "C51", "title": "EpsilonGreedy and BoltzmannPolicy define the documented action probabilities", "statement": "EpsilonGreedy(q, eps) samples each action with probability eps/n plus, for maximisers of q, (1-eps)/(number of maximisers), up to the 1e-15 smoothing, whose effect is bounded; every action has positive probability. BoltzmannPolicy probabilities are proportional to exp(q/temperature), are ordered like q.", "quantifier": "all q vectors, eps in [0,1], temperatures > 0, tie patterns", "why_tests_cant": "all reals and tie patterns", "anchors": ["coax/_core/value_based_policy.py: EpsilonGreedy, BoltzmannPolicy"]}
{"id": "C52", "title": "NStepEntropyRegularizer counts only valid steps", "statement": "The n-step entropy bonus sums gamma^n * entropy over exactly those requested offsets n that do not lie beyond the terminal step.", "quantifier": "all n tuples, episode ends", "why_tests_cant": "depends on relative position of the requested offsets and the terminal step", "anchors": ["coax/regularizers/_nstep_entropy.py: NStepEntropyRegularizer"]}
{"id": "C53", "title": "The global step counter counts all steps of all workers", "statement": "With any number of rollout workers sharing a parameter store, the shared counter T equals the total number of steps of finished episodes, never decreases and no worker's contribution is lost.", "quantifier": "all interleavings of the workers' pull/push operations", "why_tests_cant": "a race: only some interleavings fail", "anchors": ["coax/_core/worker.py: Worker.rollout_loop"]}
{"id": "C54", "title": "Stochastic value functions undo the value transform", "statement": "StochasticV/StochasticQ/StochasticRewardFunction with a value_transform (f, f_inv) return values in the original (untransformed) space when called or when asked for mean/mode, i.e. lie in value_range.", "quantifier": "all transforms, value ranges and distributions", "why_tests_cant": "tests use no transform or check shapes only", "anchors": ["coax/_core/stochastic_v.py: StochasticV.__call__, StochasticV.mean, StochasticV._get_proba_dist", "coax/_core/stochastic_q.py: StochasticQ", "coax/proba_dists/_discretized_interval.py: postprocess_variate"]}
{"id": "C55", "title": "A failed gradient check leaves the learner unchanged", "statement": "If a computed gradient contains NaN, update raises and parameters, function state and optimizer state stay as they were; otherwise all three are replaced by the optimizer's output exactly once.", "quantifier": "all gradients, optimizers and states", "why_tests_cant": "atomicity over all failure points", "anchors": ["coax/td_learning/_base.py: BaseTDLearning.update, apply_grads", "coax/policy_objectives/_base.py: PolicyObjective.update", "coax/model_updaters/_model_updater.py: ModelUpdater.update"]}
{"id": "C56", "title": "ConnectFour observations show the player to move in layer 0", "statement": "In every reachable state, s[1:,:,0] marks exactly the tokens of the player whose turn it is, s[1:,:,1] those of the other player, and s[0,:,:] marks exactly the columns that are not full.", "quantifier": "all reachable states", "why_tests_cant": "all histories; whose turn it is depends on the whole history", "anchors": ["coax/envs/_connect_four.py: ConnectFourEnv.state, ConnectFourEnv.step, ConnectFourEnv.reset"]}
{"id": "C57", "title": "safe_sample returns an element of the space", "statement": "For a Box space every component of safe_sample(space) lies between low and high; for a Discrete space the sample is one of start, ..., start+n-1.", "quantifier": "all bounds, all random draws", "why_tests_cant": "every box and every draw", "anchors": ["coax/utils/_array.py: _safe_sample, safe_sample"]}
{"id": "C58", "title": "argmax and argmin return an optimiser and can return each of them", "statement": "argmax(rng, arr) is an index at which arr is maximal, whatever the random key; for each index at which arr is maximal there is noise that selects it. Likewise argmin.", "quantifier": "all arrays, all noise values below 50 in size", "why_tests_cant": "all arrays with all patterns of ties and all keys", "anchors": ["coax/utils/_array.py: argmax, argmin"]}
{"id": "C59", "title": "quantile_cos_embedding is the cosine embedding of its documentation", "statement": "Component i of the embedding of tau is cos(pi*i*tau) for 0 <= i < n, and all components are in [-1,1].", "quantifier": "all fractions and all n", "why_tests_cant": "all real fractions and all dimensions", "anchors": ["coax/utils/_quantile_funcs.py: quantile_cos_embedding"]}
{"id": "C60", "title": "TrainMonitor.get_metrics averages what was recorded in the episode", "statement": "After any history, get_metrics() has exactly the names recorded since the last reset, each with the mean of all values recorded for it since then.", "quantifier": "all interleavings of reset, step, record_metrics and period", "why_tests_cant": "all histories", "anchors": ["coax/wrappers/_train_monitor.py: TrainMonitor.record_metrics, TrainMonitor.get_metrics, TrainMonitor.reset"]}
{"id": "C61", "title": "info[a_orig] records the actions of nested action wrappers", "statement": "When action wrappers are nested, the info returned by step has an entry a_orig listing the converted action of every wrapper, innermost first, whatever the number of wrappers and whatever info the environment returns.", "quantifier": "all nestings, all actions", "why_tests_cant": "any depth of nesting; info may be None", "anchors": ["coax/_base/mixins/_add_orig_to_info.py: AddOrigToInfoDictMixin._add_a_orig_to_info_dict", "coax/wrappers/_box_spaces.py: BoxActionsToReals.step, BoxActionsToDiscrete.step"]}
{"id": "C62", "title": "NormalDist.log_proba is the log-density of what NormalDist.sample returns", "statement": "log_proba(dist_params, X) is the log of the product of the gaussian densities with mean mu and variance exp(logvar), and sample is mu + sqrt(variance) * standard normal noise with the same (clipped) variance. mean and mode return mu, the only point at which log_proba is largest.", "quantifier": "all dimensions, parameters and points", "why_tests_cant": "a continuum of parameters; the clipping must agree in both functions", "anchors": ["coax/proba_dists/_normal.py: log_proba, sample, check_shape"]}
{"id": "C63", "title": "EmpiricalQuantileDist.affine_transform transforms the quantile function", "statement": "The transformed values describe scale*X + shift: the mean is scale*mean + shift and the values, which belong to increasing quantile fractions, are again sorted.", "quantifier": "all values, scales and shifts", "why_tests_cant": "needs negative scales and all lengths", "anchors": ["coax/proba_dists/_empirical_quantile.py: affine_transform, mean"]}
{"id": "C64", "title": "DiscretizedIntervalDist pre-/post-processing returns the nearest atom", "statement": "For every element X of the original Box, postprocess_variate(preprocess_variate(X)) is an atom at most half a bin away from X.", "quantifier": "all numbers of bins, intervals and elements", "why_tests_cant": "needs the edges of all bins and intervals", "anchors": ["coax/proba_dists/_discretized_interval.py: preprocess_variate, postprocess_variate"]}
{"id": "C65", "title": "Quantile Huber loss is calibrated", "statement": "quantile_huber(y, yhat, tau, w) is the weighted mean over the batch of the mean over predicted quantiles of the summed pairwise losses |tau - 1{y<yhat}| * huber / delta; a pair's loss is zero iff there is no error, over- and underestimates are weighted (1-tau) : tau, and the gradient with respect to a prediction that is at least delta away from all targets vanishes iff exactly the fraction tau of the targets lies below it.", "quantifier": "all batches, numbers of quantiles, quantile fractions, delta > 0", "why_tests_cant": "Calibration is a statement about the zero of the gradient for all sets of targets; unit tests compare a handful of values.", "anchors": ["coax/value_losses/_losses.py: quantile_huber, _mean_with_weights"]}
{"id": "C68", "title": "Distributional bootstrapping mixes distributions", "statement": "Where several next actions are bootstrapped at once (ties of the greedy action in QLearning, the policy average in ExpectedSarsa), the target distribution of a stochastic type-2 q-function is the corresponding mixture of the per-action distributions; in particular its mean is the average of the per-action means.", "quantifier": "all distribution parameters, all action mixtures", "why_tests_cant": "Needs ties or non-degenerate policies together with distributions of different shape; example-based tests only compare shapes or single actions.", "anchors": ["coax/_core/base_stochastic_func_type1.py: function_type1 (project)", "coax/td_learning/_qlearning.py: target_func", "coax/td_learning/_expectedsarsa.py: target_func"]}
{"id": "C66", "title": "The reported TD error is the label minus the prediction", "statement": "td_error returned by update (minus batch size times the gradient of the mean loss) equals G - Q for mse and that difference clipped to [-delta, delta] for huber, for every batch size; the gradient of the weighted loss with respect to any parameter is minus the mean of clipped weight * TD error * derivative of the prediction; the td_error metric is the mean of clipped weight * TD error, the td_error_targ metric the same for prediction minus target prediction, divided by the batch size once more.", "quantifier": "all batches, predictions, labels, weights, parameters", "why_tests_cant": "a statement about derivatives at all points, including the kinks of huber", "anchors": ["coax/td_learning/_base.py: loss_func", "coax/value_losses/_losses.py: mse, huber"]}
{"id": "C67", "title": "Importance weights scale each transition's share of the loss", "statement": "In every TD-learning class the loss of a batch is the mean over transitions of importance weight, clipped to [0.1, 10], times the transition's loss, whatever the type of value function (deterministic, quantile, discretized interval).", "quantifier": "all batches and weights", "why_tests_cant": "weights are one in most tests; the omission is invisible unless a weighted distributional batch is checked", "anchors": ["coax/td_learning/_base.py: loss_func"]}
{"id": "C69", "title": "VanillaPG follows the policy gradient", "statement": "The gradient of the VanillaPG objective is the mean of W*Adv*grad log pi(a|s); for an action drawn from the (categorical) policy itself the expected gradient is the gradient of the expected advantage, whatever constant baseline has been subtracted from the advantages.", "quantifier": "all batches, weights, advantages, baselines and differentiable parametrisations", "why_tests_cant": "a statement about derivatives and expectations over all policies", "anchors": ["coax/policy_objectives/_vanilla_pg.py: VanillaPG.objective_func", "coax/proba_dists/_categorical.py: log_proba"]}
{"id": "C70", "title": "Deterministic and soft policy gradients optimise the stated q-values", "statement": "DeterministicPG's objective is the weighted mean of q(s, mode of pi(s)); SoftPG's objective is the weighted mean of the minimum over all q-functions at the sampled action. Type-2 q-functions are rejected by DeterministicPG and an empty list of q-functions by SoftPG.", "quantifier": "all batches, weights, q-functions, numbers of q-functions", "why_tests_cant": "all numbers of q-functions and all values", "anchors": ["coax/policy_objectives/_deterministic_pg.py: DeterministicPG", "coax/policy_objectives/_soft_pg.py: SoftPG"]}
{"id": "C71", "title": "return_logp gives the log-probability of the returned action", "statement": "policy(s, return_logp=True) for a discrete action space returns an action a, drawn from the policy, together with log pi(a|s).", "quantifier": "all logits, temperatures of the relaxation, random draws", "why_tests_cant": "needs the joint behaviour of the relaxed sample, argmax and log_proba for all draws", "anchors": ["coax/_core/base_stochastic_func_type2.py: __call__", "coax/proba_dists/_categorical.py: sample, log_proba, postprocess_variate"]}
{"id": "C72", "title": "mode and mean are greedy", "statement": "policy.mode(s) and policy.mean(s) return a most probable action; for EpsilonGreedy with eps < 1 and for BoltzmannPolicy this is a maximiser of q.", "quantifier": "all logits, q-values, tie patterns", "why_tests_cant": "all reals and ties", "anchors": ["coax/_core/base_stochastic_func_type2.py: mode, mean", "coax/_core/value_based_policy.py: EpsilonGreedy, BoltzmannPolicy"]}
{"id": "C73", "title": "The metric kl_div_old estimates the KL divergence between old and new policy", "statement": "On actions drawn from the old policy the expected value of the reported metric kl_div_old is KL(old, new); in particular it is never negative in expectation and zero for equal policies.", "quantifier": "all pairs of policies", "why_tests_cant": "an expectation over all actions", "anchors": ["coax/policy_objectives/_base.py: loss_func"]}
{"id": "C74", "title": "Policy regularizers enter the loss with the documented sign and weight", "statement": "With an entropy regularizer the policy loss is -objective - beta * weighted mean of the entropy; with a KL regularizer it is -objective + beta * weighted mean of KL(pi, prior). Regularizer.batch_eval evaluates stochastic functions of both types.", "quantifier": "all batches, logits, weights, beta", "why_tests_cant": "all reals; the type-1 branch is never exercised by tests", "anchors": ["coax/regularizers/_entropy.py", "coax/regularizers/_kl_div.py", "coax/regularizers/_base.py: batch_eval", "coax/policy_objectives/_base.py: loss_func"]}
{"id": "C75", "title": "Copies are independent", "statement": "obj.copy() of a function approximator equals the original at the time of copying, and afterwards no operation on one (soft updates, assigning params or function_state, drawing random keys) changes the other. The copy continues from the same random key.", "quantifier": "all programs over any number of objects and copies", "why_tests_cant": "an aliasing property over all programs", "anchors": ["coax/_base/mixins/_copy.py: CopyMixin.copy", "coax/_core/base_func.py: BaseFunc.soft_update, params, function_state", "coax/_base/mixins/_random_state.py: rng"]}
{"id": "C76", "title": "Setters protect the structure of parameters and optimizer state", "statement": "Whatever sequence of updates and assignments a program makes, successful or not, the tree structure of params, function_state and optimizer_state stays as initialised, and the optimizer state always fits the current optimizer.", "quantifier": "all programs, optimizers and trees", "why_tests_cant": "an invariant over all programs", "anchors": ["coax/_core/base_func.py: params, function_state setters", "coax/td_learning/_base.py: optimizer, optimizer_state setters", "coax/policy_objectives/_base.py: optimizer, optimizer_state setters", "coax/model_updaters/_model_updater.py: setters"]}
{"id": "C77", "title": "Parameter replacement is all-or-nothing", "statement": "soft_update and apply_grads either complete, keeping the shapes of all arrays, or raise and leave the object as it was.", "quantifier": "all functions, gradients, optimizers", "why_tests_cant": "atomicity over all failure points", "anchors": ["coax/_core/base_func.py: BaseFunc.soft_update", "coax/td_learning/_base.py: apply_grads"]}
{"id": "C78", "title": "A rollout traces one episode", "statement": "Worker.rollout makes between 1 and max_episode_steps environment steps and calls trace once per step with exactly what policy and environment returned; only the last call can carry done. The trace calls of consecutive rollouts are seen by a reward tracer as one episode per rollout.", "quantifier": "all environments, policies, numbers of rollouts", "why_tests_cant": "all environments and policies", "anchors": ["coax/_core/worker.py: Worker.rollout"]}
{"id": "C79", "title": "buffer_sample waits for the warmup", "statement": "Worker.buffer_sample samples as soon as the buffer holds max(buffer_warmup, batch_size) transitions and never before, polling with doubling waits of at most 30 s; it always returns eventually.", "quantifier": "all histories of buffer lengths, warmups, batch sizes", "why_tests_cant": "an unbounded loop and liveness", "anchors": ["coax/_core/worker.py: Worker.buffer_sample"]}
{"id": "C80", "title": "Dotted attribute access", "statement": "pull_getattr('a.b.c') returns what push_setattr('a.b.c', x) stored; other attributes are unaffected; with a default a missing attribute gives the default.", "quantifier": "all objects, names, values", "why_tests_cant": "all paths and nestings", "anchors": ["coax/_core/worker.py: _getattr_recursive, _setattr_recursive"]}
{"id": "C81", "title": "The parameter store accumulates the updates of all learners", "statement": "After any interleaving of learn loops the state in the parameter store has learned from every batch used, and no worker ever sees a mixture of states.", "quantifier": "all numbers of learners and interleavings", "why_tests_cant": "a race: only some interleavings fail", "anchors": ["coax/_core/worker.py: Worker.learn_loop, pull_state, push_state"]}
{"id": "C82", "title": "Constructor arguments of StochasticRewardFunction take effect", "statement": "StochasticRewardFunction(func, env, value_range, num_bins, observation_preprocessor, action_preprocessor, value_transform, random_seed) uses the given arguments; its mean lies in value_range (default: the reward_range of the environment).", "quantifier": "all arguments", "why_tests_cant": "tests construct it with default arguments", "anchors": ["coax/_core/stochastic_reward_function.py: StochasticRewardFunction.__init__"]}
{"id": "C83", "title": "StochasticQ.mean(s) lists the means of the actions", "statement": "For a discrete action space entry a of StochasticQ.mean(s) equals StochasticQ.mean(s, a), for type-1 and type-2 functions and both kinds of value distributions.", "quantifier": "all functions, states, actions, numbers of bins", "why_tests_cant": "tests check shapes", "anchors": ["coax/_core/stochastic_q.py: StochasticQ.mean", "coax/_core/base_stochastic_func_type1.py: BaseStochasticFuncType1.mean"]}
{"id": "C84", "title": "SuccessorStateQ is the one-step lookahead", "statement": "SuccessorStateQ(v, p, r, gamma)(s, a) = r(s, a) + gamma * E[v(S') | s, a]; q(s) lists q(s, a) for all actions, for all model types of p and r.", "quantifier": "all v, p, r (both types, deterministic or stochastic), gamma, transforms", "why_tests_cant": "an expectation over all next states; tests check shapes", "anchors": ["coax/_core/successor_state_q.py: SuccessorStateQ"]}
{"id": "C85", "title": "RandomPolicy reports the log-propensity of a uniform draw", "statement": "RandomPolicy(env)(s, return_logp=True) returns a sample of the action space with its log-probability (Discrete) or log-density (Box); dist_params describe the same uniform distribution.", "quantifier": "all action spaces and samples", "why_tests_cant": "a density for all boxes", "anchors": ["coax/_core/random_policy.py: RandomPolicy"]}
{"id": "C86", "title": "ModelUpdater fits deterministic models", "statement": "ModelUpdater on a TransitionModel or RewardFunction minimises the importance-weighted mean loss; the loss is non-negative and zero exactly if the model predicts every (transformed) target; a regularizer adds its weighted mean.", "quantifier": "all batches, weights, transforms, loss functions", "why_tests_cant": "zero-loss characterisation for all batches", "anchors": ["coax/model_updaters/_model_updater.py: ModelUpdater"]}
{"id": "C87", "title": "ModelUpdater fits stochastic reward functions", "statement": "ModelUpdater accepts a StochasticRewardFunction and its loss compares the predicted reward of each transition with the reward of that transition.", "quantifier": "all batch sizes, bins, predictions", "why_tests_cant": "tests never update a StochasticRewardFunction", "anchors": ["coax/model_updaters/_model_updater.py: ModelUpdater.__init__"]}
{"id": "C88", "title": "ModelUpdater fits the distribution of stochastic transition models", "statement": "For a StochasticTransitionModel the expected loss of ModelUpdater is minimal at the distribution that generated the data.", "quantifier": "all means, variances, noise laws", "why_tests_cant": "an expectation over the sampling noise", "anchors": ["coax/model_updaters/_model_updater.py: ModelUpdater.__init__", "coax/proba_dists/_normal.py: NormalDist.sample"]}
{"id": "C89", "title": "Ornstein-Uhlenbeck action noise", "statement": "Each call adds the current value of the documented process X_t = X_(t-1) - theta (X_(t-1) - mu) + sigma eps (clipped) to the action; the noise has the closed form mu + sigma sum (1-theta)^j eps until clipping, starting values are forgotten geometrically, reset() restarts the process, and the output action is clipped to [min_value, max_value].", "quantifier": "all parameters, actions, draws, numbers of calls", "why_tests_cant": "a statement about whole call histories and all draws; integer actions are never tested", "anchors": ["coax/utils/_action_noise.py: OrnsteinUhlenbeckNoise"]}
{"id": "C90", "title": "Attributes of wrapped environments", "statement": "get_env_attr returns the attribute of the outermost layer that has it; has_env_attr is true exactly if get_env_attr succeeds; wrapping depth does not matter.", "quantifier": "all stacks of wrappers, all depths, all defaults", "why_tests_cant": "all nestings of wrappers", "anchors": ["coax/utils/_misc.py: has_env_attr", "coax/utils/_misc.py: get_env_attr"]}
{"id": "C91", "title": "Default preprocessor respects batches and distinguishes elements", "statement": "default_preprocessor of a batch has as its rows the preprocessed elements, for nested spaces too; different elements of a space have different preprocessed values; boxes are clipped to their bounds.", "quantifier": "all nested spaces, elements, batch sizes", "why_tests_cant": "all nested spaces; tests use a few fixed spaces with start=0", "anchors": ["coax/utils/_array.py: default_preprocessor"]}
{"id": "C92", "title": "unvectorize inverts batching", "statement": "If f is the batched version of g along in_axes/out_axes then unvectorize(f) is g on single instances; wrong numbers of axes raise the documented errors.", "quantifier": "all functions, axes, pytrees", "why_tests_cant": "for all functions and pytrees", "anchors": ["coax/utils/_array.py: unvectorize"]}
{"id": "C93", "title": "Batches of pytrees", "statement": "batch_to_single(single_to_batch(t)) is t; stack_trees puts the i-th tree at index i of every leaf, so batch_to_single(stack_trees(...), i) gives the i-th tree back; indices out of range are not silently replaced.", "quantifier": "all pytrees, shapes, list lengths, indices", "why_tests_cant": "all pytrees and lengths", "anchors": ["coax/utils/_array.py: batch_to_single", "coax/utils/_array.py: single_to_batch", "coax/utils/_array.py: stack_trees"]}
{"id": "C94", "title": "double_relu loses no information", "statement": "The two halves of double_relu(x) are min(x,0) and max(x,0); they add up to x, so the map is injective.", "quantifier": "all vectors", "why_tests_cant": "for all real inputs", "anchors": ["coax/utils/_array.py: double_relu"]}
{"id": "C95", "title": "Gradient diagnostics", "statement": "get_grads_diagnostics reports the largest magnitude and the euclidean norm over all components of the pytree (with keep_tree_structure, those of every leaf); get_magnitude_quantiles reports ordered quantiles with the extremes attained, independent of the arrangement of the tree.", "quantifier": "all pytrees", "why_tests_cant": "for all pytrees and real values", "anchors": ["coax/utils/_array.py: get_grads_diagnostics", "coax/utils/_array.py: get_magnitude_quantiles"]}
{"id": "C96", "title": "tree_sample samples rows jointly", "statement": "tree_sample takes the same indices of the batch axis from every leaf, refuses trees without a common batch size and samples larger than the batch, and respects `axis`.", "quantifier": "all pytrees, sample sizes, draws, axes", "why_tests_cant": "all draws; axis is never tested", "anchors": ["coax/utils/_array.py: tree_sample"]}
{"id": "C97", "title": "MetaPolicyEnv plays the wrapped environment", "statement": "After reset, every sequence of valid meta-actions is played in the wrapped environment with the actions of the selected policies at the latest observation; the info dict has these actions and log-propensities. Invalid meta-actions raise and leave the environment untouched. This holds on all python versions the package admits.", "quantifier": "all environments, policies, sequences of meta-actions, python versions admitted by setup.py", "why_tests_cant": "sequences of any length, arbitrary environments", "anchors": ["coax/wrappers/_meta_policy.py: MetaPolicyEnv"]}
{"id": "C98", "title": "render_episode renders an episode", "statement": "render_episode(env, policy) plays one episode until done, giving the policy the observations.", "quantifier": "all environments, all policies", "why_tests_cant": "no test calls render_episode with an environment", "anchors": ["coax/utils/_misc.py: render_episode"]}
{"id": "C99", "title": "check_preprocessors decides whether preprocessors agree", "statement": "For two or more preprocessors, check_preprocessors(space, *preprocessors) is True exactly if they are the same function on the space.", "quantifier": "all preprocessors, samples", "why_tests_cant": "for all functions and samples", "anchors": ["coax/utils/_array.py: check_preprocessors"]}
{"id": "C100", "title": "make_dmc honours its parameters", "statement": "make_dmc(domain, task, seed, ...) returns an environment with the requested parameters.", "quantifier": "all sequences of calls", "why_tests_cant": "depends on the history of the global registry", "anchors": ["coax/utils/_dmc_gym.py: make_dmc"]}
{"id": "C101", "title": "DeepMind Control wrapper follows the gymnasium interface", "statement": "Flattened observations that conform to their specs are elements of the observation space; rewards are passed on; the end of an episode by time limit is reported as truncated, not as terminated.", "quantifier": "all specs, observations, time steps", "why_tests_cant": "all specs; needs dm_control", "anchors": ["coax/utils/_dmc_gym.py: DMCEnv"]}
{"id": "C102", "title": "TD updates are semi-gradient steps", "statement": "The gradient that an update of a q-function uses is minus the mean over the batch of clipped weight times TD error (clipped by delta with the Huber loss) times the gradient of the prediction; nothing flows through the target, also when q_targ is q itself. For a linear layer on one-hot encodings, SGD changes exactly the entries of the pairs in the batch, by learning rate times this mean.", "quantifier": "all networks, targets, batches, weights, parameters", "why_tests_cant": "a derivative identity over all parameters; a test compares a few numbers", "anchors": ["coax/td_learning/_base.py: loss_func, grads_and_metrics_func, update"]}
{"id": "C103", "title": "Tabular TD learning converges", "statement": "For any finite deterministic environment, any program of updates on true transitions (in any order, with any batches) and target synchronisations never increases the distance to the solution of the Bellman equation; each round that updates every pair shrinks it by a fixed factor; hence QLearning, ExpectedSarsa and SoftQLearning converge to their Bellman solution, which for QLearning is the optimal value.", "quantifier": "all environments, initial tables, programs, batch sizes, weights, learning rates with lr * w <= 1", "why_tests_cant": "limits and arbitrary programs cannot be tested", "anchors": ["coax/td_learning/_qlearning.py", "coax/td_learning/_expectedsarsa.py", "coax/td_learning/_softqlearning.py", "coax/td_learning/_base.py", "coax/_core/base_func.py: soft_update"]}
{"id": "C104", "title": "The documented training loop learns the optimal values", "statement": "The loop of doc/examples/frozen_lake/qlearning.py (tracer NStep(n=1), update after every pop) over any number of complete episodes converges to the optimal values when every pair keeps being tried.", "quantifier": "all environments, episodes, initial tables", "why_tests_cant": "limits over unbounded interaction cannot be tested", "anchors": ["doc/examples/frozen_lake/qlearning.py", "coax/reward_tracing/_nstep.py", "coax/td_learning/_base.py"]}
{"id": "C105", "title": "A tracer in front of a replay buffer", "statement": "In the documented loop `tracer.add(...); while tracer: buffer.add(tracer.pop())` with a SimpleReplayBuffer, recording never raises; the buffer always holds the last `capacity` of the n-step (or Monte-Carlo) transitions of the recorded episodes, numbered in order; every sample of k transitions consists of k different ones of them; samples larger than the buffer raise ValueError.", "quantifier": "all sequences of recorded steps, samples and other uses of the random module, all n, gamma, capacities, all draws", "why_tests_cant": "a statement about the composition of two stateful objects over whole programs", "anchors": ["coax/reward_tracing/_nstep.py: NStep", "coax/reward_tracing/_montecarlo.py: MonteCarlo", "coax/experience_replay/_simple.py: SimpleReplayBuffer", "doc/examples/cartpole/dqn.py"]}
{"id": "C106", "title": "The training loops of the examples only train on genuine transitions", "statement": "Run on any sequence of episodes, the loops of doc/examples never raise, and every row of every sampled batch is an n-step transition within one of the played episodes.", "quantifier": "all sequences of episodes, terminated or truncated, all n, gamma, batch sizes, warm-ups", "why_tests_cant": "all interleavings of truncation and sampling; examples are not tested", "anchors": ["doc/examples/cartpole/dqn.py", "doc/examples/stubs/dqn.py", "doc/examples/pendulum/sac.py"]}
{"id": "C107", "title": "A tracer in front of a prioritized replay buffer", "statement": "In the documented loop with a PrioritizedReplayBuffer recording never raises; the buffer always holds the last `capacity` transitions of the recorded episodes whatever priorities, alpha, beta or epsilon were assigned; sampled rows carry their tracer weight times a factor in (0, 1]; calling update with the idx of the sample changes the priorities of exactly the sampled transitions.", "quantifier": "all programs of recording, updating and re-parametrising, all draws", "why_tests_cant": "composition of stateful objects over whole programs", "anchors": ["coax/reward_tracing/_nstep.py: NStep", "coax/experience_replay/_prioritized.py: PrioritizedReplayBuffer", "doc/examples/stubs/dqn_per.py"]}
{"id": "C108", "title": "What a prioritized batch is worth on average", "statement": "PrioritizedReplayBuffer.sample draws every row of a batch independently, transition k with probability priority_k / sum of the priorities of the stored transitions. The importance weights before their normalisation by the maximum of the batch (i.e. with beta = 1) make the mean weighted loss an unbiased estimate of the mean over the buffer; the delivered (normalised) weights lie between bounds that follow from the smallest and largest priority, and with equal priorities sampling is uniform with weight one.", "quantifier": "all buffer contents, priorities, batch sizes, functions of the batch; expectation over the uniform draws", "why_tests_cant": "the expected value of a random batch is an integral over all draws; statistical tests only see finitely many draws", "anchors": ["coax/experience_replay/_prioritized.py: PrioritizedReplayBuffer.sample", "coax/utils/_segment_tree.py: SumTree.sample"]}
{"id": "C109", "title": "A policy takes every action with its probability", "statement": "CategoricalDist.sample followed by postprocess_variate, and hence a call of a policy with discrete actions, returns category a with exactly the probability softmax(logits)_a, whatever gumbel_softmax_tau is and however ties are broken; EpsilonGreedy and BoltzmannPolicy therefore act with their textbook probabilities (up to the smoothing by 1e-15).", "quantifier": "all numbers of actions, logits, temperatures, tie-breaking noise; probability over the uniform draws", "why_tests_cant": "the probability is a multiple integral over all draws; frequencies of finitely many draws cannot settle it", "anchors": ["coax/proba_dists/_categorical.py: CategoricalDist.sample, postprocess_variate", "coax/_core/base_stochastic_func_type2.py: __call__", "coax/_core/value_based_policy.py: EpsilonGreedy, BoltzmannPolicy"]}
{"id": "C110", "title": "Ties are broken uniformly", "statement": "coax.utils.argmax and argmin return each of the k optimal positions with the same probability, which differs from 1/k by at most n*exp(-100), and any other position with probability at most exp(-100); the same holds for the action returned by policy.mode(s) when several actions are most likely.", "quantifier": "all arrays, all sets of ties; probability over the uniform draws behind jax.random.categorical", "why_tests_cant": "a probability over all draws; and a deviation of exp(-100) cannot be observed by sampling", "anchors": ["coax/utils/_array.py: argmax, argmin", "coax/_core/base_stochastic_func_type2.py: mode", "coax/proba_dists/_categorical.py: CategoricalDist.mode, postprocess_variate"]}
{"id": "C111", "title": "Distributions over composite spaces", "statement": "ProbaDist(space) is built exactly for (nested Tuple and Dict spaces of) Discrete, MultiDiscrete, MultiBinary and Box spaces; what is sampled, the mode and the mean are mapped by postprocess_variate to elements of the space. For spaces of integers an element is drawn with the product of the probabilities of its components, log_proba(preprocess_variate(x)) is the logarithm of that probability and postprocess_variate gives x back, the mode is a most likely element, the probabilities of all elements add up to 1 and the default priors make all elements equally likely. With boxes, log_proba of a preprocessed element is the sum of the log-probabilities of its integers and the log-densities of its raw coordinates, and every drawn element survives preprocessing and postprocessing.", "quantifier": "all spaces of any depth and width, all parameters, all random draws and tie-breaking noise", "why_tests_cant": "Tests sample a few fixed nested spaces and check shapes; a probability is an integral over the draws and the nesting is unbounded.", "anchors": ["coax/proba_dists/_composite.py:43-81", "coax/proba_dists/_composite.py:97-125", "coax/proba_dists/_composite.py:223-287"]}
{"id": "C112", "title": "Training from a replay buffer", "statement": "The loop of the DQN example - record the step in an n-step tracer (n=1), move popped transitions to the replay buffer, update from a sampled batch once the buffer is long enough, soft_update the target network - never raises when it is run on a finite deterministic environment with tables for q and q_targ and SGD; every sampled row is a true transition of the environment; the distance of q and q_targ to the solution of the Bellman equation never grows, and every stretch of training in which each state-action pair is sampled at least once multiplies it by at most 1 - tau*lr*cl/k*(1-gamma). With QLearning the values therefore come arbitrarily close to the largest discounted returns.", "quantifier": "all finite deterministic environments, all tables, all capacities, batch sizes and warm-ups, any draws of the buffer, any number of episodes and steps, QLearning, ExpectedSarsa and SoftQLearning, mse and Huber loss", "why_tests_cant": "Convergence is a statement about unboundedly long training; a test trains for a while with one seed and looks at the return.", "anchors": ["doc/examples/cartpole/dqn.py:43-75", "coax/experience_replay/_simple.py: add, sample", "coax/td_learning/_base.py: update", "coax/_core/base_func.py: soft_update"]}
{"id": "C113", "title": "Training with prioritized replay", "statement": "The loop of the prioritized DQN example - buffer.beta = b, record the step in an n-step tracer (n=1), add popped transitions with their TD error, update from a prioritized batch and write the new TD errors back, soft_update the target network - never raises when run on a finite deterministic environment with tables and SGD, in whatever order the calls are made; every sampled row is a true transition of the environment with an importance weight in (0, 1]; the distance of q and q_targ to the solution of the Bellman equation never grows, and every stretch in which each state-action pair is sampled and the target is then synchronised with rate at least tau0 multiplies it by at most 1 - tau0*lr/10*cl/B*(1-gamma), whatever the priorities. With QLearning the values come arbitrarily close to the largest discounted returns. Every combination of the last `capacity` transitions can be sampled.", "quantifier": "all finite deterministic environments, all tables, all alpha, beta, epsilon, capacities, batch sizes and warm-ups, all uniform draws, all TD errors, programs of any length with at most 2^31 recorded steps", "why_tests_cant": "Convergence is a statement about unboundedly long training, and priorities feed back into what is sampled; a test trains for a while with one seed.", "anchors": ["doc/examples/atari/dqn_per.py:57-83", "coax/experience_replay/_prioritized.py: add, sample, update", "coax/td_learning/_base.py: update, td_error"]}
{"id": "C114", "title": "Densities of continuous actions", "statement": "A policy over a Box draws its action with the density that is the product over the coordinates of the normal density of the raw coordinate ln((a-l)/(h-a)) and the factor (h-l)/((a-l)(h-a)): the draws for which the action falls into a given rectangle have exactly the probability that this density gives to the rectangle. log_proba(preprocess_variate(a)), which policy objectives and return_logp use, is the logarithm of that density; ratios of such log-probabilities (as in PPO) are ratios of densities; the log-probability returned with an action is log_proba of the preprocessed action.", "quantifier": "all boxes of any dimension, all parameters, all rectangles off the margins left by clip_reals, all draws", "why_tests_cant": "A probability is an integral over all draws; a histogram of samples cannot settle a density, and the missing factor of a change of variables does not show in shapes.", "anchors": ["coax/proba_dists/_normal.py:97-119", "coax/proba_dists/_normal.py:184-196", "coax/_core/base_stochastic_func_type2.py:30-34,64-70"]}
{"id": "C115", "title": "A function approximator that can be constructed can be called", "statement": "The constructors of V, Q, RewardFunction, Policy, StochasticV, StochasticTransitionModel and TransitionModel accept exactly the functions with the documented signature whose output for an example input has the required structure, shapes and (for V and Q) dtype, and raise TypeError for all others. Once constructed, the object can be called for every observation (and action) of the spaces: V and Q return a number, the mean of StochasticV lies in the value range, a Policy returns an action of the action space and the dynamics models return an observation of the observation space - also with a custom observation_preprocessor.", "quantifier": "all observation and action spaces of any depth, all traceable functions, all preprocessors that give trees of one form, all observations, actions and draws", "why_tests_cant": "Tests construct a few networks on fixed spaces; that the single check in the constructor suffices for all later calls is a statement about all functions and inputs.", "anchors": ["coax/_core/base_func.py:57-91", "coax/_core/v.py:67-161", "coax/_core/q.py:74-131,209-297", "coax/_core/transition_model.py:62-120,218-320", "coax/_core/base_stochastic_func_type1.py:29-57,196-246,379-432", "coax/_core/base_stochastic_func_type2.py:30-51,124-208"]}
{"id": "C116", "title": "Entropies, divergences and affine transformations of composite distributions", "statement": "For a distribution over a nested Tuple/Dict space, entropy, cross_entropy and kl_divergence are those of the joint distribution: over the list of all elements of the space (if made of integers) they are the Shannon sums, entropy lies between 0 and ln(number of elements) and reaches it only for the uniform distribution, and kl_divergence is non-negative and 0 exactly if both parameters give the same distribution; with boxes inside, cross_entropy = entropy + kl_divergence and kl_divergence is 0 exactly if the log-probabilities agree. Parameters with a missing component are refused. affine_transform gives the distribution of X*scale+shift at each component, also under a (nested) value_transform.", "quantifier": "all nested spaces of any depth and size, all parameters, all scales, shifts and transforms", "why_tests_cant": "Joint entropies are sums over a number of elements that is exponential in the size of the space; tests compare a few flat distributions.", "anchors": ["coax/proba_dists/_composite.py:129-207", "coax/proba_dists/_base.py:205-345", "coax/proba_dists/_normal.py:121-168", "coax/proba_dists/_categorical.py:86-106"]}
{"id": "C117", "title": "Learning in stochastic environments", "statement": "In a finite environment whose transitions depend on noise, value updates with a table and SGD never raise, and whatever the noise and whatever is replayed the values approach the interval between the values under the worst and the best luck, at a rate of 1 - tau0*lr*wl*cl/B*(1-gamma) per round; rewards bounded by r keep the q-values bounded by r/(1-gamma). With a fresh noise for each row the mean of the q-values over the noise approaches the solution of the Bellman equation of the mean environment, at the same rate, for ExpectedSarsa with the squared loss and for QLearning; the values themselves settle.", "quantifier": "all finite environments with any number of noise values and any distribution on them, all tables, all learning rates, batches, synchronisations, any number of rounds", "why_tests_cant": "A mean over all noise sequences of unbounded length; a test trains with one seed, and the bias of the maximum cannot be told from the noise of a single run.", "anchors": ["coax/td_learning/_base.py: update", "coax/td_learning/_q_learning.py, _expected_sarsa.py, _soft_q_learning.py: target_func", "coax/_core/base_func.py: soft_update", "doc/examples/frozen_lake/qlearning.py, expected_sarsa.py"]}
{"id": "C118", "title": "REINFORCE follows the gradient of the expected return", "statement": "The documented REINFORCE loop (Monte-Carlo tracer, VanillaPG with Adv = Rn, SGD) changes the parameters after each episode by gradient ascent on G_t ln pi(A_t|S_t), one step after the other, and never raises. To first order in the learning rate the mean change of the parameters is the gradient of the expected (discounted) return; therefore, unless the gradient is zero, all sufficiently small learning rates improve the expected return in the mean. In a table of logits without bias the sum of the logits of a state never changes.", "quantifier": "all differentiable networks, all finite action sets, all environments with finitely many noise values, all horizons, all gamma in [0,1], all initial parameters and episodes", "why_tests_cant": "A statement about the derivative of a mean over all episodes; a test sees single noisy episodes, and the missing factor of a biased gradient does not show in any run.", "anchors": ["doc/examples/stubs/reinforce.py, reinforce.rst", "coax/policy_objectives/_vanilla_pg.py, _base.py", "coax/reward_tracing/_montecarlo.py", "coax/_core/base_stochastic_func_type1.py, coax/proba_dists/_categorical.py"]}
{"id": "C119", "title": "Actor-critic training with TD errors as advantages", "statement": "The documented A2C loop (n-step tracer, SimpleTD with or without target network, VanillaPG with Adv = td_error, soft updates, SGD) updates critic, actor and target network once for each step of an episode, in order of time, with the n-step TD error of the current critic, and never raises. The values of a table stay within the bound on discounted sums of rewards. If the critic is the value function of the policy, the mean TD error after an action is the advantage of that action, for every n, and the mean of sum_t gamma^t TD_t grad ln pi is the gradient of the expected return; any baseline leaves the mean direction unchanged. Therefore, without discounting and unless the gradient is zero, all sufficiently small learning rates improve the expected return in the mean.", "quantifier": "all differentiable value and policy networks, all n >= 1, all environments with finitely many noise values, all gamma in [0,1], all learning rates, all parameters and episodes, any number of episodes", "why_tests_cant": "A statement about means over all episodes and derivatives with respect to learning rates; a test sees single noisy episodes, and that a loss function clips the advantages does not show in any run.", "anchors": ["doc/examples/frozen_lake/a2c.py", "doc/examples/stubs/a2c.rst, a2c.py", "coax/td_learning/_base.py:222-330, _simple_td.py", "coax/policy_objectives/_vanilla_pg.py, _base.py", "coax/value_losses/_base.py: mse, huber", "coax/reward_tracing/_nstep.py"]}
{"id": "C120", "title": "PPO-clip updates: gradient, stopping, guaranteed improvement", "statement": "One PPOClip update from a batch of any size (SGD) moves the parameters by the learning rate times the mean over the rows of clipped weight x advantage x probability ratio x grad ln pi, where rows whose ratio is beyond the bound to which their advantage points contribute nothing; batches of such rows leave the parameters alone however often they are used. With log-propensities of the present policy the update is that of VanillaPG. While all ratios are within the bounds, the gradient is unbiased under sampling from the old policy. With exact advantages of the old policy, if in no state the mean loss of the new parameters is above 0, the expected return improves by at least minus the mean loss over the start states.", "quantifier": "all differentiable networks, all finite action sets, all batches, all epsilon, all environments with finitely many noise values, all horizons, all pairs of old and new parameters", "why_tests_cant": "The bound compares expected returns of two policies over all episodes; a test sees sampled returns of a few parameter values, and neither ignored rows nor a biased ratio raise anything.", "anchors": ["coax/policy_objectives/_ppo_clip.py", "coax/policy_objectives/_base.py", "doc/examples/stubs/ppo.py, frozen_lake/ppo.py, atari/ppo.py", "coax/_core/base_stochastic_func_type1.py: __call__, coax/proba_dists/_categorical.py: sample"]}
{"id": "C121", "title": "On-policy training in rounds", "statement": "The documented PPO and A2C loops with a buffer (n-step tracer, SimpleReplayBuffer that is emptied after every round, 4*capacity//32 batches per round) never raise if the buffer is at least as large as a batch. A round takes place at the first step at which `capacity` transitions have become available since the last one; its batches consist of different ones of the last `capacity` transitions, each the n-step transition of one time step with the log-propensity recorded at that step. No transition is used in two rounds; between two rounds at least capacity and at most capacity + n transitions become available, exactly capacity unless an episode ended; at most n of them were taken before the last round.", "quantifier": "all n >= 1, gamma in [0,1], capacities, batch sizes, random generators, all streams of episodes of any lengths", "why_tests_cant": "Which steps are dropped depends on where episodes end relative to the filling of the buffer; the loss of transitions and rounds without updates raise nothing, and no test counts the steps that were used.", "anchors": ["doc/examples/stubs/ppo.py, a2c.py", "doc/examples/atari/ppo.py", "coax/experience_replay/_simple.py: add, sample, clear", "coax/reward_tracing/_nstep.py"]}
{"id": "C122", "title": "TD learning with a policy regularizer", "statement": "An update of QLearning, ExpectedSarsa or SoftQLearning with an EntropyRegularizer or KLDivRegularizer adds to the target of each row the bonus of its state (beta times the entropy of the policy there, or minus beta times its divergence from the prior), also for rows at which the episode ends. Training therefore converges, from any table and at the rate of unregularised training, to the only solution of the Bellman equation with these bonuses as extra rewards. With ExpectedSarsa and the entropy of the same policy, that solution less the bonus of the state solves the soft Bellman equation of soft actor-critic, and its mean over the policy is the expected discounted sum of rewards and entropies. This holds for transitions of any number of steps.", "quantifier": "all finite environments, all policies and priors given by logits, all beta, gamma in [0,1), all tables, learning rates, batches, synchronisations, any number of rounds", "why_tests_cant": "Which values a regularised learner converges to is a limit of unboundedly many updates; a test sees a few updates, and whether the bonus belongs to this or to the next state changes no shape and raises nothing.", "anchors": ["coax/td_learning/_base.py:374-468", "coax/regularizers/_base.py:69-89, _entropy.py, _kl_div.py", "coax/reward_tracing/_nstep.py: pop"]}
{"id": "C123", "title": "Double and clipped double Q-learning converge to the optimal values", "statement": "In a finite deterministic environment, training of tables with SGD and DoubleQLearning (one learner, with or without target network) or ClippedDoubleQLearning (any number K >= 2 of learners that share their target networks) never raises; an update changes the table of one learner only, towards targets that bootstrap with the greedy actions of q_targ according to q, or with the least value of the greedy actions of all target networks according to all target networks. Values never leave bounds that hold whatever the later actions are, and initial errors outside them shrink by 1 - tau0*lr*wl*cl/B*(1-gamma) per round. From any tables the values converge to the solution of the Bellman optimality equation; in particular they do not exceed it in the end.", "quantifier": "all finite deterministic environments, all gamma in [0,1), all tables, learning rates, batches, numbers of learners, soft updates, orders of the calls, any number of rounds", "why_tests_cant": "Convergence is a limit over unboundedly long programs, and whether it holds depends on how updates of the pairs and synchronisations are interleaved; a test trains one environment for a while in one order.", "anchors": ["coax/td_learning/_doubleqlearning.py:99-134", "coax/td_learning/_clippeddoubleqlearning.py:205-333", "coax/td_learning/_base.py: update", "coax/_core/base_func.py: soft_update", "doc/examples/frozen_lake/double_qlearning.py", "doc/examples/stubs/td3.py"]}
{"id": "C124", "title": "Training with value transforms learns the untransformed values", "statement": "In a finite deterministic environment, training tables with SGD and QLearning, ExpectedSarsa or SoftQLearning when the q-function has a value transform (an increasing function with its inverse, e.g. LogTransform of any scale) changes the transforms of the values that users get towards the transforms of reward plus discounted value of the next state. From any tables the values that users get by calling q converge to the same values as without the transform, at a constant rate per round that depends on how much the slopes of the transform vary; also if rewards are noisy.", "quantifier": "all finite environments, all increasing transforms, all scales of LogTransform, all gamma in [0,1), all tables, learning rates, losses (mse, huber with any delta), batches, synchronisations, any number of rounds", "why_tests_cant": "A limit over unboundedly many updates of a non-linear recursion; tests compare a single transformed target with a hand-computed one, and a bias or a second fixed point raises nothing.", "anchors": ["coax/_core/q.py:74-131", "coax/value_transforms/_log_transform.py", "coax/td_learning/_qlearning.py:111-146, _expectedsarsa.py:100-118, _softqlearning.py:95-106", "coax/td_learning/_base.py:393-447"]}
{"id": "C125", "title": "What an agent earns with a learned q-function", "statement": "An agent that plays in a finite deterministic environment with the mode, the mean or samples of EpsilonGreedy(q) or BoltzmannPolicy(q) earns a discounted sum of rewards that is within a computable distance of the largest possible one: with modes at most 2D per step less when q(s,a) is everywhere within D of the optimal values, with samples additionally temperature*ln(n) for BoltzmannPolicy and epsilon times the largest cost of an action for EpsilonGreedy. Every q-function that is close enough plays exactly optimally, so the final episode of frozen_lake/qlearning.py is optimal after enough training episodes. Updates on genuine transitions improve the agent.", "quantifier": "all finite deterministic environments, all gamma in [0,1], all q-functions (any network, either type), any increasing value transform, all epsilons and temperatures, all tie-breaking noise and sampling draws, episodes of any length", "why_tests_cant": "Relates errors of values to returns over unboundedly long episodes and to expectations over all random draws; a test can run a few episodes of one environment.", "anchors": ["coax/_core/value_based_policy.py:22-46, 185-198, 250-257", "coax/_core/base_stochastic_func_type2.py:30-46", "doc/examples/frozen_lake/qlearning.py:33-77"]}
{"id": "C126", "title": "Deterministic policy gradients in training (DDPG with discrete actions)", "statement": "One DeterministicPG update of a table of logits (SGD) moves the logits of a state by the learning rate times its mean clipped weight in the batch times softmax(logits/tau) times the advantage of each action under the critic, divided by tau. It never lowers the value of the policy under the critic in any state, whatever the learning rate. In every state that keeps occurring in the batches the value converges to the largest value of the critic; and in the whole DDPG loop, where the critic is trained at the same time by QLearning (with or without target networks), it converges to the optimal value, so that from some call on the mode of the policy acts optimally, whatever the initial tables. The number of calls needed can be bounded in advance.", "quantifier": "all finite deterministic environments, gamma in [0,1), all initial tables, learning rates of the policy, temperatures tau, batches of bounded size, all orders of policy updates, critic updates and synchronisations in which every M calls contain a round of the critic, either network as the critic of DeterministicPG", "why_tests_cant": "A limit over unboundedly many calls while the target of the optimisation moves; softmax policies have stationary points at every vertex, and a test cannot see that none of them is a limit. Finite runs cannot show that no bound exists.", "anchors": ["coax/policy_objectives/_deterministic_pg.py:58-137", "coax/policy_objectives/_base.py:45-176", "coax/td_learning/_qlearning.py:92-146", "doc/examples/frozen_lake/ddpg.py:15-80"]}
{"id": "C127", "title": "A model-based agent learns the action values of its data", "statement": "Train tables v (SimpleTD), p (ModelUpdater of a TransitionModel) and r (ModelUpdater of a RewardFunction) with SGD on the batches of a data set, in any order. The entries of p and r tend to the weighted empirical frequencies and mean rewards at an exact geometric rate, v to the unique solution of the Bellman equations of the data, and q = SuccessorStateQ(v, p, r, gamma), which is not trained itself, to mean reward plus gamma times mean next value for every pair in the data: the action values of the policy that the data shows. Acting greedily on q is then at least as good in every state as the policy that collected the data. This also holds for episodic tasks, with transitions recorded by a tracer.", "quantifier": "all finite data sets in which every state occurs, all importance weights, gamma in [0,1), learning rates that fit the weights, initial tables, squared or Huber losses, all interleavings and numbers of updates", "why_tests_cant": "Three coupled recursions over unboundedly many updates in any order; a composite q-function that is never updated itself, where a wrong limit raises nothing. Tests check one call of SuccessorStateQ.", "anchors": ["coax/_core/successor_state_q.py:105-243", "coax/model_updaters/_model_updater.py:56-170", "coax/td_learning/_base.py:222-318, _simple_td.py:71-81", "coax/reward_tracing/_nstep.py:64-98", "doc/examples/cartpole/model_based.py:36-70"]}
{"id": "C128", "title": "Distributional TD learning in training", "statement": "Train a categorical StochasticQ (DiscretizedIntervalDist) with Sarsa or QLearning on the batches of a data set, SGD on a table of logits. One update moves every logit by the learning rate times the mean over the batch of (target probability - probability) for its pair, where the target is the distribution of the clipped Rn + In*Z of the next pair, projected on the atoms and floored at 1e-16; importance weights rescale the rows. With a target network that is synchronised after long enough rounds, the distributions returned by q.dist_params converge, in Wasserstein distance, to the unique solution of the projected distributional Bellman equations of the data, up to the exact cost of the floor, and the values q(s,a) to the action values of the data if the value range is large enough; for QLearning to the optimal ones. When the next action is a mixture (tied greedy actions, ExpectedSarsa), the mean of the target is the mean value of the mixture.", "quantifier": "all finite data sets in which every pair occurs, all numbers of bins, value ranges, bootstrap factors in [0,gamma], gamma<1, learning rates in (0,1), initial logits, importance weights, with and without a target network for single updates", "why_tests_cant": "A limit in a metric on distributions over unboundedly many updates of a nonlinear (softmax) parametrisation; the projection and the floor change every target, so a test on one transition only shows that the loss goes down.", "anchors": ["coax/td_learning/_base.py:379-511", "coax/td_learning/_sarsa.py:114-127, _qlearning.py:111-146, _expectedsarsa.py:100-121", "coax/proba_dists/_discretized_interval.py:69-160", "doc/examples/frozen_lake/stochastic_sarsa.py, stochastic_qlearning.py, stochastic_expected_sarsa.py"]}
{"id": "C129", "title": "Quantile TD learning in training", "statement": "Train a quantile StochasticQ (value_range=None, EmpiricalQuantileDist) with Sarsa or QLearning, SGD on a table of K values per pair. One update moves every value by learning rate/(batch size * K) times the sum, over the rows of its pair, of the clipped importance weight times the quantile Huber pulls of the K targets Rn + In*z' of the next pair; a soft update of q_targ mixes the tables. On deterministic data every quantile of every pair, and q.mean, converges to the action value of the data: for batches in any order and of any composition, any quantile fractions that stay away from 0 and 1, any weights, with or without a target network, as long as every pair is visited again and again and q_targ is updated again and again; for QLearning near the optimal values. With random rewards the values converge to a unique limit whose mean is the action value.", "quantifier": "all numbers of states, actions, quantiles, all deterministic data sets, batches up to any size, fractions in [t0,1-t0], weights, learning rates with lr*weight<=1, gamma<1, initial values, all sequences of updates and soft updates", "why_tests_cant": "Convergence of an asynchronous nonlinear recursion (clipped, kinked loss) over unboundedly many updates with random fractions; with random rewards a wrong value is stationary, so nothing fails.", "anchors": ["coax/td_learning/_base.py:410-427, 493-511", "coax/td_learning/_sarsa.py:114-127, _qlearning.py:111-146", "coax/value_losses/_losses.py:189-238", "coax/proba_dists/_empirical_quantile.py:26-66", "doc/examples/cartpole/iqn.py"]}
{"id": "C130", "title": "Training with the default optimizer", "statement": "Learners that are created without an optimizer use optax.adam(1e-3). Whatever network, loss, rewards and importance weights, an update moves every number of the parameters by -lr times the faded (exponentially weighted) average of its gradients, divided by eps plus the root of the faded average of their squares; in particular by at most lr*sqrt((1-b1)/(1-b2)), that is 1/100 with the defaults, and by lr*|g|/(|g|+eps) in the first update. A table trained by QLearning, ExpectedSarsa or SoftQLearning with a target network that is not synchronised has every value that keeps occurring in the batches within that bound of its target infinitely often. An update changes only the values of the pairs in its batch, and brings them closer to their targets.", "quantifier": "all networks, losses, sequences of updates, hyperparameters with b1 <= b2 < 1; all tables, environments, batches and weights for the last three sentences", "why_tests_cant": "a test can run a few updates from one initialisation; the bounds hold for every history of gradients, and the return to the targets is about infinite runs", "anchors": ["coax/td_learning/_base.py:24-45,60-116", "coax/policy_objectives/_base.py:32-43,86-176", "coax/model_updaters/_model_updater.py:52-72", "doc/examples/frozen_lake/qlearning.py:15-54"]}
{"id": "C131", "title": "What an agent earns in a stochastic environment", "statement": "Play episodes in an environment whose rewards, next states and ends are random, with the mode, the mean or samples of EpsilonGreedy or BoltzmannPolicy on a q-function whose returned numbers are at most D away from the optimal mean action values. No step raises; the mean discounted return over the noise of the environment is at most 2D (plus the cost of the samples) per step below the optimal one, and no strategy, even one that uses everything it has observed, earns more. If luck cannot change which action is best, Q-learning on whatever sampled transitions makes the greedy agent optimal after finitely many rounds; and in general, training long enough makes the greedy agent optimal with a probability as close to 1 as wanted.", "quantifier": "all finite stochastic environments, q-functions, policies, numbers of steps, strategies with memory; all executions of training", "why_tests_cant": "the mean over all noise sequences of all lengths, against all strategies with memory, cannot be sampled; with a constant learning rate the failures of a trained agent are rare events that recur for ever", "anchors": ["coax/_core/value_based_policy.py:86-257", "coax/_core/base_stochastic_func_type2.py:30-60", "doc/examples/frozen_lake/qlearning.py:61-77", "coax/td_learning/_qlearning.py:92-146"]}
{"id": "C132", "title": "Learning rate schedules", "statement": "Pass an optimizer with a learning rate that depends on the number of updates, optax.sgd(schedule), to QLearning, ExpectedSarsa or SoftQLearning with a table, and train it on random transitions, in a contextual bandit or with a target network that is kept. After n updates the mean square error of every value is exactly that of the recursion (1-c_k)^2 e + c_k^2 var with the learning rates c_k of its updates; with 1/(k+1) the value of a pair that is always updated is the average of all its targets in every execution, whatever the initial table. With learning rates that tend to 0 and, for each pair, have an infinite sum, the values settle at the mean targets, and in a contextual bandit the probability that the greedy agents of the trained table choose anything but the best action tends to 0. Every schedule of positive learning rates that tend to 0 lets the values settle.", "quantifier": "all tables, schedules, orders of the pairs, numbers of updates, distributions of the noise, environments that end after one step or fixed target networks", "why_tests_cant": "means over all noise sequences of any length; the rates needed are conditions on infinite sums, and a schedule that decays too fast stops silently at a wrong value", "anchors": ["coax/td_learning/_base.py:24-45,60-116,184-205", "coax/td_learning/_qlearning.py:92-146", "coax/_core/value_based_policy.py:86-257"]}
{"id": "C133", "title": "A target network with another value transform", "statement": "The targets of QLearning are built with the value transform of q and the inverse transform of q_targ, so q_targ may have another value transform than q: an update moves every value of q, on the scale of its own transform, towards reward plus discount times the largest number that q_targ(s') returns. q_targ.soft_update(q, tau) mixes transformed values, each made with its own transform. After q_targ.soft_update(q, 1), q_targ returns what q returns, and alternating updates and synchronisations keeps the values of q bounded.", "quantifier": "all tables, both types of q-functions, all pairs of invertible value transforms, squared and Huber losses, batches, weights, learning rates, tau", "why_tests_cant": "the two transforms meet only in the update of a learner, tests use the same one for both; the divergence needs unboundedly many rounds", "anchors": ["coax/td_learning/_qlearning.py:92-146", "coax/value_transforms/_log_transform.py:27-53", "coax/_core/base_func.py:88-125", "coax/_core/q.py:74-132"]}

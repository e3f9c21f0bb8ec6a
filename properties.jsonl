{"id": "C01", "title": "Core.learn consumes exactly its step budget and fits on schedule", "statement": "Core.learn(n_steps=N, n_steps_per_fit=k) with k>=1 performs exactly N environment steps, calls agent.fit exactly floor(N/k) times, and every dataset handed to fit holds exactly k samples.", "quantifier": "every N, every k>=1, every environment, agent (including agents whose behaviour changes at each fit) and horizon", "why_tests_cant": "A test fixes one pair (N,k) and one environment; the loop invariant relating the counters to the dataset must hold for every interleaving of episode ends and fits.", "anchors": ["mushroom_rl/core/core.py:Core.learn", "mushroom_rl/core/core.py:Core._run", "mushroom_rl/core/_impl/core_logic.py:CoreLogic"]}
{"id": "C02", "title": "Every collected sample is fitted once, in order, and none is duplicated", "statement": "Concatenating the datasets passed to successive agent.fit calls of one learn call, followed by the samples still unfitted at the end, gives exactly the sequence of transitions produced by the environment; with a step schedule fewer than k samples stay unfitted, with an episode schedule fewer than k complete episodes stay unfitted.", "quantifier": "every learn call (both move budgets x both fit schedules), every environment and agent", "why_tests_cant": "Losing or duplicating one sample at a fit boundary only shows for particular alignments of episode ends and fits.", "anchors": ["mushroom_rl/core/core.py:Core._run", "mushroom_rl/core/dataset.py:Dataset.append", "mushroom_rl/core/dataset.py:Dataset.clear"]}
{"id": "C03", "title": "Core.learn with an episode budget runs whole episodes and fits on whole episodes", "statement": "Core.learn(n_episodes=N, n_episodes_per_fit=k) stops right after the N-th episode end; agent.fit is called floor(N/k) times and every fit dataset contains exactly k complete episodes and ends with an episode end.", "quantifier": "every N, every k>=1, every environment whose episodes all end, every agent", "why_tests_cant": "Episode lengths are unbounded and data dependent; a test samples a handful of them.", "anchors": ["mushroom_rl/core/core.py:Core._run", "mushroom_rl/core/_impl/core_logic.py:CoreLogic"]}
{"id": "C04", "title": "Core.evaluate never trains and returns exactly what was asked", "statement": "Core.evaluate never calls agent.fit; with n_steps=N the returned dataset has N samples, with n_episodes=N it has exactly N complete episodes and nothing after the last one, with initial_states it has one episode per given state and the i-th episode is started from initial_states[i]. This holds whatever learn calls preceded.", "quantifier": "every budget, every previous history of learn/evaluate calls on the same Core", "why_tests_cant": "The interference of an earlier learn call with a later evaluate call is a property of histories.", "anchors": ["mushroom_rl/core/core.py:Core.evaluate", "mushroom_rl/core/_impl/core_logic.py:CoreLogic.initialize_evaluate", "mushroom_rl/core/_impl/core_logic.py:CoreLogic.get_initial_state"]}
{"id": "C05", "title": "Transitions chain and the last flag means absorbing-or-horizon", "statement": "In the sample stream of a run, a sample is flagged last iff its next state is absorbing or it is the horizon-th sample of its episode; after a non-last sample the next sample starts from its next_state; after a last sample the next one starts from a fresh reset; no episode is longer than the horizon.", "quantifier": "every run, environment, agent, horizon>=1", "why_tests_cant": "Requires an inductive argument over runs of arbitrary length.", "anchors": ["mushroom_rl/core/core.py:Core._step", "mushroom_rl/core/core.py:Core._reset"]}
{"id": "C06", "title": "The preallocated dataset of Core never overflows", "statement": "During Core.learn and Core.evaluate the dataset never receives more samples than it has room for (n_steps rows, or horizon x n_episodes rows).", "quantifier": "every run with a finite horizon, every fit schedule", "why_tests_cant": "An overflow would only appear for the worst-case episode lengths.", "anchors": ["mushroom_rl/core/dataset.py:Dataset.__init__", "mushroom_rl/core/_impl/numpy_dataset.py:NumpyDataset.append", "mushroom_rl/core/core.py:Core._run"]}
{"id": "C07", "title": "VectorCore runs exactly the requested number of episodes", "statement": "For VectorCore with n_episodes=N (and a fresh core), at every iteration completed episodes plus running environments never exceeds N, the run stops with exactly N completed episodes, an environment whose episode is in progress is never dropped, and the episode mask assignment is always well-shaped. With n_episodes_per_fit=k, each fit sees exactly k completed episodes.", "quantifier": "every number of environments, every pattern of simultaneous terminations, every N and k", "why_tests_cant": "The number of termination patterns is exponential in environments and time.", "anchors": ["mushroom_rl/core/_impl/vectorized_core_logic.py:VectorizedCoreLogic", "mushroom_rl/core/vectorized_core.py:VectorCore._run"]}
{"id": "C08", "title": "VectorCore.evaluate does not depend on earlier learn calls", "statement": "VectorCore.evaluate(n_episodes=N) terminates with N complete episodes whatever learn calls were made before on the same core.", "quantifier": "every history of learn/evaluate calls", "why_tests_cant": "History dependence; the repository test evaluates before it learns.", "anchors": ["mushroom_rl/core/_impl/core_logic.py:CoreLogic.initialize_evaluate", "mushroom_rl/core/_impl/vectorized_core_logic.py:VectorizedCoreLogic.get_mask"]}
{"id": "C09", "title": "VectorCore step budgets overshoot by less than one sweep", "statement": "VectorCore with n_steps=N executes at least N and fewer than N+n_envs environment steps, and at each fit with n_steps_per_fit=k at least k and fewer than k+n_envs steps were executed since the previous fit.", "quantifier": "every N, k, n_envs and termination pattern", "why_tests_cant": "Counter arithmetic over all schedules.", "anchors": ["mushroom_rl/core/_impl/vectorized_core_logic.py:VectorizedCoreLogic.after_step", "mushroom_rl/core/vectorized_core.py:VectorCore._run"]}
{"id": "C10", "title": "VectorCore fits use each transition exactly once and its buffer never overflows", "statement": "With n_steps_per_fit=k, the fit datasets of VectorCore.learn partition the collected transitions (up to a bounded remainder) and the vectorised dataset never needs more rows than were allocated.", "quantifier": "every k and n_envs, every run length", "why_tests_cant": "Only multiples of n_envs are tested in the repository; the carry-over of surplus samples accumulates over many fits.", "anchors": ["mushroom_rl/core/dataset.py:VectorizedDataset.clear", "mushroom_rl/core/dataset.py:VectorizedDataset.flatten", "mushroom_rl/core/_impl/numpy_dataset.py:NumpyDataset.get_view"]}
{"id": "C11", "title": "Returns, lengths and initial states are computed per episode", "statement": "compute_J returns one discounted sum per episode (a trailing incomplete episode counts as one, an empty dataset gives [0]); episodes_length lists lengths of complete episodes and their sum is the index after the last episode end; n_episodes equals the number of returns of compute_J; get_init_states returns the first state of each episode; select_first_episodes(n) returns exactly the prefix holding the first n complete episodes; compute_metrics only uses complete episodes.", "quantifier": "every dataset (any rewards, any pattern of last flags), every gamma", "why_tests_cant": "Universally quantified over flag patterns and real rewards.", "anchors": ["mushroom_rl/core/dataset.py:Dataset.compute_J", "mushroom_rl/core/dataset.py:Dataset.episodes_length", "mushroom_rl/core/dataset.py:Dataset.get_init_states", "mushroom_rl/core/dataset.py:Dataset.select_first_episodes", "mushroom_rl/core/dataset.py:Dataset.compute_metrics", "mushroom_rl/core/_impl/numpy_dataset.py:NumpyDataset.n_episodes"]}
{"id": "C12", "title": "Dataset container semantics: append, index, slice, concatenate, clear", "statement": "A dataset behaves as the list of appended samples: integer indexing and slicing agree with list indexing and slicing, a+b is the list concatenation with only the flag of the boundary sample forced to last, clear gives the empty list.", "quantifier": "every sequence of operations, every buffer capacity", "why_tests_cant": "Refinement over arbitrary operation sequences, including negative indices on partly filled buffers.", "anchors": ["mushroom_rl/core/_impl/numpy_dataset.py:NumpyDataset", "mushroom_rl/core/_impl/list_dataset.py:ListDataset", "mushroom_rl/core/dataset.py:Dataset.__getitem__"]}
{"id": "C13", "title": "ReplayMemory is a bounded FIFO", "statement": "After any sequence of add calls the memory holds exactly the most recent min(total, max_size) transitions; size and initialized report that; get(n) only returns stored transitions, never unwritten or overwritten slots; reset empties it.", "quantifier": "every max_size>=1, every sequence of adds of any sizes, every random draw", "why_tests_cant": "Ring-buffer wraparound for all lengths of histories.", "anchors": ["mushroom_rl/rl_utils/replay_memory.py:ReplayMemory"]}
{"id": "C14", "title": "N-step transitions are exact and never cross an episode end", "statement": "ReplayMemory.add with n_steps_return=n stores, in order, one transition for each start index whose n-sample window has no episode end strictly before its last element; its reward is sum gamma^j r_{i+j}, its next state and absorbing/last flags are those of the final sample of the window.", "quantifier": "every n>=1, every gamma, every dataset", "why_tests_cant": "Interaction between window length and arbitrary last-flag patterns.", "anchors": ["mushroom_rl/rl_utils/replay_memory.py:ReplayMemory.add", "mushroom_rl/rl_utils/replay_memory.py:SumTree.add"]}
{"id": "C15", "title": "Adding a dataset to a replay memory leaves the dataset unchanged", "statement": "ReplayMemory.add and PrioritizedReplayMemory.add do not modify the caller's dataset.", "quantifier": "every dataset and n_steps_return", "why_tests_cant": "Aliasing of numpy views is invisible unless the test re-reads its input.", "anchors": ["mushroom_rl/rl_utils/replay_memory.py:ReplayMemory.add", "mushroom_rl/rl_utils/replay_memory.py:SumTree.add"]}
{"id": "C16", "title": "SequenceReplayMemory returns contiguous same-episode histories", "statement": "Each sequence returned by SequenceReplayMemory.get is the sampled transition preceded by the transitions that directly precede it in time within the same episode (up to the truncation length), zero padded at the front/back as documented.", "quantifier": "every history of adds, including after the ring buffer wrapped; every sampled index", "why_tests_cant": "The wrap-around boundary is only hit for particular sampled indices.", "anchors": ["mushroom_rl/rl_utils/replay_memory.py:SequenceReplayMemory.get"]}
{"id": "C17", "title": "SumTree internal nodes always equal the sum of their leaves", "statement": "After any sequence of add and update calls, total_p equals the sum of the leaf priorities, every internal node is the sum of its children, max_p is the largest leaf, and updating one leaf leaves all other leaves unchanged.", "quantifier": "every max_size>=2, every sequence of adds/updates with any priorities", "why_tests_cant": "Incremental delta propagation must be right for all tree shapes and histories.", "anchors": ["mushroom_rl/rl_utils/replay_memory.py:SumTree"]}
{"id": "C18", "title": "SumTree retrieval is proportional: mass s selects the leaf owning s", "statement": "For 0 <= s < total, get(s) descends to the leaf whose cumulative-priority interval contains s, in the tree order of leaves, and a leaf with zero priority is never returned.", "quantifier": "every tree state reachable through the API, every s", "why_tests_cant": "Requires induction on tree depth; ties between siblings are measure-zero for random tests.", "anchors": ["mushroom_rl/rl_utils/replay_memory.py:SumTree.get", "mushroom_rl/rl_utils/replay_memory.py:SumTree._retrieve"]}
{"id": "C19", "title": "Prioritised importance weights are normalised and priorities stay positive", "statement": "PrioritizedReplayMemory.get returns importance weights in (0,1] whose maximum is 1, update stores (|td|+eps)^alpha > 0, and new samples are inserted with the current maximum priority.", "quantifier": "every beta, alpha>=0, eps>0, every TD error and every sampled batch with positive priorities", "why_tests_cant": "Real-valued inequality over all inputs.", "anchors": ["mushroom_rl/rl_utils/replay_memory.py:PrioritizedReplayMemory"]}
{"id": "C20", "title": "Saving and loading restores every saved attribute", "statement": "For an object built from primitive, array, pickled and nested serializable attributes, load(save(x)) has the same value for each attribute registered to be saved (all with full_save, the non-marked ones otherwise), and unset for the rest.", "quantifier": "every object tree, both save modes", "why_tests_cant": "Object graphs are arbitrary; tests check a few classes.", "anchors": ["mushroom_rl/core/serialization.py:Serializable"]}
{"id": "C21", "title": "A prioritised replay memory saved without its data does not claim to hold samples", "statement": "After save(full_save=False) and load, the size and total priority of a SumTree agree with the samples that it really holds.", "quantifier": "every memory state", "why_tests_cant": "The save test only checks with full_save.", "anchors": ["mushroom_rl/rl_utils/replay_memory.py:SumTree._post_load", "mushroom_rl/core/serialization.py:Serializable"]}
{"id": "C22", "title": "Parameter schedules count visits and respect their threshold", "statement": "Parameter.get_value does not change the parameter; calling it advances exactly the visited entry; LinearParameter follows the straight line from its initial value, is monotone, never crosses the threshold and equals it from visit n on; DecayParameter returns v0/k^exp at visit k clipped at the minimum.", "quantifier": "every initial value, threshold, horizon n, index and number of visits", "why_tests_cant": "Schedules run for an unbounded number of visits.", "anchors": ["mushroom_rl/rl_utils/parameters.py:Parameter", "mushroom_rl/rl_utils/parameters.py:LinearParameter", "mushroom_rl/rl_utils/parameters.py:DecayParameter"]}
{"id": "C23", "title": "Variance-based parameters treat their size argument as a table size", "statement": "VarianceParameter(..., size=s) and WindowedVarianceParameter build a table of the requested size whose value is not clipped by that size.", "quantifier": "every size", "why_tests_cant": "Positional argument slip visible only for sizes where the clip matters.", "anchors": ["mushroom_rl/rl_utils/variance_parameters.py:VarianceParameter"]}
{"id": "C24", "title": "Epsilon-greedy and Boltzmann policies are probability distributions consistent with their sampler", "statement": "EpsGreedy(s,.) sums to one, gives every maximising action (1-eps)/m + eps/n and every other action eps/n, and matches the distribution of draw_action; Boltzmann(s,.) is a strictly positive distribution, monotone in Q and invariant under adding a constant to Q.", "quantifier": "every Q table, state, eps in [0,1], beta>=0", "why_tests_cant": "Real-valued identity over all Q values, including ties.", "anchors": ["mushroom_rl/policy/td_policy.py:EpsGreedy", "mushroom_rl/policy/td_policy.py:Boltzmann"]}
{"id": "C25", "title": "Tabular TD updates change one entry and never bootstrap from absorbing states", "statement": "QLearning, SARSA, ExpectedSARSA, SpeedyQLearning, RLearning and DoubleQLearning change only the table entry of the visited state-action pair (exactly one of the two tables for double), and when the sample is absorbing the result does not depend on the value of the next state.", "quantifier": "every table, sample, learning rate", "why_tests_cant": "Quantifies over all tables and samples.", "anchors": ["mushroom_rl/algorithms/value/td/q_learning.py", "mushroom_rl/algorithms/value/td/sarsa.py", "mushroom_rl/algorithms/value/td/expected_sarsa.py", "mushroom_rl/algorithms/value/td/double_q_learning.py", "mushroom_rl/algorithms/value/td/td.py"]}
{"id": "C26", "title": "Tabular values stay within the discounted reward bound", "statement": "If rewards lie in [-Rmax,Rmax], gamma<1, learning rates lie in [0,1] and the initial table is within Rmax/(1-gamma), then after any number of QLearning/SARSA/ExpectedSARSA/DoubleQLearning updates the table stays within Rmax/(1-gamma).", "quantifier": "every sequence of samples", "why_tests_cant": "Safety over unbounded sample sequences.", "anchors": ["mushroom_rl/algorithms/value/td/q_learning.py:QLearning._update", "mushroom_rl/algorithms/value/td/sarsa.py:SARSA._update", "mushroom_rl/algorithms/value/td/expected_sarsa.py:ExpectedSARSA._update", "mushroom_rl/algorithms/value/td/double_q_learning.py:DoubleQLearning._update"]}
{"id": "C27", "title": "Eligibility-trace methods reduce to one-step methods and traces stay bounded", "statement": "SARSA(0) equals SARSA and Q(0) equals Q-learning; replacing traces stay in [0,1]; accumulating traces stay in [0,1/(1-gamma lambda)]; traces are zero at the start of each episode.", "quantifier": "every sample sequence, every lambda in [0,1]", "why_tests_cant": "Equivalence over all histories.", "anchors": ["mushroom_rl/rl_utils/eligibility_trace.py", "mushroom_rl/algorithms/value/td/sarsa_lambda.py", "mushroom_rl/algorithms/value/td/q_lambda.py"]}
{"id": "C28", "title": "GAE is the per-episode discounted sum of TD errors", "statement": "compute_gae returns adv_k = sum over the rest of the same episode of (gamma lambda)^l delta_{k+l}, with delta using a zero bootstrap exactly when the step is absorbing, and target = advantage + value; lambda=0 gives the one-step TD error.", "quantifier": "every dataset, value function, gamma, lambda", "why_tests_cant": "Backward recursion over arbitrary episode structure.", "anchors": ["mushroom_rl/rl_utils/value_functions.py:compute_gae", "mushroom_rl/rl_utils/value_functions.py:compute_advantage"]}
{"id": "C29", "title": "Monte Carlo advantages respect episode boundaries", "statement": "compute_advantage_montecarlo returns for each step the discounted return of the remainder of its own episode (bootstrapped with the value of the final next state if not absorbing).", "quantifier": "every dataset with any pattern of last flags", "why_tests_cant": "Only datasets with truncated, non-absorbing episodes expose the boundary.", "anchors": ["mushroom_rl/rl_utils/value_functions.py:compute_advantage_montecarlo"]}
{"id": "C30", "title": "Running statistics equal batch statistics", "statement": "RunningStandardization fed with any split of a data set into batches reports the mean and variance of the whole data (up to its documented prior); RunningAveragedWindow averages the last window_size samples; the exponential average stays within the range of its inputs.", "quantifier": "every sequence of batches", "why_tests_cant": "Streaming/batch equivalence for all splits.", "anchors": ["mushroom_rl/rl_utils/running_stats.py"]}
{"id": "C31", "title": "Minibatches partition the dataset and keep rows aligned", "statement": "minibatch_generator(batch_size, *arrays) yields every row exactly once, in batches of batch_size except possibly the last, and rows with the same index stay together across all arrays.", "quantifier": "every permutation drawn, every size and batch_size>=1", "why_tests_cant": "All permutations and remainders.", "anchors": ["mushroom_rl/utils/minibatches.py:minibatch_generator"]}
{"id": "C32", "title": "Angle normalisation is a canonical representative", "statement": "normalize_angle_positive returns the unique angle in [0,2pi) congruent to its input, normalize_angle the unique one in (-pi,pi], and shortest_angular_distance is the signed difference of smallest magnitude.", "quantifier": "every real angle", "why_tests_cant": "All reals, including boundaries.", "anchors": ["mushroom_rl/utils/angles.py"]}
{"id": "C33", "title": "Tile coding indices are in range, injective and cover the declared range", "statement": "For a tiling, every point inside [low,high) gets exactly one active index in [0,size) and two points share it iff they fall in the same tile; points outside get none; Tiles.generate produces tilings that all cover the given range.", "quantifier": "every point, range, number of tiles and tilings", "why_tests_cant": "Real-valued points at tile boundaries.", "anchors": ["mushroom_rl/features/tiles/tiles.py:Tiles"]}
{"id": "C34", "title": "Polynomial, Fourier and grid generators enumerate every multi-index exactly once", "statement": "PolynomialBasis.generate yields the constant and every monomial of degree at most d exactly once; FourierBasis.generate yields every multi-index of {0..n-1}^d once; uniform grids yield every grid point once.", "quantifier": "every dimension and order", "why_tests_cant": "Combinatorial enumeration for all sizes.", "anchors": ["mushroom_rl/features/basis/polynomial.py:PolynomialBasis", "mushroom_rl/features/basis/fourier.py:FourierBasis", "mushroom_rl/utils/features.py:uniform_grid"]}
{"id": "C35", "title": "Generated finite MDPs are stochastic", "statement": "generate_simple_chain, generate_grid_world and generate_taxi build transition tables whose rows sum to one (or to zero in absorbing states), with non-negative entries, rewards only on declared transitions and an initial distribution summing to one.", "quantifier": "every chain size, goal list, success probability in [0,1], every well-formed grid", "why_tests_cant": "All grids and probabilities.", "anchors": ["mushroom_rl/environments/generators/simple_chain.py", "mushroom_rl/environments/generators/grid_world.py", "mushroom_rl/environments/generators/taxi.py"]}
{"id": "C36", "title": "FiniteMDP and GridWorld stay in their state space", "statement": "FiniteMDP.step only moves to states of positive probability, reports absorbing exactly for states without outgoing probability; grid worlds never leave the grid or enter walls, and index/coordinate conversion is a bijection.", "quantifier": "every state, action and random draw", "why_tests_cant": "All trajectories.", "anchors": ["mushroom_rl/environments/finite_mdp.py:FiniteMDP", "mushroom_rl/environments/grid_world.py"]}
{"id": "C37", "title": "Dynamic programming solvers return fixed points", "statement": "value_iteration is a gamma-contraction and stops with a Bellman residual below eps, so the result is within gamma*eps/(1-gamma) of the optimal value; policy_iteration stops only at a policy that is greedy for its own value function, hence optimal.", "quantifier": "every finite MDP, gamma in [0,1), eps>0", "why_tests_cant": "Numeric statement over all MDPs.", "anchors": ["mushroom_rl/solvers/dynamic_programming.py"]}
{"id": "C38", "title": "The categorical projection preserves mass and expectation", "statement": "The projected target distribution of CategoricalDQN/Rainbow is non-negative, has the same total mass as the next-state distribution, expectation equal to the expected clipped target, and only touches atoms 0..n_atoms-1.", "quantifier": "every reward, gamma, distribution, n_atoms>=2, v_min<v_max, absorbing flag", "why_tests_cant": "Floor/ceil corner cases (targets exactly on atoms or at the range ends).", "anchors": ["mushroom_rl/algorithms/value/dqn/categorical_dqn.py:CategoricalDQN.fit", "mushroom_rl/algorithms/value/dqn/rainbow.py:Rainbow"]}
{"id": "C39", "title": "Target networks follow the documented schedule", "statement": "DQN copies the online network into the target exactly every target_update_frequency fits; AveragedDQN averages exactly the most recent min(K, copies) snapshots; soft updates keep the target in the convex hull of online values and follow tau-weighted averaging.", "quantifier": "every number of fits, frequency and K", "why_tests_cant": "Schedules over unbounded fit counts.", "anchors": ["mushroom_rl/algorithms/value/dqn/abstract_dqn.py", "mushroom_rl/algorithms/value/dqn/averaged_dqn.py", "mushroom_rl/algorithms/actor_critic/deep_actor_critic/deep_actor_critic.py:DeepAC._update_target"]}
{"id": "C40", "title": "Episodic policy-gradient accumulators see one episode at a time", "statement": "For every fit, REINFORCE/GPOMDP/eNAC pair each episode return with the score function of the same episode, independent of the data of earlier fits.", "quantifier": "every dataset sequence, including datasets ending mid-episode", "why_tests_cant": "Leakage of state between fits needs two fits with an incomplete episode.", "anchors": ["mushroom_rl/algorithms/policy_search/policy_gradient/gpomdp.py", "mushroom_rl/algorithms/policy_search/policy_gradient/reinforce.py", "mushroom_rl/algorithms/policy_search/policy_gradient/policy_gradient.py"]}
{"id": "C41", "title": "TRPO conjugate gradient solves the Fisher system", "statement": "The conjugate gradient routine solves F x = g exactly in n iterations for every n x n symmetric positive definite F (exact arithmetic), and its stopping test bounds the true residual.", "quantifier": "every SPD matrix and right-hand side", "why_tests_cant": "In-place aliasing only degrades convergence and does not crash.", "anchors": ["mushroom_rl/algorithms/actor_critic/deep_actor_critic/trpo.py:TRPO._conjugate_gradient", "mushroom_rl/algorithms/actor_critic/deep_actor_critic/trpo.py:TRPO._line_search"]}
{"id": "C42", "title": "Truncated BPTT sequences never cross episode ends", "statement": "Every training sequence built by PPO_BPTT consists of consecutive samples of a single episode, ends at its sample, has length at most truncation_length and starts with the stored policy state of its first sample.", "quantifier": "every dataset and truncation length", "why_tests_cant": "Boundary slices at the head of the dataset.", "anchors": ["mushroom_rl/algorithms/actor_critic/deep_actor_critic/ppo_bptt.py:PPO_BPTT"]}
{"id": "C43", "title": "Environment states stay in their declared observation space", "statement": "PuddleWorld, LQR (non episodic), InvertedPendulum, ShipSteering and Segway states returned by reset/step lie within the declared observation box.", "quantifier": "every state, action and noise draw", "why_tests_cant": "All continuous states and actions.", "anchors": ["mushroom_rl/environments/puddle_world.py", "mushroom_rl/environments/lqr.py", "mushroom_rl/environments/inverted_pendulum.py", "mushroom_rl/environments/ship_steering.py", "mushroom_rl/environments/segway.py"]}
{"id": "C44", "title": "Ship steering gate test is exact", "statement": "ShipSteering rewards the step exactly when the segment travelled in the step intersects the gate segment.", "quantifier": "every pair of non-parallel segments", "why_tests_cant": "Geometry over all reals.", "anchors": ["mushroom_rl/environments/ship_steering.py:ShipSteering._through_gate"]}
{"id": "C45", "title": "Regressor parameters round-trip and dispatch on the action", "statement": "set_weights followed by get_weights is the identity for linear, action-wise and CMAC regressors; predict(s,a) equals predict(s)[a]; diff is the gradient of predict with respect to the weights.", "quantifier": "every weight vector, state and action", "why_tests_cant": "All weights and states.", "anchors": ["mushroom_rl/approximators/parametric/linear.py", "mushroom_rl/approximators/parametric/cmac.py", "mushroom_rl/approximators/_implementations/action_regressor.py", "mushroom_rl/approximators/_implementations/q_regressor.py"]}
{"id": "C46", "title": "Parallel environments answer in the right slot", "statement": "MultiprocessEnvironment.step_all/reset_all return in row i the answer of worker i to the command just sent, for masked-in workers, keep the previous state in the other rows, and leave no unread reply, whatever the relative speed of the workers.", "quantifier": "every schedule of worker processes, every mask sequence", "why_tests_cant": "Concurrency: all interleavings.", "anchors": ["mushroom_rl/core/multiprocess_environment.py"]}
{"id": "C47", "title": "The logger keeps the best agent", "statement": "After any sequence of log_best_agent calls the saved agent is the first one reaching the maximum score so far.", "quantifier": "every sequence of scores", "why_tests_cant": "Unbounded sequences.", "anchors": ["mushroom_rl/core/logger/data_logger.py:DataLogger.log_best_agent"]}
{"id": "C48", "title": "Optimizers follow their gradient rule without touching the caller's gradient", "statement": "AdaptiveOptimizer steps have length sqrt(eps) scaled in the gradient metric; SGD/Adam apply the documented update; the caller's arrays are not modified.", "quantifier": "every gradient", "why_tests_cant": "All real vectors; aliasing.", "anchors": ["mushroom_rl/rl_utils/optimizers.py"]}
{"id": "C49", "title": "VectorPolicy.set_n sets the number of policies", "statement": "After set_n(n) the vectorised policy holds n policies.", "quantifier": "every n and current size", "why_tests_cant": "Branch conditions over all pairs.", "anchors": ["mushroom_rl/policy/vector_policy.py:VectorPolicy.set_n"]}
{"id": "C50", "title": "LQR solver returns the value of the policy", "statement": "compute_lqr_P satisfies the discounted Lyapunov equation of the given gain, and the Q function evaluated at the policy action equals the value function.", "quantifier": "every system of matrices for which the linear system is solvable", "why_tests_cant": "Matrix identity over all dimensions.", "anchors": ["mushroom_rl/solvers/lqr.py"]}
{"id": "C51", "title": "Weighted maximum-likelihood updates stay in the data hull", "statement": "RWR/REPS weights are in (0,1] with maximum 1 and the mean computed by the weighted MLE is a convex combination of the sampled parameters; the unbiased variance normaliser is non-negative.", "quantifier": "every batch of returns and parameters", "why_tests_cant": "All reals.", "anchors": ["mushroom_rl/distributions/gaussian.py", "mushroom_rl/algorithms/policy_search/black_box_optimization/rwr.py", "mushroom_rl/algorithms/policy_search/black_box_optimization/reps.py"]}
{"id": "C52", "title": "MORE surrogate equals the fitted quadratic", "statement": "The quadratic model (R,r,r0) handed to the MORE dual equals the quadratic polynomial that was fitted.", "quantifier": "every coefficient vector", "why_tests_cant": "Algebraic identity for all dimensions.", "anchors": ["mushroom_rl/algorithms/policy_search/black_box_optimization/more.py:MORE._fit_quadratic_surrogate"]}
{"id": "C53", "title": "Gaussian score functions are gradients of the log density", "statement": "diff_log of the Gaussian distributions/policies is the gradient of log_pdf with respect to the parameters, and the entropy and Kullback-Leibler terms used by the constrained updates are the expectations of that log density they stand for.", "quantifier": "every parameter and sample", "why_tests_cant": "Derivative statement at all points.", "anchors": ["mushroom_rl/distributions/gaussian.py", "mushroom_rl/policy/gaussian_policy.py"]}
{"id": "C54", "title": "Batch value targets: fitted-Q and double fitted-Q", "statement": "FQI regression targets are r + gamma max_a Q(s',a) with a zero bootstrap on absorbing samples; DoubleFQI splits the data into two disjoint halves; boosted FQI telescopes to the last target.", "quantifier": "every dataset and regressor sequence", "why_tests_cant": "All datasets, odd sizes.", "anchors": ["mushroom_rl/algorithms/value/batch_td/fqi.py", "mushroom_rl/algorithms/value/batch_td/double_fqi.py", "mushroom_rl/algorithms/value/batch_td/boosted_fqi.py"]}
{"id": "C55", "title": "Collected datasets accumulate without changing episode structure", "statement": "CollectDataset.get() returns the concatenation of all datasets it received, so that statistics computed from it equal those of the whole history.", "quantifier": "every fit schedule", "why_tests_cant": "Only visible when fits happen mid-episode.", "anchors": ["mushroom_rl/utils/callbacks/collect_dataset.py", "mushroom_rl/core/_impl/numpy_dataset.py:NumpyDataset.__add__"]}
{"id": "C56", "title": "VectorCore works with any number of environments, including one", "statement": "VectorCore over a vectorized environment with n_envs = n >= 1 can record transitions: the first append of the vectorized dataset succeeds.", "quantifier": "every n >= 1, every environment, agent and learn/evaluate budget", "why_tests_cant": "Tests use one fixed number (>=2) of environments; the single-environment branch is never exercised.", "anchors": ["mushroom_rl/core/dataset.py:VectorizedDataset.append", "mushroom_rl/core/_impl/numpy_dataset.py:NumpyDataset.__init__"]}
{"id": "C57", "title": "RQ-learning and weighted Q-learning keep their estimators consistent", "statement": "With beta=alpha off-policy RQ-learning is Q-learning as long as no sample is absorbing (with absorbing samples it is not: refuted); the weights of WeightedQLearning form a distribution, its bootstrap lies between the smallest and largest value of the state, the second-moment table never falls below the squared mean and the sampling deviation is never below 1e-5; its value, second-moment and weight tables are moments of the same targets under the same exponential weights.", "quantifier": "every table, sample sequence, learning rates in [0,1]", "why_tests_cant": "Invariant over unbounded update sequences.", "anchors": ["mushroom_rl/algorithms/value/td/rq_learning.py:RQLearning._update", "mushroom_rl/algorithms/value/td/weighted_q_learning.py:WeightedQLearning"]}
{"id": "C58", "title": "Linear SARSA(lambda): true online version equals the online forward view", "statement": "At every step the weights of TrueOnlineSARSALambda equal those obtained by updating from the initial weights towards the lambda-returns truncated at the current time; with lambda=0 it and SARSALambdaContinuous are semi-gradient SARSA; with one-hot features SARSALambdaContinuous is the tabular algorithm with accumulating traces.", "quantifier": "every episode, features, rewards, step sizes, gamma and lambda", "why_tests_cant": "Equivalence of two algorithms over all histories.", "anchors": ["mushroom_rl/algorithms/value/td/true_online_sarsa_lambda.py", "mushroom_rl/algorithms/value/td/sarsa_lambda_continuous.py"]}
{"id": "C59", "title": "Min-max preprocessing maps bounded observations to the unit box without touching its input", "statement": "MinMaxPreprocessor maps every bounded component affinely so that low goes to -1 and high to 1, standardises and clips the unbounded ones, accepts every space with at least one bounded component, and leaves the observation array of the caller unchanged.", "quantifier": "every observation space, running statistics and observation", "why_tests_cant": "The aliasing only shows with an environment that returns its own state array, and the constructor failure only with exactly one bounded dimension; tests use gym spaces with several.", "anchors": ["mushroom_rl/rl_utils/preprocessors.py:MinMaxPreprocessor"]}
{"id": "C60", "title": "Feature vectors: one-hot tiles, nearest prototypes, action blocks", "statement": "TilesFeatures returns a 0/1 vector with ones exactly at the distinct indexes of compute_indexes, one per covering tiling; VoronoiTiles answers the first nearest prototype; get_action_features makes linear weights split in one block per action; radial basis functions are in (0,1] with value one at their center.", "quantifier": "every list of tilings, prototypes, points, features and weights", "why_tests_cant": "Tests compare a few fixed feature vectors; offsets and block arithmetic must hold for any sizes.", "anchors": ["mushroom_rl/features/_implementations/tiles_features.py", "mushroom_rl/features/tiles/voronoi.py", "mushroom_rl/features/features.py:get_action_features", "mushroom_rl/features/basis/gaussian_rbf.py"]}
{"id": "C61", "title": "Bootstrapped targets of the deep value-based agents", "statement": "The next-state value used by DQN is the maximum of the target network's row, and 0 for a terminal transition whatever the network outputs. Double DQN uses the target network's value of an action maximising the online network and never exceeds the DQN value. Averaged DQN maximises the mean over the target networks in use, Maxmin the minimum over them. TD3 evaluates both target critics at an action inside the action space, within noise_clip of the target action, and takes the smaller; SAC actions lie strictly inside the action space and a terminal SAC target is exactly the reward.", "quantifier": "all batches, network outputs, absorbing flags, noise, action bounds", "why_tests_cant": "The tests pin the weights after a short training run with a fixed seed; they cannot tell which network chose or valued the action nor cover all absorbing patterns.", "anchors": ["mushroom_rl/algorithms/value/dqn/dqn.py", "mushroom_rl/algorithms/value/dqn/double_dqn.py", "mushroom_rl/algorithms/value/dqn/averaged_dqn.py", "mushroom_rl/algorithms/value/dqn/maxmin_dqn.py", "mushroom_rl/algorithms/actor_critic/deep_actor_critic/td3.py", "mushroom_rl/algorithms/actor_critic/deep_actor_critic/sac.py"]}
{"id": "C62", "title": "Reward and termination of the continuous environments", "statement": "PuddleWorld terminates, with the goal reward, exactly within the L1 threshold of the goal, and a noise-free non-terminal reward is at most -1. LQR follows x' = Ax + Bu with the clipped action and the quadratic reward while inside the box, and terminates only when episodic and outside. ShipSteering gives -100 and terminates when it first leaves the field, 0 and terminates when it first crosses the gate, -1 otherwise. CartPole terminates with reward -1 exactly when the pole is below the horizon. CarOnHill gives 1 exactly when it leaves on the right within the speed limit and continues exactly inside its box.", "quantifier": "all states, actions, integrator results, numbers of intermediate steps", "why_tests_cant": "Tests replay one short seeded trajectory per environment; boundary events are rarely in it.", "anchors": ["mushroom_rl/environments/puddle_world.py", "mushroom_rl/environments/lqr.py", "mushroom_rl/environments/ship_steering.py", "mushroom_rl/environments/cart_pole.py", "mushroom_rl/environments/car_on_hill.py", "mushroom_rl/environments/segway.py"]}
{"id": "C63", "title": "Fitting linear and tile-coding regressors; ensembles", "statement": "LinearApproximator.fit returns a least squares solution. CMAC.fit moves every weight by alpha times the average, over the samples using the tile, of the error per tile; a sample sharing no tile with the others moves the fraction alpha to its target; a batch without error changes nothing. ActionRegressor.fit gives each regressor exactly the samples of its action, in order. Ensemble aggregations are the minimum, maximum, sum and mean with min <= mean <= max, and the variance is zero iff the models agree. set_weights does not tie the model to the caller's array (refuted).", "quantifier": "all weights, batches, tilings, targets, ensembles", "why_tests_cant": "Tests fit one fixed data set and compare numbers; they see neither the averaging rule nor aliasing.", "anchors": ["mushroom_rl/approximators/parametric/linear.py", "mushroom_rl/approximators/parametric/cmac.py", "mushroom_rl/approximators/_implementations/action_regressor.py", "mushroom_rl/approximators/ensemble.py"]}
{"id": "C64", "title": "Reopening a log continues its series", "statement": "A logger with a seed opened with append=True continues every series logged with log_numpy: the file holds the previous values followed by the new ones in order, and files of other quantities and other seeds are untouched. The same without a seed (refuted: series of seeded runs take over).", "quantifier": "all directories, names, seeds and logged values", "why_tests_cant": "Name parsing over all file names; tests use one name and one seed.", "anchors": ["mushroom_rl/core/logger/data_logger.py:DataLogger._load_numpy", "mushroom_rl/core/logger/data_logger.py:DataLogger.log_numpy"]}
{"id": "C65", "title": "LSPI returns values with orthogonal one-step residuals", "statement": "When LSPI.fit returns, the last weight change is at most epsilon and the one-step residuals r + gamma Q(s',a') - Q(s,a), with a' greedy for the weights before the last step and no bootstrap after absorbing samples, are orthogonal to every feature; weights solving the optimality equation on the data are kept.", "quantifier": "every dataset, feature map, number of actions, solver meeting its contract", "why_tests_cant": "Holds at loop exit for all data; tests compare stored numbers.", "anchors": ["mushroom_rl/algorithms/value/batch_td/lspi.py:LSPI.fit", "mushroom_rl/features/features.py:get_action_features"]}
{"id": "C66", "title": "Step information is kept per step, in order", "statement": "After any number of batches of ExtraInfo.append followed by parse, the parsed dictionary has exactly one flat key per value path that occurred, and its array holds, for every appended step in order, the value at that path or the backend filler when the step lacks it, provided no path is a dictionary in one step and a value in another, flat keys do not collide and later batches bring no new key. a + b describes the steps of a then those of b when a is parsed or b is not; get_view returns the entries of the selected steps. Refuted without the provisos: a key that first appears after a parse raises KeyError, {'a_b':..,'a':{'b':..}} loses a value, a copy loses the parsed steps at its next parse, unparsed + parsed swaps the order.", "quantifier": "all nested dictionaries, all value types, all batch splits, all slices", "why_tests_cant": "tests append a few identical flat dictionaries; key order, nesting, missing keys and interleavings of append/parse/add/copy are unbounded", "anchors": ["mushroom_rl/core/extra_info.py:28-96", "mushroom_rl/core/extra_info.py:129-251", "mushroom_rl/core/extra_info.py:262-375"]}
{"id": "C67", "title": "Black-box optimisation updates from matching parameters, returns and contexts", "statement": "In Core.learn with n_episodes_per_fit, every BlackBoxOptimization.fit receives, for each episode of its dataset in order, exactly the parameter vector the policy had when every action of that episode was drawn, the discounted return of that episode and, when core preprocessors leave observations unchanged, the context the parameters were sampled in. Refuted: with observation-changing core preprocessors the context passed to the update differs from the one sampled in; with n_steps_per_fit an episode cut by a fit loses its parameters; vectorised deterministic contextual starts fail unless all environments start together.", "quantifier": "all distributions, policies, context builders, updates, environments, horizons, budgets and fit frequencies", "why_tests_cant": "tests compare final parameters of single seeded runs; pairing errors only show as slow learning", "anchors": ["mushroom_rl/algorithms/policy_search/black_box_optimization/black_box_optimization.py:41-98", "mushroom_rl/core/core.py:98-133"]}
{"id": "C68", "title": "PPO, A2C and episodic PPO update on the clipped policy-gradient objective", "statement": "A PPO update takes one optimizer step per minibatch, each epoch going through every transition exactly once. The objective of a sample never exceeds importance-ratio times advantage, equals it while the ratio is within eps of one and never promises more than eps*|advantage| over keeping the old policy; its gradient is ratio*advantage*score, and zero exactly for the samples that already left the trust interval in the direction of their advantage. The ratio compares the current policy with the probability of the action under the weights and preprocessors that were in force when it was drawn, so that (with unchanged preprocessors) the first step is a plain policy-gradient step. Advantages are normalised to zero mean and unit deviation without changing their order.", "quantifier": "all datasets, policies, critics, preprocessors, shuffles, batch sizes, epochs, clipping ranges, schedules and optimizers", "why_tests_cant": "The gradient is a statement about all weights and all samples, including the side on which clipping applies; tests check a few updates against recorded numbers.", "anchors": ["mushroom_rl/algorithms/actor_critic/deep_actor_critic/ppo.py:PPO.fit", "mushroom_rl/algorithms/actor_critic/deep_actor_critic/ppo.py:PPO._update_policy", "mushroom_rl/algorithms/actor_critic/deep_actor_critic/a2c.py:A2C._loss", "mushroom_rl/algorithms/policy_search/black_box_optimization/eppo.py:ePPO._update"]}
{"id": "C69", "title": "Agents learn on the representation they act on", "statement": "The agent preprocessors are applied in order, each one is updated with the batch as processed by the updated ones before it, and the states on which a policy is trained are the preprocessed states on which it acts.", "quantifier": "all preprocessor lists, datasets, agents", "why_tests_cant": "It relates what the policy saw at collection time to what it is fitted on, for every preprocessor and history.", "anchors": ["mushroom_rl/core/agent.py:Agent._agent_preprocess", "mushroom_rl/core/agent.py:Agent._update_agent_preprocessor", "mushroom_rl/core/agent.py:Agent.draw_action", "mushroom_rl/algorithms/actor_critic/deep_actor_critic/deep_actor_critic.py:OnPolicyDeepAC._preprocess_state", "mushroom_rl/algorithms/actor_critic/deep_actor_critic/a2c.py:A2C.fit"]}
{"id": "C70", "title": "Stochastic actor-critic credits each TD error along the episode", "statement": "After any number of transitions since the start of an episode, however they are split into fits, the value and policy weights of StochasticAC are the initial ones plus, for each transition, learning rate times its TD error (with the weights of that time, no bootstrap from absorbing states) times the sum of the features (policy scores) of the transitions so far, each decayed by the trace factors in between. In the average-reward version the same holds without discount, and adding a constant to all rewards and to the reward estimate changes nothing else.", "quantifier": "all feature maps, policies, datasets, learning-rate schedules, trace schedules, initial weights", "why_tests_cant": "It is a closed form over histories of any length, and an invariance over all reward shifts.", "anchors": ["mushroom_rl/algorithms/actor_critic/classic_actor_critic/stochastic_ac.py:StochasticAC", "mushroom_rl/algorithms/actor_critic/classic_actor_critic/stochastic_ac.py:StochasticAC_AVG"]}
{"id": "C71", "title": "The compatible deterministic actor-critic follows the deterministic policy gradient", "statement": "In COPDAC_Q the critic at the policy's own action is the state value; one fit on a transition moves the policy weights along the gradient of the critic's value of the policy's action and the critic weights along the TD error times the gradient of the critic, everything evaluated with the weights before the update, and never bootstraps from absorbing states.", "quantifier": "all differentiable policies, features, weights, transitions and learning-rate schedules", "why_tests_cant": "Gradients are statements about all weights; a test with one action dimension cannot show what happens with more.", "anchors": ["mushroom_rl/algorithms/actor_critic/classic_actor_critic/copdac_q.py:COPDAC_Q", "mushroom_rl/approximators/parametric/linear.py:LinearApproximator.diff"]}
{"id": "C72", "title": "Exploration noise processes", "statement": "With OrnsteinUhlenbeckPolicy the k-th action of an episode is the regressor's output plus a noise that is the decayed initial noise plus the decayed sum of the draws, restarted from the configured value at every episode; with bounded draws it stays bounded and forgets its start geometrically, and with unit white draws its mean and variance are those of the discretised Ornstein-Uhlenbeck process. ClippedGaussianPolicy returns the point of the action box closest to its sample.", "quantifier": "for all parameters, regressors, initial noises, episode lengths and draws", "why_tests_cant": "The distribution of an unbounded process is not visible in finitely many samples, and the tests fix one seed.", "anchors": ["mushroom_rl/policy/noise_policy.py:OrnsteinUhlenbeckPolicy", "mushroom_rl/policy/noise_policy.py:ClippedGaussianPolicy"]}
{"id": "C73", "title": "Movement primitives", "statement": "The time of a ProMP counts the draws and stops at the duration (unless periodic), its phase runs monotonically from 0 to 1, reaching 1 at the last of the configured steps; a critically damped DMP without forcing converges to its goal from every state; the phase of a DMP ends at 1 with the movement; the actions a DMP returns are the trajectory it followed.", "quantifier": "for all durations, gains within the stability range, goals, states, regressors and numbers of steps", "why_tests_cant": "Convergence is a statement about infinite trajectories; aliasing shows only when returned arrays are kept.", "anchors": ["mushroom_rl/policy/promps.py:ProMP.update_time", "mushroom_rl/policy/promps.py:ProMP.set_duration", "mushroom_rl/policy/dmp.py:DMP.update_system", "mushroom_rl/policy/dmp.py:DMP.draw_action"]}
{"id": "C74", "title": "Optimal values of the Car-on-Hill solver", "statement": "solve_car_on_hill returns, for every state and action, the optimal discounted return: a positive value is attained by some action sequence and exceeded by none; every success within the depth bound is found; a negative value is the best return when all sequences fail, or a bound when the search was cut off; the search always ends.", "quantifier": "for all dynamics, states, actions, discount factors in (0,1] and depth bounds", "why_tests_cant": "There are exponentially many action sequences and uncountably many states; a test can only compare stored numbers.", "anchors": ["mushroom_rl/solvers/car_on_hill.py:bfs", "mushroom_rl/solvers/car_on_hill.py:solve_car_on_hill"]}
{"id": "C75", "title": "Numerical gradients", "statement": "numerical_diff_policy, numerical_diff_dist and numerical_diff_function return the central differences of the value along each single parameter, leave the policy or distribution as it was, are within M eps^2/6 of the partial derivative when the third derivative is bounded by M, and are exact for functions quadratic in each parameter.", "quantifier": "for all differentiable functions, parameter vectors and perturbations", "why_tests_cant": "Accuracy for all functions is an analytic statement; the restoring of parameters has to hold for every object.", "anchors": ["mushroom_rl/utils/numerical_gradient.py:numerical_diff_policy", "mushroom_rl/utils/numerical_gradient.py:numerical_diff_dist", "mushroom_rl/utils/numerical_gradient.py:numerical_diff_function"]}
{"id": "C76", "title": "Network weights, optimizer state and target networks survive copying", "statement": "get_weights/set_weights of torch networks, of the Gaussian torch policy and of the SAC policy are inverse to each other for vectors of the right size (shapes are kept, each part gets its own slice); a vector that is too short raises. target.set_weights(online.get_weights()) gives the target the online weights, and later in-place optimizer steps on the online network never change the target. After loading, the optimizer works on the loaded parameters and the i-th new parameter has the optimizer state of the i-th old one.", "quantifier": "for all networks (any number of parameters of any shapes), weight vectors, memory layouts, optimizer states and sequences of optimizer steps", "why_tests_cant": "tests compare a few networks of fixed architecture; sharing of memory between a vector and a network, and mixing up of slices of equal length, only show for particular layouts", "anchors": ["mushroom_rl/utils/torch.py:17-67", "mushroom_rl/utils/torch.py:134-142", "mushroom_rl/policy/torch_policy.py:214-224", "mushroom_rl/algorithms/actor_critic/deep_actor_critic/sac.py:146-171", "mushroom_rl/algorithms/actor_critic/deep_actor_critic/deep_actor_critic.py:85-94"]}
{"id": "C77", "title": "TorchApproximator.fit makes the requested epochs and stops early for the right reason", "statement": "fit makes exactly n_epochs epochs (one by default), each going once through the training rows in minibatches of at most batch_size, one optimizer step per minibatch; rows of the validation split are never trained on; the training part has the requested share rounded up. With epsilon it stops at n_epochs or when the last patience epochs have not improved the watched loss by more than epsilon, not earlier, and it terminates for epsilon > 0 and losses bounded below. Sample weights give the weighted average loss. After fit a dropout network is in evaluation mode; loss_fit is the mean batch loss of the last epoch.", "quantifier": "for all networks, losses, optimizers, datasets, batch sizes, shuffles, splits, patience and epsilon values", "why_tests_cant": "tests fit a few epochs on one dataset; termination, the stopping rule and the partition of rows are statements about all loss sequences and sizes", "anchors": ["mushroom_rl/approximators/parametric/torch_approximator.py:92-235"]}
{"id": "C78", "title": "Quantile DQN regresses its predictions to the quantiles of the Bellman target", "statement": "The loss of QuantileDQN on a batch is the mean over samples and over pairs of a predicted and a target quantile of the same sample of the Huber penalty weighted by the level of the prediction; it is zero only when all predictions equal all targets, its gradient vanishes where the share of targets below the prediction equals the level, and the mean of the targets is the DQN target. Refuted: the levels are a class attribute, so a second agent with another number of quantiles breaks the first one (silently when it has one quantile) and an agent loaded in a fresh process cannot be fitted; with one quantile the loss mixes the samples of a batch.", "quantifier": "all batch sizes, numbers of quantiles, predictions, targets, histories of constructed and loaded agents", "why_tests_cant": "The value of the loss depends on broadcasting rules for every combination of batch and quantile numbers, and the class attribute on the history of the process; tests construct one agent with one shape.", "anchors": ["mushroom_rl/algorithms/value/dqn/quantile_dqn.py:13-24", "mushroom_rl/algorithms/value/dqn/quantile_dqn.py:46-64", "mushroom_rl/algorithms/value/dqn/quantile_dqn.py:83-116"]}
{"id": "C79", "title": "Dueling, noisy and categorical heads", "statement": "DuelingNetwork with avg_advantage: the mean of the action values is the value head and their differences are those of the advantages. NoisyLinear: every weight stays between its mean and its mean plus sigma. CategoricalNetwork and RainbowNetwork give distributions whatever the logits, so action values stay within [v_min, v_max]; the gradient of the loss with respect to the logits is prediction minus target above the clamp. Refuted: the noise is not centred (torch.rand), so no draw lowers an output below the mean layer on non-negative features; a prediction below the clamp on the target atom gets no gradient.", "quantifier": "all head outputs, numbers of actions and atoms, noise draws, logits and targets", "why_tests_cant": "Statements about all logits and draws, and gradients, cannot be settled by sampling; the biased noise looks like exploration in a test.", "anchors": ["mushroom_rl/algorithms/value/dqn/dueling_dqn.py:31-48", "mushroom_rl/algorithms/value/dqn/noisy_dqn.py:33-62", "mushroom_rl/algorithms/value/dqn/categorical_dqn.py:15-71", "mushroom_rl/algorithms/value/dqn/rainbow.py:37-64"]}
{"id": "C80", "title": "Soft actor-critic: log-probabilities, entropy coefficient and warm-up", "statement": "The standard deviation of SACPolicy stays within its bounds; both losses of the entropy coefficient raise it exactly when the sampled entropy is below the target; the actor and the coefficient are untouched until the initialised memory holds more than warmup_transitions. The log-probability returned with an action equals the log density of the action plus the sum of the logarithms of the half-widths of the action range, up to a bounded offset term; refuted: it is not the log density of the returned action unless the half-widths are one; with warmup_transitions at or above the capacity of the memory the actor is never trained. In every fit the actor is trained against the critics before the fit, the coefficient on the log-probabilities of the actor before the fit, the critics on targets of the new actor, the new coefficient and the old target critics, and each target critic then moves towards its new critic; the actor loss takes the smaller critic row by row.", "quantifier": "all action ranges, means, deviations, samples, batches and fit histories", "why_tests_cant": "Densities and gradients cannot be observed by sampling a few actions, and tests use unit action ranges and short warm-ups.", "anchors": ["mushroom_rl/algorithms/actor_critic/deep_actor_critic/sac.py:39-121", "mushroom_rl/algorithms/actor_critic/deep_actor_critic/sac.py:263-314"]}
{"id": "C81", "title": "Delayed actor updates and soft target updates", "statement": "DDPG and TD3 train the actor on the batches of the 1st, (d+1)-th, (2d+1)-th, ... fits with an initialised memory and on no other, ceil(n/d) times after n such fits; fits without an initialised memory change nothing. With a constant tau all models of an ensemble are blended alike; refuted for a decaying tau, which is advanced once per model. In every fit the critics are trained on targets of the target actor and target critics before the fit, the actor against the new critics, and the targets then move towards the new critics and the new actor.", "quantifier": "all fit histories, delays, coefficients, ensembles", "why_tests_cant": "Schedules over arbitrary histories of initialised and uninitialised fits; tests run a few fits with one delay.", "anchors": ["mushroom_rl/algorithms/actor_critic/deep_actor_critic/ddpg.py:91-110", "mushroom_rl/algorithms/actor_critic/deep_actor_critic/td3.py:14-60", "mushroom_rl/algorithms/actor_critic/deep_actor_critic/deep_actor_critic.py:85-95"]}
{"id": "C82", "title": "Torch policies and torch distributions", "statement": "A GaussianTorchPolicy reports for an action the product of the Gaussian densities with the network's mean and deviations exp(log_sigma); its log-probability is the logarithm and has the textbook gradient; its entropy is the expected negative log-probability. A BoltzmannTorchPolicy is a probability distribution with ratios exp(beta (l_i - l_j)), uniform at beta = 0 and greedy as beta grows, with entropy between 0 and log n and gradient beta (1 - p). Weights of Gaussian policies and parameters of Cholesky distributions round-trip, and the Cholesky density is the Gaussian one. Refuted: the entropy of RecurrentGaussianTorchPolicy ignores the clamp of the deviations; its log-probability rejects one-dimensional actions; draw_action drops the batch dimension of a batch of one state, and the Boltzmann policy never returns one action of shape (1,) per state of a batch.", "quantifier": "all networks' outputs, parameters, actions, dimensions, batch sizes and inverse temperatures", "why_tests_cant": "Densities, entropies, gradients and limits are statements about all reals; tests compare single numbers with stored ones and use batches of a single shape.", "anchors": ["mushroom_rl/policy/torch_policy.py:34-45", "mushroom_rl/policy/torch_policy.py:195-304", "mushroom_rl/policy/recurrent_torch_policy.py:9-63", "mushroom_rl/distributions/torch_distribution.py:6-140", "mushroom_rl/utils/torch.py:145-157"]}
{"id": "C83", "title": "Torch feature tensors", "statement": "TorchFeatures built from tensors with at least two centres each and two features in all returns the features of all tensors in order, in the shape BasisFeatures returns; Gaussian tensors and Gaussian basis functions generated with the same arguments are interchangeable. Normalised features are positive, sum to one and keep their ratios; von Mises features lie in (0, 1], are one at the centre and have period one; random Fourier features are n_output values in [-1, 1], the last one constant with bias. Refuted: a tensor with one centre always raises; a single feature cannot be evaluated in one state and loses its dimension on batches; the ring of the von Mises grid is not the period of the features unless the range has integer width.", "quantifier": "all grids, scales, states, batches and lists of tensors", "why_tests_cant": "The failing shapes are the boundary cases (one centre, one feature, one state) that no test instantiates; periodicity and normalisation quantify over all reals.", "anchors": ["mushroom_rl/features/tensors/basis_tensor.py:9-141", "mushroom_rl/features/tensors/constant_tensor.py:7-18", "mushroom_rl/features/tensors/random_fourier_tensor.py:43-80", "mushroom_rl/features/_implementations/torch_features.py:12-29", "mushroom_rl/features/_implementations/basis_features.py:10-33"]}
{"id": "C84", "title": "Atari environments: action repetition, frame history and episode boundaries", "statement": "With NoFrameskip games one step holds the action until history_length frames have been played or the game is over; the reward is the sum over the frames played, the flags are those of the last one, and when all frames are played the screen is pooled from the last two. The observation is always history_length preprocessed screens: the last ones, in time order, of the first screen repeated followed by the screens of all steps since the game was reset; a reset after a lost life continues game, history and lives, a reset after game over or stop starts afresh. Absorbing holds exactly at game over or, with ends_at_life, when the number of lives changes. The pending FIRE and no-op actions are played exactly once, before the first action. Four defects are established: a game over before the last two frames of a skip returns the screen of an earlier action; a game over or reward during the no-ops is dropped; a reset after a truncated episode continues the old game; and GymnasiumAtari.reset raises whenever it does not reset the game.", "quantifier": "all emulators (state space, screens, rewards, lives), history lengths, actions, no-op draws and sequences of steps and resets", "why_tests_cant": "The behaviours depend on when the emulator ends a game relative to skip, lives and no-op draws; tests run a few random steps on one ROM, if the ROM is available at all.", "anchors": ["mushroom_rl/environments/atari.py:MaxAndSkip.step", "mushroom_rl/environments/atari.py:Atari.reset", "mushroom_rl/environments/atari.py:Atari.step", "mushroom_rl/environments/gymnasium_atari.py:GymnasiumAtari.reset", "mushroom_rl/utils/frames.py:LazyFrames"]}
{"id": "C85", "title": "Wrappers of external simulators leave termination to the simulator and horizons to the core", "statement": "With at most one TimeLimit among the wrappers, Gym's horizon is the one requested or else that limit, and for every action sequence the environment returns exactly the observations, rewards and flags of the bare simulator: the gym time limit never ends an episode. The constructor raises exactly when nothing is wrapped or neither a horizon nor a limit exists. Gymnasium never reports truncation as absorbing, whatever the wrappers, and its default horizon is finite. MiniGrid observations are the last history_length screens since the reset and positive rewards become 1. DMControl's flattened observation has the declared size and every array sits at the offset of the sizes before it; without pixels absorbing is exactly the end of the task. Refuted: a second TimeLimit stays active; reset(state) on a wrapped simulator returns the state but does not set it; MiniGrid's time limit and DMControl's limit with pixels are written on the wrapper, so time-outs are reported as absorbing whatever the horizon; MiniGrid's fixed_seed has no effect.", "quantifier": "all simulators, wrapper stacks, limits, horizons, states and action sequences", "why_tests_cant": "The defects appear only with particular wrapper stacks, horizons and long episodes, and the simulators are optional dependencies that the tests skip or step a few times.", "anchors": ["mushroom_rl/environments/gym_env.py:Gym._set_horizon", "mushroom_rl/environments/gym_env.py:Gym.reset", "mushroom_rl/environments/gymnasium_env.py:Gymnasium.step", "mushroom_rl/environments/minigrid_env.py:MiniGrid.__init__", "mushroom_rl/environments/minigrid_env.py:MiniGrid.step", "mushroom_rl/environments/dm_control_env.py:DMControl"]}
{"id": "C86", "title": "Spaces describe what they were given and environments are made from their names", "statement": "A Box from two numbers and a shape has that shape and these bounds in every component; from two arrays it is accepted exactly when their shapes agree, with these arrays as bounds; whenever the shape given agrees with the arrays, the reported shape is that of both bounds and saving and loading is the identity. A discrete MDP has size (states, actions), one table entry per pair, and size exists for no other MDP. Environment.make with name and parameters joined by dots selects the environment by the first piece and passes the remaining pieces as strings before the explicit arguments; unknown names raise; registering keeps all earlier entries, their order and the first class registered under a name. Refuted: one number and one array always raise although the documentation allows them; a shape contradicting the arrays is accepted and then lost by saving and loading; a parameter containing a dot (a decimal number) arrives in two pieces.", "quantifier": "all bounds, shapes, names, parameters and registries", "why_tests_cant": "Which combinations raise and what survives saving depends on argument types and shapes that tests do not enumerate.", "anchors": ["mushroom_rl/rl_utils/spaces.py:Box.__init__", "mushroom_rl/rl_utils/spaces.py:Box._post_load", "mushroom_rl/rl_utils/spaces.py:Discrete", "mushroom_rl/core/environment.py:MDPInfo", "mushroom_rl/core/environment.py:Environment.make", "mushroom_rl/core/environment.py:Environment.register"]}
{"id": "C87", "title": "MuJoCo observations have the declared layout, steps the declared duration, and MultiMuJoCo resets cleanly", "statement": "After any sequence of removals and additions (components not removed before, at least one kept), the observation has exactly as many numbers as each limit, get_from_obs returns for every key its reading without the removed components, every added key its block, joint positions and velocities are read in specification order, and the limits per entry are the joint range, plus or minus the maximal velocity, or infinity. reset(obs) writes the observation into the simulator such that observing again gives it back, leaves removed components alone, and raises when the observation is too short. An environment step makes n_intermediate_steps simulator calls of n_substeps; the control is written once from the observation, or before each call from the current observation when _compute_action is overridden; the reward gets old and new observation; the simulated time advances by the declared dt; only listed actuators are written. check_collision is true exactly when a contact joins the groups and is symmetric; the collision force is that of the first such contact. Every MultiMuJoCo reset starts from fresh data of the selected model, models take turns, and identifiers of different models differ. Refuted: remove_obs raises for some removal orders and not for others; the collision force is not the total; the requested timestep reaches only the first MultiMuJoCo model; models with different limits are accepted; MultiMuJoCo.reset does not return (state, info).", "quantifier": "all specifications, removals, additions, readings, simulators, controls, contact lists, reset histories and numbers of models", "why_tests_cant": "Index bookkeeping under arbitrary removals and additions, arbitrary simulators and arbitrary reset histories.", "anchors": ["mushroom_rl/utils/mujoco/observation_helper.py:ObservationHelper", "mushroom_rl/environments/mujoco.py:MuJoCo.step", "mushroom_rl/environments/mujoco.py:MuJoCo.reset", "mushroom_rl/environments/mujoco.py:MuJoCo._check_collision", "mushroom_rl/environments/mujoco.py:MuJoCo._get_collision_force", "mushroom_rl/environments/mujoco.py:MultiMuJoCo.__init__", "mushroom_rl/environments/mujoco.py:MultiMuJoCo.reset", "mushroom_rl/environments/mujoco.py:MultiMuJoCo._get_env_id_map"]}
{"id": "C88", "title": "PyBullet states, limits, actions and contact flags are those of the named objects", "statement": "With known names the constructor succeeds and every state exists, has one number per limit, and get_sim_state(name, type) returns exactly the readings of that object, whatever else is in the specification and also for repeated entries; joints.positions and joints.velocities are in specification order; limits are the joint range, plus or minus the maximal velocity, 0 to 1 for a contact flag, otherwise unbounded. A joint or link name refers to a movable joint (a link) with that name and exists exactly when there is one. When every actuated name is a joint, component k of an action goes to the joint of entry k in its control mode, with the limits of that mode, and short actions raise. A contact flag between two models is 1 exactly when the two links touch, in either naming order and independently of earlier states. A step makes n_intermediate_steps simulator steps, each after a control computed from the state at that moment, advances time by dt and gives reward and absorbing the states before and after; reset does not depend on the past. Refuted: equal joint names in two models make the first unreachable; misspelled actuated joints are dropped silently and later action components move up; an empty actuation specification raises although documented; the flag between two links of one model is 0 when the simulator reports them in the named order.", "quantifier": "all models, specifications, simulator readings, contact points, actions and histories", "why_tests_cant": "Index and contact bookkeeping over arbitrary specifications and simulators.", "anchors": ["mushroom_rl/environments/pybullet.py:PyBullet.step", "mushroom_rl/environments/pybullet.py:PyBullet.reset", "mushroom_rl/environments/pybullet.py:PyBullet.get_sim_state", "mushroom_rl/utils/pybullet/index_map.py:IndexMap", "mushroom_rl/utils/pybullet/contacts.py:ContactHelper", "mushroom_rl/utils/pybullet/joints_helper.py:JointsHelper"]}
{"id": "C89", "title": "Air hockey and ball-in-a-cup tasks reward, end and report what they document", "statement": "For every sequence of contacts, puck and mallet position and velocity: the contact flags in the observation say exactly whether mallet or short side touched the puck since the reset; get_puck returns position, linear and angular velocity; the puck is observed in the frame of each robot; the mallet and joint constraints in the info dictionary are satisfied exactly inside the table and the joint limits; an episode ends exactly when the puck leaves the table (or is too fast) or by the task's own condition; the bounce point of the hitting task obeys the reflection law and its directions are unit vectors; scoring gives 200 and nothing else comes near it; conceding costs 50 in defend and repel; losing the puck is not rewarded in prepare; the observation of the PyBullet tasks is defined for every noise/delay option and within its limits; the ball-in-a-cup reward is 1 exactly when caught, which ends the episode, and every reset starts from the same state. Where the code deviates (second robot's flag and velocity, get_puck velocities, joint position constraints, speed bonus, prepare bonus, PyBullet noise, delay, limits and stale velocity) the deviation is proved.", "quantifier": "all contact sequences, all readings, all real positions, velocities, actions and penalties, all frames of a planar robot", "why_tests_cant": "Rewards and flags depend on continuous physics; a test samples a few trajectories of one simulator and cannot cover all geometries, nor does it check the velocity components against the documentation.", "anchors": ["mushroom_rl/environments/mujoco_envs/air_hockey/single.py:get_puck", "mushroom_rl/environments/mujoco_envs/air_hockey/double.py:_simulation_post_step", "mushroom_rl/environments/mujoco_envs/air_hockey/base.py:is_absorbing", "mushroom_rl/environments/mujoco_envs/air_hockey/hit.py:reward", "mushroom_rl/environments/mujoco_envs/air_hockey/defend.py:reward", "mushroom_rl/environments/mujoco_envs/air_hockey/prepare.py:reward", "mushroom_rl/environments/mujoco_envs/air_hockey/repel.py:reward", "mushroom_rl/environments/mujoco_envs/ball_in_a_cup.py:setup", "mushroom_rl/environments/pybullet_envs/air_hockey/single.py:_create_observation", "mushroom_rl/environments/pybullet_envs/air_hockey/hit.py:reward"]}
{"id": "C90", "title": "Array backends agree on reordering, medians, conversions and stacking, and the default environment is the selected one", "statement": "flatten and pack_padded_sequence put the environments one after the other, each with its steps in order, identically for numpy and torch arrays of any dimension; median splits the values in halves and is the same in both; from_list of the same list gives the same array; where and squeeze give the same results; convert, and the conversions between agent and environment, keep content, give the target kind and refuse other targets; reset, step and render of a vectorized environment run exactly the environment given to set_default_env.", "quantifier": "every shape, every step and environment index, every list of values, every pair of backends, every number of environments", "why_tests_cant": "Equality of column-major reshape and transposed row-major reshape is an arithmetic fact for all shapes; tests use one or two dimensions, odd numbers of episodes and several episodes per fit, where the two backends do agree.", "anchors": ["mushroom_rl/core/array_backend.py:NumpyBackend", "mushroom_rl/core/array_backend.py:TorchBackend", "mushroom_rl/core/array_backend.py:ArrayBackend.convert", "mushroom_rl/core/vectorized_env.py:VectorizedEnvironment"]}
{"id": "C91", "title": "Callbacks, plots, recordings, confidence intervals and the console show what happened", "statement": "CollectQ, CollectMaxQ and CollectParameters hold one entry per call since the last clean, the value at that call, unaffected by later learning; lists handed out are kept by clean. PlotDataset shows the last window of every tracked component, and one return and one length per episode. A plot window refreshes and tracks exactly the active plots. Curves get distinct colours. The confidence half width is translation invariant, scales with the data and vanishes exactly when all runs agree. Every recorded run is one file with its frames in order. Drawn shapes keep their size and stay on the screen. A logger writes each message once to the console and once to its file.", "quantifier": "every sequence of learning steps, calls, cleanings, clicks, samples, frames and loggers", "why_tests_cant": "The statements quantify over all interleavings of learning with calls and over all click and run sequences; the Qt, cv2 and logging parts are not exercised by the unit tests at all.", "anchors": ["mushroom_rl/utils/callbacks/callback.py:CallbackList", "mushroom_rl/utils/callbacks/collect_q.py:CollectQ", "mushroom_rl/utils/callbacks/plot_dataset.py:PlotDataset", "mushroom_rl/utils/plots/window.py:Window", "mushroom_rl/utils/plot.py:get_mean_and_confidence", "mushroom_rl/utils/record.py:VideoRecorder", "mushroom_rl/utils/viewer.py:Viewer", "mushroom_rl/core/logger/console_logger.py:ConsoleLogger"]}
{"id": "C92", "title": "Habitat, iGibson and Isaac wrappers pass observations, actions and flags on faithfully", "statement": "Observations have the declared shape and range; a discrete action arrives as its index and a rearrange action is split into arm and gripper; within the horizon the absorbing flag is that of the task; render shows the current image; the return of the shortest path sums the rewards up to the end; resetting with a mask resets exactly the environments of the mask, environments outside it are never reported done, and the observation is the first tensor of the task observation.", "quantifier": "every image size, action, horizon, step, mask and nesting of task observations", "why_tests_cant": "The simulators are not installed in the test environment; square images, default horizons and masks with several environments hide the deviations.", "anchors": ["mushroom_rl/environments/habitat_env.py:Habitat", "mushroom_rl/environments/habitat_env.py:HabitatRearrangeWrapper", "mushroom_rl/environments/igibson_env.py:iGibson", "mushroom_rl/environments/isaac_env.py:IsaacEnv", "mushroom_rl/utils/isaac_utils.py:convert_task_observation"]}
{"id": "C93", "title": "Observations returned by the classic environments never change afterwards", "statement": "An array returned by reset or step of PuddleWorld, ShipSteering, LQR, InvertedPendulum, CartPole, Segway, CarOnHill, FiniteMDP or a grid world keeps its value during every later reset and step, also when it is passed back to reset; arrays of the caller are written only when they are passed to reset with an angle or velocity outside its range; LQR returns the configured initial state at every reset.", "quantifier": "every sequence of resets (with or without a state), steps and caller arrays; every dynamics", "why_tests_cant": "Aliasing bugs show up only for particular orders of calls with shared arrays.", "anchors": ["mushroom_rl/environments/puddle_world.py", "mushroom_rl/environments/ship_steering.py", "mushroom_rl/environments/lqr.py", "mushroom_rl/environments/inverted_pendulum.py", "mushroom_rl/environments/cart_pole.py", "mushroom_rl/environments/segway.py", "mushroom_rl/environments/car_on_hill.py", "mushroom_rl/environments/finite_mdp.py", "mushroom_rl/environments/grid_world.py"]}
{"id": "C94", "title": "Loaded and copied agents act with what they learn", "statement": "After saving and loading (or copying) a TD, DQN-family, batch TD or DDPG-family agent, the policy the loaded agent draws actions from reads the same approximator object that later fits update, exactly as before the save; and an agent that was never saved keeps this for COPDAC_Q and for a Mellowmax policy. For COPDAC_Q and the Mellowmax temperature the link is lost by the load: later fits do not change the policy (COPDAC_Q) or the values from which the temperature is computed (Mellowmax).", "quantifier": "for all agents of each kind, approximator values, and sequences of fits, saves and loads", "why_tests_cant": "the effect is on object identity across a save/load followed by any number of fits; tests compare the attribute values right after the load, where both objects are still equal", "anchors": ["core/serialization.py", "algorithms/value/td/td.py", "algorithms/value/batch_td/batch_td.py", "algorithms/value/dqn/abstract_dqn.py", "policy/td_policy.py", "algorithms/actor_critic/deep_actor_critic/ddpg.py", "algorithms/actor_critic/classic_actor_critic/copdac_q.py"]}
{"id": "C95", "title": "Loading restores every attribute the methods read", "statement": "For every Serializable class of the library, an object loaded from a file has each attribute that the methods of its class read, with the value it had when it was saved (whether or not the save was full), except: attributes recomputed by _post_load, the next action, loggers, the last loss and the approximator of a TD policy, which come back as None; and the listed unregistered attributes (AdamOptimizer._eps, MORE's features and regressors, PPO_BPTT._truncation_length, the log-std bounds of the recurrent policy, the masks of list and torch datasets, ExtraInfo's backend, device and number of environments), which do not exist after a load. Hence for the classes without exceptions every method gives after the load what it gave before.", "quantifier": "for all 130 Serializable classes, all objects, attribute values, full and partial saves, and all methods depending on the listed attributes", "why_tests_cant": "a test checks the attributes of one object of one class that its author thought of; the claim ranges over all classes, attributes and values", "anchors": ["core/serialization.py", "rl_utils/optimizers.py", "algorithms/policy_search/black_box_optimization/more.py", "algorithms/actor_critic/deep_actor_critic/ppo_bptt.py", "policy/recurrent_torch_policy.py", "core/extra_info.py", "core/_impl/list_dataset.py", "core/_impl/torch_dataset.py"]}
{"id": "C96", "title": "Step information of several environments stays with its samples", "statement": "However a vectorised run appends steps (information as a list of dictionaries or as a dictionary of arrays), flattens and partially clears its dataset, flattening succeeds and, for every key, entry j of the flat information is what the environment reported for the transition at index j of the flat samples (the filler where it reported nothing); samples are listed environment by environment in the order of the steps, exactly the masked ones. When n_steps_per_fit cuts the samples the information keeps its full length, and slicing the flattened dataset (as compute_metrics does) leaves the slice and the dataset itself with no information.", "quantifier": "for all numbers of environments above one, all runs of appends, flattenings and partial clears, masks, nested dictionaries and values", "why_tests_cant": "a test fixes one shape of information and one sequence of calls; the claim ranges over arbitrary interleavings and nestings", "anchors": ["core/extra_info.py", "core/dataset.py", "core/multiprocess_environment.py", "core/vectorized_core.py"]}
{"id": "C97", "title": "Videos of several environments", "statement": "With rendering and recording switched on, VectorCore adds to each environment's video the frame of that environment as long as the environments that are switched off come after those that run, and the videos of one recorder have different names. As soon as an environment that is switched off precedes a running one, the step raises IndexError; and all recorders write to the same file name when a tag is given or they are built within one second.", "quantifier": "for all numbers of environments, masks, frames and recorders", "why_tests_cant": "which environments are switched off depends on when their episodes end; a test exercises one pattern", "anchors": ["core/vectorized_core.py", "core/multiprocess_environment.py", "utils/record.py"]}
{"id": "C98", "title": "The classic control environments integrate the mechanics they are named after", "statement": "The right-hand sides handed to the integrator are the equations of motion of the systems described. CarOnHill: the slope and curvature terms are the derivatives of the hill that is drawn, and along any exact solution the energy of the car changes by the work of the force, so that from the initial state an agent that only accelerates to the right never reaches the goal. InvertedPendulum: within the speed bound the energy changes by the work of the torque minus the friction heat. CartPole and Segway: the returned accelerations are exactly the solution of the equations of motion of a rod on a cart and of a body on rolling wheels, without division by zero, and energy is balanced. The pictures show the state that is simulated.", "quantifier": "all parameters with positive masses and lengths, all states, inputs and exact solutions on intervals of any length", "why_tests_cant": "tests compare a few steps with recorded numbers; they cannot tell whether the recorded trajectory obeys the mechanics, nor speak of all solutions", "anchors": ["mushroom_rl/environments/car_on_hill.py:CarOnHill._dpds", "mushroom_rl/environments/car_on_hill.py:CarOnHill._height", "mushroom_rl/environments/car_on_hill.py:CarOnHill._angle", "mushroom_rl/environments/inverted_pendulum.py:InvertedPendulum._dynamics", "mushroom_rl/environments/cart_pole.py:CartPole._dynamics", "mushroom_rl/environments/segway.py:Segway._dynamics", "mushroom_rl/environments/segway.py:Segway.render"]}
{"id": "C99", "title": "MORE moves to the optimum of its trust-region problem", "statement": "For every pair of multipliers the distribution computed in closed form by MORE is the maximiser of the Lagrangian of the expected surrogate return with the divergence and entropy bounds, the dual function is the value of that maximum (up to half the constant term of the surrogate, which does not move the minimum), no distribution within the bounds has a larger expected surrogate return than the dual value, and at the multipliers that minimise the dual the new distribution is within eps of the old one and keeps entropy beta, with equality unless a multiplier is at its lower bound.", "quantifier": "all dimensions, old distributions, surrogates, bounds and multipliers", "why_tests_cant": "tests run one update and compare numbers; optimality and the bounds are statements about all distributions", "anchors": ["mushroom_rl/algorithms/policy_search/black_box_optimization/more.py:MORE._dual_function", "mushroom_rl/algorithms/policy_search/black_box_optimization/more.py:MORE._closed_form_mu_t1_sig_t1", "mushroom_rl/algorithms/policy_search/black_box_optimization/more.py:MORE._get_F_f"]}
{"id": "C100", "title": "Observations and policy states of several environments chain", "statement": "In a VectorCore run without core preprocessors every transition of an environment starts where its previous transition ended, with the policy state left by that transition, unless the environment was reset in between; then it starts from the observation and policy state of the reset. An environment that ended is always reset before it moves again, and one that goes on is never touched by the reset of others. With core preprocessors this fails: those that compute with arrays raise at the first reset (they are given the pair of observations and information); those that accept the pair process the observations, also those of environments that go on, a second time and update their statistics twice more at every reset. MinMaxPreprocessor on a batch scales the rows whose number is that of a bounded component.", "quantifier": "all numbers of environments, horizons, absorbing flags, environments, agents with or without policy states, budgets, fits", "why_tests_cant": "The claim relates consecutive rows of every environment over all interleavings of episode ends; tests use few environments and no preprocessors.", "anchors": ["mushroom_rl/core/vectorized_core.py:VectorCore._step", "mushroom_rl/core/vectorized_core.py:VectorCore._reset", "mushroom_rl/core/vectorized_core.py:VectorCore._preprocess", "mushroom_rl/core/multiprocess_environment.py:MultiprocessEnvironment.reset_all", "mushroom_rl/core/multiprocess_environment.py:MultiprocessEnvironment.step_all", "mushroom_rl/rl_utils/preprocessors.py:MinMaxPreprocessor.__call__"]}
{"id": "C101", "title": "Tabular Q-learning, expected SARSA and Maxmin Q-learning converge on deterministic finite environments", "statement": "In a finite environment with deterministic transitions and rewards and a discount factor below one, the optimal action values exist, are unique and are the largest discounted returns obtainable by any sequence of actions.  Whatever the initial table and whatever the order in which (state, action) pairs are visited, as long as the learning rates of each pair lie in [0, 1] and sum to infinity, the table learnt by Q-learning converges to the optimal values of the states in which actions are taken, and from some step on every greedy action read from the table is optimal.  The same holds for each table of Maxmin Q-learning, and Expected SARSA under a fixed policy converges to the values of that policy.  Rates that stay above c / (number of visits) satisfy the requirement whenever every pair is visited for ever.  Acting greedily with respect to the optimal values yields the largest return.", "quantifier": "all finite deterministic environments, discount factors in [0,1), initial tables, infinite visiting orders and learning rate sequences", "why_tests_cant": "Convergence is a statement about infinite runs; a test sees a finite prefix and cannot tell convergence from slow drift.", "anchors": ["mushroom_rl/algorithms/value/td/q_learning.py:QLearning._update", "mushroom_rl/algorithms/value/td/expected_sarsa.py:ExpectedSARSA._update", "mushroom_rl/algorithms/value/td/maxmin_q_learning.py:MaxminQLearning._update"]}
{"id": "C102", "title": "A Q-learning agent trained by Core learns to act optimally", "statement": "Take a finite deterministic environment with or without horizon in which every (state, action) pair can be reached from everywhere (resets included), a QLearning agent with an epsilon-greedy policy whose random draws try every finite sequence of actions again and again, and a learning rate that is constant or decays with the visits of a pair to an exponent of at most one.  Core.learn(n_steps=N, n_steps_per_fit=1) always completes, calls fit once per step with exactly the transition just made, and leaves the table obtained by applying the update to the transitions in order.  As N grows the table converges to the optimal values, and for all N from some number on every greedy action of the trained agent is optimal.", "quantifier": "all such environments, horizons, discount factors below one, initial tables, exploration rates, random sequences, and N", "why_tests_cant": "The claim concerns the limit of unboundedly long training; finite runs cannot establish it, and it depends on the interplay of four components (loop, policy, learning rate, update).", "anchors": ["mushroom_rl/core/core.py:Core._run", "mushroom_rl/algorithms/value/td/td.py:TD.fit", "mushroom_rl/algorithms/value/td/q_learning.py:QLearning._update", "mushroom_rl/policy/td_policy.py:EpsGreedy.draw_action", "mushroom_rl/rl_utils/parameters.py:DecayParameter"]}
{"id": "C103", "title": "A DQN agent trained by Core learns only from recent transitions of that run, with the scheduled target network", "statement": "Core.learn with a DQN agent and a ReplayMemory never raises in any environment with any policy, network, training step and fit schedule. Fit number i trains the network iff, after storing the transitions handed over so far, more than initial_replay_size are held; it then trains exactly once on exactly batch_size rows, each row being one of the last max_replay_size transitions really made in this run, labelled with the (optionally clipped) reward plus gamma times the largest value of the next state, zero if absorbing, under the weights the network had after the last multiple of target_update_frequency fits. Otherwise the weights do not change.", "quantifier": "all environments, horizons, policies, networks, training steps, replay sizes, batch sizes, target update frequencies, discount factors, schedules in steps or episodes, budgets and random index draws", "why_tests_cant": "It joins Core, the dataset, the circular memory and DQN over unbounded runs; a test checks one environment for a few steps and cannot see a stale row, a late target copy or a row from a wrong place in the ring", "anchors": ["mushroom_rl/core/core.py:Core.learn", "mushroom_rl/algorithms/value/dqn/abstract_dqn.py:AbstractDQN.fit", "mushroom_rl/algorithms/value/dqn/dqn.py:DQN._next_q", "mushroom_rl/rl_utils/replay_memory.py:ReplayMemory"]}
{"id": "C104", "title": "Replay-based agents (DQN, DDPG, TD3, SAC) learn only from recent transitions over any sequence of learn and evaluate calls", "statement": "In any sequence of Core.learn and Core.evaluate calls, an agent with a ReplayMemory never raises; the datasets given to fit contain transitions of the learn calls in their order, evaluation gives it nothing. Fit number i trains iff more than initial_replay_size of the last max_replay_size handed-over transitions exist, on batch_size rows at the drawn positions of an arrangement of exactly these transitions. DDPG labels with the target critic at the target actor's action, TD3 with the smaller target critic at the clipped noisy action, SAC with the smaller target critic at an action of the just updated policy minus alpha times its log-probability, all zero beyond absorbing transitions; DDPG and TD3 update the actor exactly at every policy_delay-th training fit, SAC updates actor and alpha exactly when more than warmup_transitions are held; target networks move by the soft update.", "quantifier": "all environments, horizons, policies with internal state, networks, training steps, memory sizes, index draws, delays, soft-update coefficients, and all finite sequences of learn and evaluate calls with any budgets and schedules", "why_tests_cant": "The schedule counters, the ring memory, the fit schedule of Core and the target networks interact over unboundedly many calls; a test fixes one seed, one environment and a few steps and compares weights", "anchors": ["mushroom_rl/core/core.py:Core.learn", "mushroom_rl/core/core.py:Core.evaluate", "mushroom_rl/algorithms/actor_critic/deep_actor_critic/ddpg.py:DDPG.fit", "mushroom_rl/algorithms/actor_critic/deep_actor_critic/td3.py:TD3._next_q", "mushroom_rl/algorithms/actor_critic/deep_actor_critic/sac.py:SAC.fit", "mushroom_rl/rl_utils/replay_memory.py:ReplayMemory"]}
{"id": "C105", "title": "On-policy agents are fitted on data of the policy they update", "statement": "In every Core.learn call, each agent.fit receives exactly the transitions made since the previous fit of that call, and every action in them was drawn with the very policy weights that this fit updates; no transition of an older policy, of an earlier learn call or of an evaluation is ever included, whatever the fit and run schedules. VectorCore breaks this when n_steps_per_fit is not a multiple of the number of environments.", "quantifier": "every environment, agent whose weights change only in fit, schedule by steps or episodes, run length and position of the fit in the run", "why_tests_cant": "Whether a dataset is on-policy is a relation between each action and the history of updates of the whole run; tests look at the values learnt after a few fits and cannot tell stale data from fresh data.", "anchors": ["mushroom_rl/core/core.py:Core._run", "mushroom_rl/core/_impl/core_logic.py:CoreLogic.fit_required", "mushroom_rl/core/dataset.py:VectorizedDataset.clear"]}
{"id": "C106", "title": "The gradients of REINFORCE and GPOMDP estimate the gradient of the expected return", "statement": "For every finite stochastic environment and differentiable stochastic policy, the expectation, over n independent episodes drawn with the current weights, of the gradient handed to the optimizer by REINFORCE or GPOMDP is the gradient of the expected discounted return. Exactly: it equals that gradient minus the expected product of the baseline and the mean score; because the baseline is computed from the same episodes, this correction does not vanish and the estimates are biased (by one half for two episodes of a two-armed bandit).", "quantifier": "every finite environment, horizon, discount, initial distribution, policy with a score function, weight component and number of episodes of at least two", "why_tests_cant": "Unbiasedness is about the average over all possible batches of episodes; a test sees a few sampled gradients and cannot tell bias from noise.", "anchors": ["mushroom_rl/algorithms/policy_search/policy_gradient/reinforce.py:REINFORCE._compute_gradient", "mushroom_rl/algorithms/policy_search/policy_gradient/gpomdp.py:GPOMDP._compute_gradient", "mushroom_rl/algorithms/policy_search/policy_gradient/policy_gradient.py:PolicyGradient.fit"]}
{"id": "C107", "title": "SARSA agents bootstrap from the action they take next", "statement": "In every Core.learn call with n_steps_per_fit=1, SARSA, SARSA(lambda), true online SARSA(lambda) and the linear SARSA(lambda) perform the textbook algorithm: every transition inside an episode is bootstrapped from the very action executed in the next transition, drawn with the values before the update; episodes start with a fresh draw and without traces; an action left over from an earlier episode, learn call or evaluation is never executed; evaluations in between change nothing that is learnt.", "quantifier": "every environment, policy, learning rate, horizon, run length and sequence of random draws, every left-over state of the agent", "why_tests_cant": "next_action is a hidden hand-over between fit, draw_action and Core._reset; tests compare tables after a few steps from a fresh agent and cannot see stale or double-drawn actions over longer executions.", "anchors": ["mushroom_rl/core/agent.py:Agent.draw_action", "mushroom_rl/core/core.py:Core._reset", "mushroom_rl/algorithms/value/td/sarsa.py:SARSA._update", "mushroom_rl/algorithms/value/td/sarsa_lambda.py:SARSALambda._update", "mushroom_rl/algorithms/value/td/true_online_sarsa_lambda.py:TrueOnlineSARSALambda._update", "mushroom_rl/algorithms/value/td/sarsa_lambda_continuous.py:SARSALambdaContinuous._update"]}
{"id": "C108", "title": "Policy-gradient agents trained by Core follow the gradient of whole on-policy episodes", "statement": "When a REINFORCE, GPOMDP or eNAC agent is trained by Core with n_episodes_per_fit = k >= 2, in every learn call after any history of such learn calls and of evaluate calls, no fit ever raises, and each fit works on exactly k whole episodes, each begun by a reset after the previous fit, whose actions were all drawn with the weights the policy still has at the fit; the optimizer is given exactly the REINFORCE (GPOMDP) gradient estimate of these k episodes with the scores taken at those weights (for eNAC, the least-squares problem of these episodes), and its result becomes the weights of the policy. With k = 1 every fit raises and the weights never change. With n_steps_per_fit the first claim fails: the end of an episode cut by a fit enters the next gradient as if it were a whole episode.", "quantifier": "for all environments, horizons, policies, score functions, optimizers, initial weights, numbers of episodes per fit, move budgets and histories of learn and evaluate calls", "why_tests_cant": "The claim relates the whole history of a training session (Core's schedule, dataset clearing, the algorithm's accumulators surviving between fits) to the weights; unit tests train once with fixed seeds and compare the final numbers.", "anchors": ["mushroom_rl/core/core.py:Core._run", "mushroom_rl/algorithms/policy_search/policy_gradient/policy_gradient.py:PolicyGradient.fit", "mushroom_rl/algorithms/policy_search/policy_gradient/policy_gradient.py:PolicyGradient._update_parameters", "mushroom_rl/algorithms/policy_search/policy_gradient/reinforce.py", "mushroom_rl/algorithms/policy_search/policy_gradient/gpomdp.py", "mushroom_rl/algorithms/policy_search/policy_gradient/enac.py"]}
{"id": "C109", "title": "Optimizers of torch agents follow their parameters through saving, loading and copying", "statement": "An agent whose networks are trained by torch optimizers (TorchApproximator, A2C, PPO, PPO_BPTT, DDPG, TD3, SAC with its temperature) goes through exactly the values it would have without files: for any sequence of gradient fits of any of its parts, weight assignments, save/load round trips and copies, the parameter values are those of the plain recursion in which each fit applies the optimizer's rule, with that part's own accumulated optimizer state, to the (clipped) gradient of the current loss alone. In particular gradients left by other losses never enter a step, optimizer state stays with its parameter, and a loaded agent keeps learning. ePPO follows this only as long as it is not loaded: after a load no fit changes its distribution.", "quantifier": "for all initial values, optimizer rules with any state, losses depending on all parameters, clipping functions, numbers of parts and parameters, and sequences of operations", "why_tests_cant": "Tests save and load an agent and compare attributes; that the loaded optimizer still moves the loaded networks, with the right state, shows only in later fits.", "anchors": ["mushroom_rl/utils/torch.py:TorchUtils.update_optimizer_parameters", "mushroom_rl/approximators/parametric/torch_approximator.py:TorchApproximator._fit_batch", "mushroom_rl/algorithms/actor_critic/deep_actor_critic/deep_actor_critic.py:DeepAC._optimize_actor_parameters", "mushroom_rl/algorithms/actor_critic/deep_actor_critic/deep_actor_critic.py:DeepAC._update_optimizer_parameters", "mushroom_rl/algorithms/policy_search/black_box_optimization/eppo.py:ePPO._update"]}
{"id": "C110", "title": "PPO and A2C trained by Core make the textbook update at every fit", "statement": "When Core.learn fits PPO every k >= 2 steps or every k >= 2 episodes, no fit meets a NaN, and each fit works on exactly the transitions made since the fit before, whose actions were drawn with the weights and through the agent preprocessors the agent still has at the fit. The advantage of each transition is the discounted sum of temporal-difference errors up to the end of its episode or of the data, centred and scaled over the dataset; the critic is fitted on advantage plus value; each epoch goes once through all transitions in minibatches; the probability ratios are taken against the probabilities under which the actions were drawn; and without preprocessors the gradient before the first step is the plain policy gradient with entropy bonus. A2C makes one such step on bootstrapped returns if the environment has no horizon; with a horizon its targets run across episode ends. Told to fit at every step neither agent ever learns.", "quantifier": "for all environments, policies, critics, optimizer steps, preprocessors, schedules of epsilon and entropy coefficient, batch sizes, numbers of epochs, shuffles, budgets and fit schedules", "why_tests_cant": "Tests of these agents compare the weights after a short seeded run with stored numbers; they cannot tell which data, probabilities and advantages every update of an arbitrary run used.", "anchors": ["mushroom_rl/core/core.py:Core._run", "mushroom_rl/algorithms/actor_critic/deep_actor_critic/ppo.py:PPO.fit", "mushroom_rl/algorithms/actor_critic/deep_actor_critic/ppo.py:PPO._update_policy", "mushroom_rl/algorithms/actor_critic/deep_actor_critic/a2c.py:A2C.fit", "mushroom_rl/rl_utils/value_functions.py:compute_gae", "mushroom_rl/rl_utils/value_functions.py:compute_advantage_montecarlo"]}
{"id": "C111", "title": "A DQN agent with prioritised replay trained by Core makes the textbook update", "statement": "When Core.learn trains a DQN agent with a PrioritizedReplayMemory, the memory always holds the last max_size transitions handed over, in order, each with a positive priority. A new transition enters with the largest priority held (1 until the memory is initialised). Once more than initial_size transitions are held, every fit trains on exactly batch_size of them: each example is the state, action and (clipped) reward plus the discounted largest value of the next state under the target network, zero if absorbing; its weight is (N p / sum of priorities)^-beta divided by the largest such number of the batch; exactly the drawn transitions get the new priority (|target - value under the weights before the fit| + eps)^alpha; the target network is replaced by the trained one every target_update_frequency fits. A memory that trains only when full never reads a slot that was not written.", "quantifier": "for all environments, networks, training functions, policies, random numbers, exponents, batch sizes, capacities >= 2, budgets, fit schedules, and agents reached by any sequence of learn and evaluate calls", "why_tests_cant": "Prioritised sampling and updating are random and their effect depends on the whole history of priorities; tests compare the weights after one short seeded run.", "anchors": ["mushroom_rl/core/core.py:Core._run", "mushroom_rl/algorithms/value/dqn/abstract_dqn.py:AbstractDQN._fit_prioritized", "mushroom_rl/algorithms/value/dqn/abstract_dqn.py:AbstractDQN.fit", "mushroom_rl/rl_utils/replay_memory.py:PrioritizedReplayMemory", "mushroom_rl/rl_utils/replay_memory.py:SumTree"]}
{"id": "C112", "title": "Training goes on after a call, an epoch, a save or a load", "statement": "Consecutive calls of Core.learn that end with an episode and with nothing left to fit (in particular: epochs of n_episodes with n_episodes_per_fit dividing n_episodes) are one call with the sum of the budgets, with the same events, environment and agent. A loaded agent evaluates exactly as the saved one. A loaded SARSA agent (whose next action is not saved) trains exactly as the saved one. A DQN, DDPG, TD3 or SAC agent loaded from a default save goes on from its weights, target networks and update counters with an empty memory: fits use only transitions collected after the load. A DQN agent with prioritised memory cannot go on: with a full memory the first fit fails, otherwise it reads rows never written or trains on a batch of copies of one transition.", "quantifier": "for all environments, agents, policies, random draws, budgets, fit schedules, memories and histories before the save", "why_tests_cant": "Unit tests of saving compare attributes of the loaded object; none trains a loaded agent further or compares one long run with several short ones.", "anchors": ["mushroom_rl/core/core.py:Core.learn", "mushroom_rl/core/core.py:Core.evaluate", "mushroom_rl/core/serialization.py:Serializable.load_zip", "mushroom_rl/core/agent.py:Agent.__init__", "mushroom_rl/rl_utils/replay_memory.py:ReplayMemory._post_load", "mushroom_rl/rl_utils/replay_memory.py:SumTree._post_load"]}
{"id": "C113", "title": "Tabular learning converges in stochastic environments", "statement": "In a finite environment with random rewards and next states, the optimality equations have exactly one solution, and it is the supremum of the expected discounted returns of all plans (which may react to everything seen). On every run in which each pair is updated with learning rates that add up to infinity and in which the outcomes of each pair have, weighted by the learning rates, the frequencies of the environment, QLearning's table converges to the optimal values, ExpectedSARSA's (fixed policy) to the values of the policy, and greedy actions are optimal from some time on. With the learning rate 1/n (DecayParameter with exponent 1, one counter per pair) it is enough that every pair occurs again and again with the right long-run frequencies of outcomes. Core.learn with QLearning, EpsGreedy and FiniteMDP produces such runs: the trained table converges to the optimal values of the matrices p and rew. With a constant learning rate, enough in deterministic environments, the table need not converge at all.", "quantifier": "for all finite environments, discount factors below one, initial tables, random draws, episode horizons, and all runs with the stated frequencies", "why_tests_cant": "A test runs finitely many steps of one environment with one seed and compares with stored numbers; convergence is about infinite runs and unbounded environments.", "anchors": ["mushroom_rl/algorithms/value/td/q_learning.py:QLearning._update", "mushroom_rl/algorithms/value/td/expected_sarsa.py:ExpectedSARSA._update", "mushroom_rl/environments/finite_mdp.py:FiniteMDP.step", "mushroom_rl/environments/finite_mdp.py:FiniteMDP.reset", "mushroom_rl/rl_utils/parameters.py:DecayParameter._compute", "mushroom_rl/core/core.py:Core.learn"]}
{"id": "C114", "title": "Training with VectorCore keeps the environments apart, and PPO trained by it makes the textbook update at every fit", "statement": "VectorCore.learn, asked to fit every k steps (k a multiple of the number of environments) or every k episodes (environments with a horizon), never fails and returns. Each environment is only reset between its episodes and takes part in every step of an episode of its own, with the action drawn for it. Every fit gets the transitions made since the fit before, environment by environment in the order they were made, the last one of each environment declared to end its episode: exactly k transitions, or exactly k whole episodes with no episode left unfinished in any environment. For k >= 2 every fit of PPO makes the update of C110 on these rows, whose actions were drawn with the weights and preprocessors being updated, and the advantage of a transition only uses transitions of its own environment. A2C does mix the environments: in every fit the target of the last transition of an environment, unless it reached an absorbing state, continues with the target of the first transition of the next environment.", "quantifier": "for all numbers of environments >= 2, environments with any states and dynamics, horizons, policies, critics, optimizer steps, preprocessors, contents of uninitialised mask memory, budgets and fit schedules of the two kinds", "why_tests_cant": "Vectorized runs are only tested for the shapes of their results; which transitions of which environment reach which update depends on the whole history of masks, resets and fits.", "anchors": ["mushroom_rl/core/vectorized_core.py:VectorCore.learn", "mushroom_rl/core/vectorized_core.py:VectorCore._run", "mushroom_rl/core/dataset.py:VectorizedDataset.flatten", "mushroom_rl/algorithms/actor_critic/deep_actor_critic/ppo.py:PPO.fit", "mushroom_rl/algorithms/actor_critic/deep_actor_critic/a2c.py:A2C.fit", "mushroom_rl/rl_utils/value_functions.py:compute_advantage_montecarlo"]}
{"id": "C115", "title": "Every fit of TRPO stays inside its trust region, also when trained by Core and VectorCore", "statement": "A TRPO fit on two or more transitions estimates the advantages as PPO does and then either leaves the weights as they are or moves them along the direction computed by its conjugate gradient routine from the gradient of the objective, by the step whose quadratic divergence is max_kl, halved some number of times: at the new weights the mean KL divergence over the data from the policy that acted is at most 1.5 max_kl and the objective (mean of ratio times normalised advantage, plus entropy bonus) is not smaller than before. Without agent preprocessors this bounds the change of the acting policy at every fit, the objective starts at the bare entropy bonus, and its gradient is the policy gradient. Under Core with a fit every k >= 2 steps or episodes, and under VectorCore, no fit fails and each works on exactly the transitions made since the fit before, drawn from the policy being updated. With agent preprocessors that follow the data the acting policy can leave the trust region even when every step was rejected, and data with equal advantages makes fit raise for policies that check their arguments.", "quantifier": "for all policies, KL divergences, critics, gradients and Hessians given by autograd, preprocessors, environments, schedules of the entropy coefficient, numbers of iterations, budgets and fit schedules", "why_tests_cant": "The seeded tests compare the weights after one short run; the trust region is a property of every fit on every dataset, and the preprocessor case needs data that shift.", "anchors": ["mushroom_rl/algorithms/actor_critic/deep_actor_critic/trpo.py:TRPO.fit", "mushroom_rl/algorithms/actor_critic/deep_actor_critic/trpo.py:TRPO._line_search", "mushroom_rl/algorithms/actor_critic/deep_actor_critic/trpo.py:TRPO._compute_kl", "mushroom_rl/algorithms/actor_critic/deep_actor_critic/trpo.py:TRPO._compute_loss", "mushroom_rl/algorithms/actor_critic/deep_actor_critic/trpo.py:TRPO._fisher_vector_product", "mushroom_rl/core/core.py:Core._run", "mushroom_rl/core/vectorized_core.py:VectorCore._run"]}
{"id": "C116", "title": "ConstrainedREPS stays within its divergence and entropy bounds", "statement": "One ConstrainedREPS update leaves a Gaussian search distribution whose Kullback-Leibler divergence from the old one is at most eps and, when the covariance is learned (diagonal or Cholesky distribution), whose entropy has dropped by at most kappa; the new distribution is again valid (positive deviations, triangular factor with positive diagonal). A bound whose multiplier is not at its lower end is met with equality. Among all distributions of the family within both bounds none has a weighted log-likelihood higher by more than the lower end of the multipliers times the two slacks. The sample weights, normalised, are within eps of the uniform distribution. Refuted: for a full covariance the function handed to the optimiser is unbounded below on the box of the bounds (beyond the sum of the weights plus eta it describes a negative definite covariance), so only local minima can be meant.", "quantifier": "every number of parameters and samples; all returns, sampled parameters, old distributions, bounds, and every local minimum the optimisers may return", "why_tests_cant": "Holds over all reals and all dimensions, and for every point the optimiser may return; a test sees one seed.", "anchors": ["mushroom_rl/algorithms/policy_search/black_box_optimization/constrained_reps.py:37-79", "mushroom_rl/distributions/gaussian.py:58-125", "mushroom_rl/distributions/gaussian.py:190-282", "mushroom_rl/distributions/gaussian.py:350-457"]}
{"id": "C117", "title": "PPO_BPTT compares with the probabilities its recurrent policy really acted with, on windows of one episode", "statement": "Whenever Core.learn trains a PPO_BPTT agent with a recurrent policy, told to fit every k >= 2 steps or episodes, no fit meets a NaN and every fit works on the transitions made since the fit before. For every row of the fit (except rows among the first truncation_length ones that come after an episode end in the data): the sequence given to actor and critic is the row with at most truncation_length - 1 rows of its own episode before it, padded, started from the policy state stored with the first of them; the old log-probability is the log-probability with which the recurrent policy, with the hidden state it had reached, drew the action; the advantage is the generalised advantage up to the end of the episode (or of the data) with critic values on those sequences, for the next state on the next states of the sequence from the next policy state; the critic is fitted on advantage + value; the policy makes one optimizer step per minibatch, and without preprocessors the gradient before the first step is the plain policy gradient through the sequences. For the excepted rows this is false: the sequence joins two episodes and the old log-probability is not that of the action.", "quantifier": "all recurrent networks, critics, environments, preprocessors, optimizers, datasets and learn calls with k >= 2", "why_tests_cant": "Tests build one short dataset and compare network weights with stored numbers; they never compare the replayed hidden states with those of the interaction, and cannot cover all episode layouts, truncation lengths and networks.", "anchors": ["mushroom_rl/algorithms/actor_critic/deep_actor_critic/ppo_bptt.py:73-166", "mushroom_rl/algorithms/actor_critic/deep_actor_critic/ppo_bptt.py:181-225", "mushroom_rl/policy/recurrent_torch_policy.py:17-62", "mushroom_rl/core/core.py:98-180"]}
{"id": "C118", "title": "Core.evaluate(n_episodes=n) reports n independent returns of the policy, and every fit of Core.learn sees fresh on-policy episodes", "statement": "The episodes in the dataset returned by evaluate(n_episodes=n) are n independent draws of the distribution of episodes that the environment and the policy define: any function of them has the expectation it has for independent draws. Hence the mean of dataset.compute_J(gamma) is an unbiased estimate of the policy's expected return (the value function by backward induction, averaged over the initial states), its mean squared error is the variance of the return divided by n, and it converges in probability. Under learn(n_episodes=m*k+q, n_episodes_per_fit=k) the agent goes through exactly m fits, each with k fresh independent episodes of the policy it has at that moment, so the gradient handed to the optimizer by REINFORCE and GPOMDP has over the interaction the expectation stated in C106. With n_steps instead of n_episodes the mean of compute_J is biased.", "quantifier": "all finite environments, policies, initial distributions, horizons, discounts, numbers of episodes, fit functions, and all lengths of random tapes that suffice", "why_tests_cant": "A test sees one seed, or averages a few runs with a tolerance; the claim is about the joint distribution of all random draws of an interaction.", "anchors": ["mushroom_rl/core/core.py", "mushroom_rl/core/_impl/core_logic.py", "mushroom_rl/core/dataset.py", "mushroom_rl/algorithms/policy_search/policy_gradient/reinforce.py"]}
{"id": "C119", "title": "VectorCore with parallel environments has no length bias: evaluate reports independent returns and policy-gradient agents learn as under Core", "statement": "Let VectorCore run n >= 2 environments whose random generators are independent. The N episodes in the dataset returned by evaluate(n_episodes=N) are, as a multiset, N independent draws of the policy's episodes, although episodes have different lengths and environments that finish early start new ones: any quantity that does not depend on the order of the episodes has the expectation it has for independent draws. Hence the mean of dataset.compute_J(gamma) is unbiased, its mean squared error is the variance of the return divided by N and it converges in probability. Under learn(n_episodes=m*k+q, n_episodes_per_fit=k) an agent whose fit does not depend on the order of the episodes goes through m fits, each with k fresh independent episodes of its current policy; so the weights of REINFORCE and GPOMDP, with any optimizer, have after learning the same distribution as under Core with one environment. When the environments share one random stream, as those of MultiprocessEnvironment after seed, the mean squared error is not divided.", "quantifier": "all n >= 2, finite environments, policies, initial distributions, horizons, discounts, numbers of episodes, fit functions, contents of uninitialised mask arrays, and all lengths of random tapes that suffice", "why_tests_cant": "Whether stopping rules of parallel sampling favour short episodes is a statement about a joint distribution; a test sees a few seeds and a tolerance.", "anchors": ["mushroom_rl/core/vectorized_core.py", "mushroom_rl/core/_impl/vectorized_core_logic.py", "mushroom_rl/core/dataset.py", "mushroom_rl/core/multiprocess_environment.py", "mushroom_rl/algorithms/policy_search/policy_gradient/reinforce.py"]}
{"id": "C120", "title": "eNAC takes the natural gradient step of its episodes", "statement": "Every fit of eNAC hands its optimizer the least squares fit (the smallest one if several) of the returns of the fit's episodes by their discounted scores and critic features. With the default critic this direction times the covariance matrix of the scores is the covariance of scores and returns, so it never descends on the estimated objective; when the episodes determine it, it moves the policy the same way whatever invertible parametrisation the policy uses; it recovers a compatible advantage function exactly in a deterministic environment; and on episodes in proportion to their probabilities without discount the Fisher information times the direction is the gradient of the expected return.", "quantifier": "for all environments, policies, optimizers, critic features, discount factors, numbers of weights and of episodes, all executions of Core.learn with at least two episodes per fit; the population statement for all finite stochastic environments and differentiable policies", "why_tests_cant": "Tests compare weights after one fit with stored numbers; that a direction is a least squares optimum, independent of the parametrisation and equal to the natural gradient are statements about all datasets and about derivatives", "anchors": ["mushroom_rl/algorithms/policy_search/policy_gradient/enac.py", "mushroom_rl/algorithms/policy_search/policy_gradient/policy_gradient.py"]}
{"id": "C121", "title": "FQI with one linear model per action is value iteration on the data when the features are a table", "statement": "FQI.fit with LinearApproximator models, one per action, and features that are the indicators of a partition of the states (a table, or a single tiling): each regression sets the weight of every (part, action) pair to the mean of its targets, to 0 if the action has samples but none in that part, and leaves the weights of an action without samples alone. The Bellman optimality equation of the empirical decision process so defined has exactly one solution, it is bounded by the reward bound over 1 - gamma, and after n iterations the predicted action values differ from it by at most gamma^n times twice that bound, whatever the weights and the target left by earlier calls. If the data represent a decision process up to e, the values are within e / (1 - gamma) of its optimal ones, and greedy actions lose at most twice that. With other linear features this fails: with two states described by the numbers 1 and 2 and gamma > 5/6 the predictions exceed every bound.", "quantifier": "every partition, dataset, number of actions, discount in [0, 1), initial weights, earlier target, number of iterations, and every pseudo-inverse satisfying the Penrose equations", "why_tests_cant": "a test fits a few iterations on one dataset; that all iterations contract to the solution of the empirical equation, and that other features make them diverge, is a statement about all datasets and all iteration counts", "anchors": ["mushroom_rl/algorithms/value/batch_td/fqi.py:34-49", "mushroom_rl/approximators/_implementations/action_regressor.py:39-86", "mushroom_rl/approximators/parametric/linear.py:43-75"]}
{"id": "C122", "title": "LSPI on a table ends, and with the optimal values of the data", "statement": "LSPI.fit with features that are the indicators of a partition of the states, on data in which every action was tried in every part: the linear system of each pass is regular, its solution is the exact value table of the policy that is greedy for the weights before, from the second pass on the values never decrease, and after k passes they are below the optimal ones by at most gamma^(k-1) times twice the value bound. With any positive epsilon the while loop ends from every initial weight vector, and the values returned are within 2 gamma epsilon / (1 - gamma) of the optimal values of the empirical decision process, greedy actions losing at most twice that. Without absorbing samples these are the values FQI approaches. Absorbing samples are continued with action 0. If an action was never tried this fails: LSPI can give it a positive value, and prefer it, although every reward in the data is negative.", "quantifier": "every partition, covering dataset, number of actions, discount in [0, 1), threshold, initial weights; every solver of regular systems and, for the failure, every pseudo-inverse", "why_tests_cant": "a test sees the loop end on one dataset; that it ends for all datasets and initial weights, and how far the result is from optimal, cannot be observed", "anchors": ["mushroom_rl/algorithms/value/batch_td/lspi.py:30-58", "mushroom_rl/features/features.py:56-94", "mushroom_rl/approximators/parametric/linear.py:58-75"]}
{"id": "C123", "title": "BoostedFQI with linear models computes what FQI computes; DoubleFQI never overestimates beyond the data but need not converge", "statement": "BoostedFQI with LinearApproximator models (one per action and iteration, started at zero, any features): after n iterations the sum of the models predicts, for every state and action, exactly what the single model trained by n iterations of FQI on the same dataset predicts; with features that indicate the parts of a partition it is therefore value iteration on the data, with error at most gamma^n times twice the value bound. With the default prediction='mean' of the ensemble the ranking of actions is the same, but the predicted values are at most 3K/n and vanish. DoubleFQI on a partition: if both halves of the dataset represent a decision process up to e, neither model exceeds its optimal values by more than e/(1-gamma) in the limit; for gamma < 1/2 both are within e/((1-gamma)(1-2 gamma)) in the limit; when the samples of every (part, action) pair agree (deterministic environments) both converge to the optimal values for every gamma < 1; when the second half repeats the first it is FQI on that half. For every gamma > 0 there is a dataset of eight samples, possible in one stochastic environment, on which the predicted values jump for ever and the greedy action changes at every iteration.", "quantifier": "every feature map, dataset, reward, number of iterations and discount factor, initial weights (DoubleFQI), number of parts and actions", "why_tests_cant": "equality of two training procedures for every dataset and limits in the number of iterations; tests compare one run on one dataset with stored numbers", "anchors": ["mushroom_rl/algorithms/value/batch_td/boosted_fqi.py", "mushroom_rl/algorithms/value/batch_td/double_fqi.py", "mushroom_rl/approximators/ensemble.py", "mushroom_rl/approximators/parametric/linear.py"]}
{"id": "C124", "title": "Rainbow under Core stores exactly the n-step windows of each fit, trains on their n-step distributional targets, and never learns when fits are shorter than the return", "statement": "For every network, environment, schedule and random draw: after a Core.learn call a Rainbow agent's prioritised memory holds the last max_size of the windows of n_steps_return consecutive steps of the separate fit datasets, in order; each stored row has the window's first state and action, the exact discounted sum of its rewards, and the state and absorbing flag of its last step, and no window crosses an episode end or a fit boundary. Each training fit draws rows of that memory, and its target for a row is the projection on the atoms of the target network's distribution for the online network's greedy action, moved by the window's return and shrunk by gamma ** n (put at the return when absorbing), with the normalised importance weights; the priorities of the drawn rows become (|cross entropy| + eps) ** alpha and the others stay; _n_updates counts training fits only, and the target network is copied when it is a multiple of the frequency. The number of windows of a fit is the sum over its episodes (and the unfinished piece) of max(0, length - n + 1). Refuted: that the agent learns whenever Core.learn is called - with n_steps_per_fit < n_steps_return nothing is ever stored and the weights never change, and with longer fits the n - 1 windows across each fit boundary (and at the end of each episode) are lost.", "quantifier": "all networks, environments, horizons, schedules, memory sizes, draws, atoms and numbers of steps", "why_tests_cant": "A test runs one schedule and compares weights; it does not notice that windows are dropped at each fit boundary or that a fit frequency below the return length silently disables learning.", "anchors": ["mushroom_rl/algorithms/value/dqn/rainbow.py:122-166", "mushroom_rl/rl_utils/replay_memory.py:301-365", "mushroom_rl/rl_utils/replay_memory.py:469-599", "mushroom_rl/core/core.py:140-180"]}
{"id": "C125", "title": "What replay agents learn from under VectorCore", "statement": "When DDPG, TD3, SAC, DQN or Rainbow agents are trained by VectorCore.learn (a fit every multiple of the number of environments of steps, or every k episodes), no fit raises and every fit adds to the replay memory each transition made since the fit before exactly once; the memory holds the last max_size of them and the batch is drawn from those. With n-step returns a stored window consists of consecutive transitions of one environment, inside one episode and between two fits, never of several environments. False: that a fit every k >= n_steps_return steps lets Rainbow learn; with n environments each contributes k / n steps to a fit, and if that is less than n_steps_return nothing is ever stored and the weights never change.", "quantifier": "for all networks, learners, batched policies, environments with states of their own, numbers of environments, horizons, memory sizes, random draws, schedules covered and sequences of learn calls", "why_tests_cant": "The windows stored depend on how the masks, the flattening order and the end-of-episode flags interact over whole runs; a test sees a few runs with one network, and that nothing is learnt shows only as bad performance.", "anchors": ["mushroom_rl/core/vectorized_core.py", "mushroom_rl/core/dataset.py", "mushroom_rl/rl_utils/replay_memory.py", "mushroom_rl/algorithms/value/dqn/rainbow.py", "mushroom_rl/algorithms/actor_critic/deep_actor_critic/ddpg.py", "mushroom_rl/algorithms/actor_critic/deep_actor_critic/sac.py"]}
{"id": "C126", "title": "Black-box optimisation under VectorCore: which parameters belong to which episode, and why no such training starts", "statement": "A contextual black-box agent (RWR, REPS, PGPE, MORE, ePPO and the others) trained by VectorCore.learn with a fit every k episodes, the episode information being a mapping as the agent's interface says: the call returns and raises nothing; every fit gets k whole episodes and a list of k parameters in the same order; the parameters of each episode were drawn from the distribution current since the fit before, in the context of the first state of that very episode, and every action of the episode is the policy's with these parameters, whatever the other environments do meanwhile. But with the episode information in a list, as reset_all of every vectorised environment of the library returns it, or with the default context builder, an exception is raised before the first transition is made, for every environment, policy and schedule; and a contextual agent set to deterministic raises whenever some but not all environments start an episode.", "quantifier": "all environments, numbers of environments, horizons, distributions, policies, random draws, update rules, schedules by episodes (and, for the failure, by steps), numbers of steps or episodes", "why_tests_cant": "Which parameters were in force in which environment during which episode is internal to a run with interleaved episodes of different lengths; the unit tests train black-box agents with Core only, never with VectorCore.", "anchors": ["mushroom_rl/algorithms/policy_search/black_box_optimization/black_box_optimization.py:58-100", "mushroom_rl/core/vectorized_core.py:100-131", "mushroom_rl/core/vectorized_core.py:177-202", "mushroom_rl/core/dataset.py:557-560", "mushroom_rl/core/dataset.py:634-645", "mushroom_rl/core/multiprocess_environment.py:95-111"]}
{"id": "C127", "title": "What Double Q-learning learns on deterministic environments", "statement": "On a finite environment with deterministic transitions and rewards, gamma < 1, learning rates in [0, 1], for every order in which DoubleQLearning sees the transitions, every sequence of its coin flips and every choice among equal maximisers, as long as the rates used for each state-action pair add up to infinity in each of the two tables: (1) no entry of either table ends up above its optimal value; (2) for gamma < 1/2 both tables converge to the optimal values and from some update on every greedy action of either table is optimal; (3) for every gamma < 1, if the tables converge, their common limit is the table of optimal values; (4) for every gamma < 1 there is a distance, depending only on the optimal values, such that the tables converge to the optimal values once all their entries are that close; (5) for every gamma < 1 the tables converge to the optimal values when every entry of both is updated once per sweep, in any order, with a rate that depends on the number of the sweep, vanishes and has an infinite sum; (6) for larger gamma the conditions of (1), which suffice for Q-learning, do not suffice: with gamma = 0.9, one state and rewards 1 and 0, tables that start at zero and have every entry updated again and again with rate 1 can stay 6 below the optimal values for ever.", "quantifier": "all finite deterministic environments, all start tables, all sequences of samples, coin flips, tie breaks and learning rates that satisfy the divergence condition, all times", "why_tests_cant": "A test runs a fixed seed for a fixed number of steps; limits along every infinite order of updates, and an infinite order along which learning never succeeds, are outside what a finite run can show.", "anchors": ["mushroom_rl/algorithms/value/td/double_q_learning.py:28-45", "mushroom_rl/algorithms/value/td/double_q_learning.py:17-26", "mushroom_rl/approximators/ensemble_table.py"]}
{"id": "C128", "title": "RQ-learning converges on deterministic environments", "statement": "On a finite environment with deterministic transitions and rewards and gamma < 1, RQLearning with off_policy=True converges to the optimal action values, and from some update on every greedy action is optimal, for every order in which it sees the transitions, every choice of the two rates alpha and beta (or alpha * delta) in [0, 1] - no relation between them is needed - as long as the alpha rates used for each pair add up to infinity and so do the beta rates of each pair that does not end the episode. The start values of Q and R_tilde do not matter; those of Q_tilde must be zero, as the constructor leaves them, for pairs that end the episode, since these are never updated.", "quantifier": "all finite deterministic environments, all gamma < 1, all sequences of samples and of both rates satisfying the divergence conditions", "why_tests_cant": "Convergence is a statement about infinite runs and every order of updates; a test runs one seed for a few steps.", "anchors": ["mushroom_rl/algorithms/value/td/rq_learning.py:51-83", "mushroom_rl/algorithms/value/td/rq_learning.py:17-49"]}
{"id": "C129", "title": "SARSA and Expected SARSA on deterministic environments", "statement": "On a finite environment with deterministic transitions and rewards, gamma < 1, learning rates in [0, 1] whose sum is infinite for each pair: (1) whatever actions SARSA draws for the next state, no entry of its table ends up above the optimal value; (2) ExpectedSARSA with an EpsGreedy policy whose epsilon vanishes, and with a Boltzmann policy whose beta grows without bound, converges to the optimal action values and from some update on every greedy action is optimal; (3) SARSA converges to the optimal values when its next actions are greedy from some time on; (4) vanishing exploration is needed: with a fixed epsilon = 1/2 there is an environment in which every pair is updated for ever with a constant rate and ExpectedSARSA rests at values that are not optimal.", "quantifier": "all finite deterministic environments, all start tables, all sequences of samples, rates, drawn actions, epsilons and betas satisfying the conditions", "why_tests_cant": "The claim is about limits of infinite runs under every order of updates and every exploration schedule; tests run a few steps with fixed parameters.", "anchors": ["mushroom_rl/algorithms/value/td/sarsa.py:14-22", "mushroom_rl/algorithms/value/td/expected_sarsa.py:14-26", "mushroom_rl/policy/td_policy.py"]}
{"id": "C130", "title": "Q(lambda) with traces does not inherit the convergence of Q-learning", "statement": "On a finite environment with deterministic transitions and rewards, gamma < 1 and learning rates in [0, 1] that add up to infinity for each pair, with episodes that follow the environment and traces reset at each episode start: (1) QLambda with lambda = 0 converges to the optimal values and its greedy actions are eventually optimal, for both kinds of trace and every order of samples; (2) with lambda > 0 and the default replacing traces this fails: with gamma = 0.9, lambda = 1, one decision state and four actions there is an infinite sequence of episodes, starting from the table of zeros, in which every action is taken again and again with a learning rate of at least 1/2, and the value of one action is 17 again and again while its optimal value is 18. The traces are not cut after exploratory actions, so the errors of the explored actions are passed around instead of vanishing.", "quantifier": "all finite deterministic environments, both trace kinds, all sequences of samples and rates for (1); an explicit infinite run for (2)", "why_tests_cant": "Convergence and its failure are statements about infinite runs; a test that runs a few updates sees only numbers moving.", "anchors": ["mushroom_rl/algorithms/value/td/q_lambda.py:36-50", "mushroom_rl/utils/eligibility_trace.py:26-52"]}
{"id": "C131", "title": "Weighted Q-learning never ends up above the optimal values", "statement": "On a finite environment with deterministic transitions and rewards, gamma < 1, learning rates in [0, 1] whose sum is infinite for each pair: whatever normal samples WeightedQLearning draws for its weights and whatever their number, no entry of its table ends up above the optimal value; and if from some time on the samples of each next state are largest only at maximisers of the table, the table converges to the optimal values.", "quantifier": "all finite deterministic environments, all sequences of samples, rates and sampled maximisers, any precision", "why_tests_cant": "Limits of infinite runs under every outcome of the random weights; tests fix one seed.", "anchors": ["mushroom_rl/algorithms/value/td/weighted_q_learning.py:47-100"]}
{"id": "C132", "title": "Black-box optimisation trained by Core updates on whole fresh episodes; PGPE with one episode per fit never learns", "statement": "A black-box optimisation agent (REPS, RWR, PGPE, MORE, ...) trained by Core.learn with n_episodes_per_fit = k is fitted each time on exactly k whole episodes begun after the fit before. The policy parameters of all of them come from the distribution as that fit left it, which is also the distribution being updated, and the update receives for each episode its discounted return and the parameters it was run with. For PGPE the optimizer is called once per fit with the mean of score times (return - baseline). With n_episodes_per_fit = 1 the baseline equals the return, so no call of learn, however long, changes the distribution, and no error is raised. RWR and REPS with a diagonal Gaussian turn the standard deviation into NaN at every fit on a single episode, and never with two or more.", "quantifier": "all environments, policies, distributions, context builders, preprocessors, update rules, horizons, schedules, generators, k >= 1; for PGPE all score functions and the three optimizers of the library", "why_tests_cant": "a test runs a few fits of a given setting and cannot establish that no fit ever mixes episodes of two distributions, nor that one episode per fit is without effect for every environment and run length", "anchors": ["mushroom_rl/algorithms/policy_search/black_box_optimization/black_box_optimization.py:41-98", "mushroom_rl/algorithms/policy_search/black_box_optimization/pgpe.py:27-60", "mushroom_rl/core/core.py:98-133", "mushroom_rl/rl_utils/optimizers.py:70-171", "mushroom_rl/algorithms/policy_search/black_box_optimization/rwr.py:31-36", "mushroom_rl/algorithms/policy_search/black_box_optimization/reps.py:34-48", "mushroom_rl/distributions/gaussian.py:176-188"]}
{"id": "C133", "title": "Policy states and parameter lists of a dataset through views, sums, from_array and flatten", "statement": "Whatever a program does with datasets collected by Core, sums (+) and views (dataset[index]) without negative indexes: if the result has policy states, the i-th one is that of its i-th transition; it has them exactly if the first dataset it was made from had them and was not made by from_array or VectorizedDataset.flatten; it has a list of policy parameters exactly if it is not a view. On a full dataset any index keeps them aligned. On a dataset that is not full, dataset[-m:] returns the last m transitions with policy states from places that were never written. The policy states given to from_array, and so those of a flattened vectorized dataset, are lost: PPO_BPTT.fit raises under VectorCore, while under Core it reads each transition with its own policy state. Adding a view to any dataset raises.", "quantifier": "all rows, policy states, capacities, parameter lists, indexes (slices with step 1, integer arrays), all expressions of collected datasets, arrays, flattened datasets, views and sums", "why_tests_cant": "the programs that combine datasets are unbounded in number and the fault needs a dataset that is not full and a negative index", "anchors": ["mushroom_rl/core/dataset.py:130-282", "mushroom_rl/core/dataset.py:590-640", "mushroom_rl/core/_impl/numpy_dataset.py:73-219", "mushroom_rl/core/_impl/torch_dataset.py:75-219", "mushroom_rl/algorithms/actor_critic/deep_actor_critic/ppo_bptt.py:73-81"]}
{"id": "C134", "title": "EpsGreedy on predictions with one row per state", "statement": "EpsGreedy.draw_action returns a greedy action only if the approximator predicts a one-dimensional array. On a prediction with one row per state (a batch, or a network that keeps the batch dimension) it returns a single number whatever the number of states; without exploration this is the row number or the column number of a largest entry of the whole matrix, and each of them can come out, so it may be an action that does not exist. For one state with a unique best action a, predicted as a 1 x n matrix, the draw is uniform over [0, a]: the action is 0 half of the times, where the one-dimensional prediction gives a. A step of MultiprocessEnvironment with this policy always raises.", "quantifier": "all matrices of values, numbers of states and actions, epsilon, draws, masks", "why_tests_cant": "the wrong action looks like exploration: it is legal in the one-state case and only its frequency is wrong", "anchors": ["mushroom_rl/policy/td_policy.py:82-93", "mushroom_rl/core/vectorized_core.py:140-176", "mushroom_rl/core/multiprocess_environment.py:113-116", "examples/atari_dqn.py:54-62", "mushroom_rl/approximators/_implementations/q_regressor.py:43-70"]}
{"id": "C135", "title": "TD3's smoothing noise follows its schedules and is cut symmetrically, unless one Parameter object serves both", "statement": "With noise_std and noise_clip given as numbers, LinearParameter or DecayParameter objects, the k-th fit of TD3 that learns adds to the target actions the standard normal draws times the k-th value of noise_std, cut at plus and minus the k-th value of noise_clip; fits that only fill the replay memory advance neither schedule, and negating all draws negates all noise. If the same Parameter object is passed for both, every learning fit takes two steps of it: the deviation is that of step 2k-1 and the bound that of step 2k, so a parameter that falls to zero over n steps stops the smoothing after n/2 fits.", "quantifier": "all schedules with non-negative clip values, all sequences of fits with and without an initialized memory, all draws", "why_tests_cant": "The bounds are read by two different accessors, one of which counts a visit; whether they agree for every schedule at every step, and what sharing does, shows only over whole runs with scheduled parameters, which the tests of TD3 never use.", "anchors": ["mushroom_rl/algorithms/actor_critic/deep_actor_critic/td3.py:46-47", "mushroom_rl/algorithms/actor_critic/deep_actor_critic/td3.py:86-87", "mushroom_rl/rl_utils/parameters.py:7-11", "mushroom_rl/rl_utils/parameters.py:45-99"]}
{"id": "C136", "title": "The schedule of PPO's clipping range moves with the minibatches, and the range is symmetric around one", "statement": "With eps_ppo a number, a LinearParameter or a DecayParameter, PPO, PPO_BPTT and ePPO clip the probability ratio in every minibatch to [1-c, 1+c] with the same c on both sides; c is the value of the schedule at the number of minibatches gone through since the agent was built (over all fits and epochs), this one included. A LinearParameter over n steps is therefore at its final value in every fit f (from 0) with n <= f * epochs * minibatches per epoch.", "quantifier": "all schedules, numbers of epochs, batch sizes and sequences of dataset sizes", "why_tests_cant": "The two bounds are read by two accessors of which one advances the schedule, inside two nested loops per fit; where the schedule stands at a given minibatch of a given fit shows only over whole runs, and the tests pass a constant.", "anchors": ["mushroom_rl/algorithms/actor_critic/deep_actor_critic/ppo.py:96-103", "mushroom_rl/algorithms/actor_critic/deep_actor_critic/ppo_bptt.py:153-162", "mushroom_rl/algorithms/policy_search/black_box_optimization/eppo.py:56-65", "mushroom_rl/utils/minibatches.py:4-43"]}
{"id": "C137", "title": "The line search of TRPO does not compare candidates under one objective when ent_coeff is scheduled", "statement": "Every evaluation of TRPO's loss in a fit reads the next value of the entropy coefficient, so the old weights and the candidates of the line search are measured with different coefficients. For a policy of constant positive entropy H and a LinearParameter from v to th over n steps: if it falls, every candidate that gains less than (v - th)/n * H is rejected although it improves the objective for any fixed coefficient and lies in the trust region; if it grows, a full step that loses no more than (th - v)/n * H is accepted although it is worse. With the coefficient fixed at the first value read the same fit takes, respectively refuses, the step.", "quantifier": "all policies of constant entropy, datasets, gradients, Fisher matrices, schedules and positions in the schedule", "why_tests_cant": "The tests of TRPO use a constant coefficient, for which the two objectives coincide; the interaction needs a scheduled parameter and a statement about all candidates of the search.", "anchors": ["mushroom_rl/algorithms/actor_critic/deep_actor_critic/trpo.py:100-114", "mushroom_rl/algorithms/actor_critic/deep_actor_critic/trpo.py:153-190", "mushroom_rl/rl_utils/parameters.py:45-99"]}
{"id": "C138", "title": "ConstrainedREPS takes two steps of a scheduled eps per update, and its two bounds differ", "statement": "Over any run of updates with a Gaussian of fixed covariance, update k (from 0) keeps the episode weights within the value of the eps schedule at step 2k+1 of the uniform distribution, and the new mean within its value at step 2k+2 of the old mean (KL divergence). A LinearParameter over n steps is therefore at its final value for every update k with n <= 2k+1, half as many updates as it has steps.", "quantifier": "all schedules, runs of updates, returns and parameters; minimisers under the contract that they return a local minimum", "why_tests_cant": "The bound is read by two calls in one update, and each of them advances the schedule; that shows only over runs of updates with a scheduled eps, and the tests pass a number.", "anchors": ["mushroom_rl/algorithms/policy_search/black_box_optimization/constrained_reps.py:37-51", "mushroom_rl/rl_utils/parameters.py:45-99"]}

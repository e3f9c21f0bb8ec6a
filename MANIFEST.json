{
 "claims": [
  {
   "property": "C01",
   "status": "proved",
   "theorems": [
    "core_learn_steps_schedule"
   ],
   "note": "N steps, N/k fits of exactly k samples, for any world and prior logic state"
  },
  {
   "property": "C02",
   "status": "proved",
   "theorems": [
    "core_learn_fits_partition_samples"
   ],
   "note": "all budget/schedule combinations; includes bound on unfitted rest"
  },
  {
   "property": "C03",
   "status": "proved",
   "theorems": [
    "core_learn_episode_schedule",
    "core_learn_episode_budget_exact",
    "core_learn_step_budget_episode_fits"
   ],
   "note": "finite horizon; terminates within h*N iterations; thetas aligned for episodic agents"
  },
  {
   "property": "C04",
   "status": "proved",
   "theorems": [
    "core_evaluate_steps",
    "core_evaluate_episodes",
    "core_evaluate_initial_states"
   ],
   "note": "any prior logic state (also after learn)"
  },
  {
   "property": "C05",
   "status": "proved",
   "theorems": [
    "core_learn_is_execution",
    "core_evaluate_is_execution"
   ],
   "note": "event log is an execution of the transition system in CoreSpec.v"
  },
  {
   "property": "C06",
   "status": "proved",
   "theorems": [
    "core_learn_never_overflows",
    "core_evaluate_never_overflows"
   ],
   "note": "any fuel, valid arguments"
  },
  {
   "property": "C07",
   "status": "proved",
   "theorems": [
    "vec_learn_episodes",
    "vec_evaluate_episodes_partial"
   ],
   "note": "learn: all schedules; evaluate: fresh core (n_episodes_per_fit None), see C08"
  },
  {
   "property": "C08",
   "status": "partial",
   "theorems": [
    "vec_evaluate_episodes_partial",
    "vec_evaluate_after_learn_refuted"
   ],
   "note": "fails on the code: initialize_evaluate keeps _n_episodes_per_fit of an earlier learn, so evaluate never ends; proved for a core without stale schedule"
  },
  {
   "property": "C09",
   "status": "proved",
   "theorems": [
    "vec_learn_step_budget"
   ],
   "note": ""
  },
  {
   "property": "C10",
   "status": "partial",
   "theorems": [
    "vec_fit_data_exact_partial",
    "vec_learn_episode_schedule_no_overflow",
    "vec_buffer_overflow_refuted",
    "vec_fit_samples_duplicated_refuted"
   ],
   "note": "holds when n_envs divides n_steps_per_fit, and for episode schedules the buffer never overflows; refuted otherwise"
  },
  {
   "property": "C11",
   "status": "partial",
   "theorems": [
    "dataset_compute_J",
    "dataset_episodes_partition",
    "dataset_episodes_length",
    "dataset_n_episodes_partial",
    "dataset_n_episodes_empty_refuted",
    "dataset_init_states",
    "dataset_select_first_episodes",
    "dataset_compute_metrics"
   ],
   "note": "everything holds except that n_episodes raises on an empty dataset"
  },
  {
   "property": "C12",
   "status": "partial",
   "theorems": [
    "dataset_refines_list_partial",
    "dataset_append_full_raises",
    "dataset_getitem_partial",
    "dataset_iteration",
    "dataset_negative_index_refuted",
    "dataset_negative_index_empty_refuted",
    "dataset_negative_slice_refuted",
    "dataset_add_empty_left_refuted",
    "list_dataset_refines_partial",
    "list_dataset_add_refuted",
    "list_dataset_policy_state_refuted"
   ],
   "note": "fails for negative indices on partly filled buffers, for an empty left operand, and ListDataset concatenation always raises; holds otherwise"
  },
  {
   "property": "C13",
   "status": "proved",
   "theorems": [
    "replay_is_bounded_fifo",
    "replay_get_returns_held"
   ],
   "note": ""
  },
  {
   "property": "C14",
   "status": "proved",
   "theorems": [
    "replay_add_nstep",
    "replay_nstep_meaning",
    "replay_one_step_is_identity"
   ],
   "note": ""
  },
  {
   "property": "C15",
   "status": "partial",
   "theorems": [
    "replay_add_keeps_caller_rewards_partial",
    "replay_add_keeps_caller_rewards_refuted"
   ],
   "note": "holds for n_steps_return = 1 / absorbing data; the code mutates the caller's dataset otherwise (refuted with witness)"
  },
  {
   "property": "C16",
   "status": "partial",
   "theorems": [
    "sequence_window",
    "sequence_history_partial",
    "sequence_wrapped_partial",
    "sequence_wrap_refuted",
    "sequence_arrays",
    "sequence_batch"
   ],
   "note": "The window returned for a drawn row is contiguous in the buffer, inside one episode and maximal; it is contiguous in time while the memory has not wrapped or the window does not contain the write position. Across the write position it mixes newest and oldest rows (refuted). The padded arrays, lengths, reward and flags of every drawn index are proved."
  },
  {
   "property": "C17",
   "status": "proved",
   "theorems": [
    "sumtree_nodes_are_sums",
    "sumtree_update_one_leaf",
    "sumtree_leaf_of_row",
    "sumtree_add_stores_like_replay",
    "sumtree_single_leaf_refuted"
   ],
   "note": "For max_size >= 2. With max_size = 1 every update recurses forever (refuted)."
  },
  {
   "property": "C18",
   "status": "partial",
   "theorems": [
    "sumtree_order_complete",
    "sumtree_retrieve_mass_partial",
    "sumtree_retrieve_is_leaf",
    "sumtree_priorities_mark_rows",
    "sumtree_get_returns_stored_partial",
    "sumtree_get_unwritten_refuted",
    "sumtree_mass_with_ties_refuted",
    "sumtree_proportional_with_ties_refuted",
    "sumtree_proportional_partial"
   ],
   "note": "Proportional only when no two siblings have equal mass; with equal siblings an unwritten slot or a wrong leaf can be returned (refuted)."
  },
  {
   "property": "C19",
   "status": "proved",
   "theorems": [
    "per_weights_normalised",
    "per_weights_antitone",
    "per_priority_positive",
    "per_max_priority"
   ],
   "note": "Powers with real exponents are Rpower; priorities in the batch are positive."
  },
  {
   "property": "C20",
   "status": "partial",
   "theorems": [
    "serial_roundtrip",
    "serial_full_roundtrip_partial",
    "serial_save_total",
    "serial_marked_nested_refuted"
   ],
   "note": "Exact description of what save/load gives back for every object tree; full round trip for trees without nested objects registered as 'mushroom!', which are lost (refuted). File formats other than the config pickle are an arbitrary function."
  },
  {
   "property": "C21",
   "status": "partial",
   "theorems": [
    "replay_light_save",
    "replay_full_save_refuted",
    "sumtree_save_refuted"
   ],
   "note": "ReplayMemory saved without data comes back empty (proved). A full save loses the rows but keeps the counters, and SumTree does so in both modes (refuted)."
  },
  {
   "property": "C22",
   "status": "proved",
   "theorems": [
    "linear_parameter_schedule",
    "line_shape",
    "decay_parameter_schedule",
    "decay_antitone",
    "constant_parameter",
    "parameter_counts_visits"
   ],
   "note": "Indices that select a whole row of the table are not modelled."
  },
  {
   "property": "C23",
   "status": "partial",
   "theorems": [
    "variance_parameter_statistics_partial",
    "variance_parameter_range",
    "variance_parameter_size_refuted",
    "windowed_variance_refuted"
   ],
   "note": "The statistics are right for a single entry, but the size argument becomes the clipping maximum and the windowed variant fails at its second update (refuted)."
  },
  {
   "property": "C24",
   "status": "proved",
   "theorems": [
    "eps_greedy_distribution",
    "eps_greedy_sampler",
    "boltzmann_distribution",
    "boltzmann_monotone",
    "mellowmax_between",
    "mellowmax_expected_value",
    "boltzmann_query_not_pure_refuted"
   ],
   "note": "Probabilities and samplers of eps-greedy, Boltzmann and Mellowmax. boltzmann_query_not_pure_refuted: evaluating Boltzmann.__call__ advances the temperature schedule."
  },
  {
   "property": "C25",
   "status": "proved",
   "theorems": [
    "q_learning_update",
    "sarsa_update_spec",
    "expected_sarsa_update_spec",
    "double_q_update",
    "maxmin_q_update",
    "speedy_q_update",
    "r_learning_update",
    "td_absorbing_no_bootstrap"
   ],
   "note": "Exact effect of each update, for every table and sample."
  },
  {
   "property": "C26",
   "status": "proved",
   "theorems": [
    "td_values_bounded",
    "double_q_values_bounded",
    "maxmin_q_values_bounded",
    "rq_values_bounded"
   ],
   "note": "Also for weighted, maxmin and RQ-learning, for any interleaving of the single-table algorithms."
  },
  {
   "property": "C27",
   "status": "proved",
   "theorems": [
    "traces_closed_form",
    "traces_bounded",
    "lambda_update_effect",
    "lambda_zero_is_one_step",
    "sarsa_on_policy",
    "q_lambda_traces_cut_refuted"
   ],
   "note": "Closed form of both traces. q_lambda_traces_cut_refuted: QLambda does not cut traces after exploratory actions."
  },
  {
   "property": "C28",
   "status": "proved",
   "theorems": [
    "gae_is_discounted_td_errors",
    "gae_episode_local",
    "gae_lambda_zero",
    "gae_lambda_one"
   ],
   "note": "For data in which an absorbing step is the last of its episode (guaranteed by the Core, see C01)."
  },
  {
   "property": "C29",
   "status": "partial",
   "theorems": [
    "mc_advantage_partial",
    "mc_advantage_boundary_refuted"
   ],
   "note": "Holds when every episode but the last is absorbing; refuted otherwise: the last flags are ignored and returns leak across episodes. A one-step dataset raises (len of a 0-d tensor)."
  },
  {
   "property": "C30",
   "status": "partial",
   "theorems": [
    "running_mean_exact",
    "running_variance_exact_partial",
    "running_variance_batch_refuted",
    "standardization_well_defined",
    "exp_average_closed_form",
    "exp_average_range",
    "window_average"
   ],
   "note": "Mean exact for every split (with the prior sample 0 and while alpha_min is inactive); variance exact only when fed one sample at a time; with batches the variance within the batch is lost (refuted with witness)."
  },
  {
   "property": "C31",
   "status": "proved",
   "theorems": [
    "minibatches_partition"
   ],
   "note": "Rows yielded exactly once, batch sizes, alignment across arrays."
  },
  {
   "property": "C32",
   "status": "proved",
   "theorems": [
    "angle_positive_canonical",
    "angle_canonical",
    "angular_distance_shortest"
   ],
   "note": "Real-number angles (2*pi exact)."
  },
  {
   "property": "C33",
   "status": "partial",
   "theorems": [
    "tile_index_range",
    "tile_same_index",
    "tile_index_onto",
    "generated_tilings_cover_partial",
    "generated_tilings_high_refuted",
    "generated_tilings_displaced"
   ],
   "note": "Index range, injectivity and surjectivity proved for the half-open box; Tiles.generate covers [low,high) but the first tiling gives no index at the upper bound, which is a valid observation (refuted)."
  },
  {
   "property": "C34",
   "status": "proved",
   "theorems": [
    "polynomial_exponents_complete",
    "polynomial_basis_value",
    "fourier_coefficients_complete",
    "grid_rows_complete",
    "grid_centers_uniform"
   ],
   "note": "Enumerations complete and without repetition for every order, dimension and number of centers."
  },
  {
   "property": "C35",
   "status": "partial",
   "theorems": [
    "chain_stochastic",
    "chain_reward",
    "parse_grid_cells_partial",
    "parse_grid_last_row_refuted",
    "grid_stochastic",
    "grid_reward",
    "grid_initial_distribution",
    "taxi_moves",
    "taxi_stochastic",
    "taxi_no_waiting",
    "taxi_reward",
    "taxi_slip_reward_refuted",
    "read_grid_start_goal",
    "read_grid_rejects"
   ],
   "note": "Chain and grid rows are distributions, rewards exactly on the transitions into goals/holes. Map parsing is right only for files that end with a newline (parse_grid_last_row_refuted); the taxi pays the passenger reward only when the chosen action points into the goal, not when it slips into it (taxi_slip_reward_refuted). Files without S or G are rejected; an accepted file ending with a newline has a start and a goal cell."
  },
  {
   "property": "C36",
   "status": "partial",
   "theorems": [
    "finite_mdp_step",
    "finite_mdp_run",
    "grid_world_wf",
    "grid_world_step",
    "grid_world_van_hasselt_step",
    "grid_render_start_refuted"
   ],
   "note": "Steps and runs stay in the state space, never raise before an absorbing state, absorbing flags exact. Rendering draws the start cell at the wrong place unless it is the origin (grid_render_start_refuted)."
  },
  {
   "property": "C37",
   "status": "partial",
   "theorems": [
    "optimal_value_well_defined",
    "value_iteration_terminates",
    "value_iteration_accuracy",
    "exact_solver_exists",
    "policy_iteration_terminates",
    "policy_iteration_near_optimal_partial",
    "policy_iteration_optimal_without_ties",
    "policy_iteration_exact_refuted"
   ],
   "note": "value_iteration terminates within gamma*eps/(1-gamma) of the supremum of discounted returns. policy_iteration terminates with the exact value of its policy, optimal up to the tolerance of np.isclose (exactly optimal when no improvement is that small); exact optimality in general is refuted. np.linalg.solve is an oracle that solves diagonally dominant systems exactly (existence proved)."
  },
  {
   "property": "C38",
   "status": "proved",
   "theorems": [
    "categorical_projection",
    "categorical_projection_absorbing"
   ],
   "note": "Projection loop of CategoricalDQN (and Rainbow, with gamma**n) for any number of atoms, bounds, reward, discount and next distribution. eps is the finfo(float32).eps added to the arange stop; the theorem needs it to be positive and at most the atom spacing."
  },
  {
   "property": "C39",
   "status": "proved",
   "theorems": [
    "dqn_target_schedule",
    "guarded_target_schedule",
    "averaged_targets_recent",
    "soft_update_closed_form",
    "soft_update_hull"
   ],
   "note": "DQN family hard updates, AveragedDQN ring of targets, and DDPG/SAC/TD3 soft updates. target_update_frequency counts fits, not samples as documented."
  },
  {
   "property": "C40",
   "status": "partial",
   "theorems": [
    "reinforce_gradients",
    "reinforce_after_failed_fit_refuted",
    "gpomdp_gradients_partial",
    "gpomdp_first_gradient",
    "gpomdp_stale_rewards_refuted",
    "enac_systems"
   ],
   "note": "REINFORCE and eNAC: proved for all sequences of successful fits, unfinished trajectories included. GPOMDP: proved when datasets end with an episode end; refuted otherwise because _init_update does not reset list_reward. A REINFORCE fit that raises (fewer than two episodes) leaves scores behind that misalign the next fit (refuted). The pseudo-inverse of eNAC is the subject of C120, the optimizer step of C48."
  },
  {
   "property": "C41",
   "status": "partial",
   "theorems": [
    "cg_stop_residual",
    "cg_eigenvector",
    "cg_exact_in_n_steps_refuted",
    "full_step_kl",
    "line_search_result"
   ],
   "note": "Exactness in n iterations is refuted: detach() shares storage, so the first in-place residual update also overwrites the search direction. Proved: the residual test bounds the true residual; exact in one iteration when the gradient is an eigenvector; the line search post-condition and the trust-region scaling for any Fisher matrix, loss and KL functions."
  },
  {
   "property": "C42",
   "status": "partial",
   "theorems": [
    "bptt_sequences_partial",
    "bptt_first_rows_refuted"
   ],
   "note": "Proved for every row from index truncation_length on, and for earlier rows without a preceding episode end; refuted for the first truncation_length-1 rows, where last[-1:i] is empty and the cut is skipped."
  },
  {
   "property": "C43",
   "status": "partial",
   "theorems": [
    "puddle_world_box",
    "puddle_world_move",
    "ship_steering_box",
    "ship_reset_box",
    "lqr_nonepisodic_box",
    "lqr_reset_box",
    "inverted_pendulum_box",
    "segway_observation_space_refuted",
    "segway_angle",
    "car_on_hill_outcome",
    "pendulum_run_box",
    "reset_given_angle",
    "reset_given_box_refuted"
   ],
   "note": "Proved for PuddleWorld, ShipSteering, non-episodic LQR, InvertedPendulum and (until absorbing) CarOnHill, for any integrator result. Refuted for Segway: its bounds are swapped in the angle component, so its observation space is empty; segway_angle states what holds instead. Reset with a given state: always in the box for InvertedPendulum; the other environments (and the initial state of LQR) return a given state unchecked, so a state outside stays outside (refuted)."
  },
  {
   "property": "C44",
   "status": "partial",
   "theorems": [
    "through_gate_exact",
    "through_gate_collinear_refuted",
    "ship_outcome"
   ],
   "note": "Exact for non-parallel segments; refuted for a path lying on the gate line. The path is tested per integration interval."
  },
  {
   "property": "C45",
   "status": "partial",
   "theorems": [
    "linear_weights_roundtrip",
    "linear_diff_gradient",
    "q_regressor_linear",
    "cmac_predict_linear",
    "q_regressor_cmac",
    "action_regressor_predict",
    "action_weights_roundtrip",
    "action_diff_gradient",
    "regressor_single_state_cmac_refuted",
    "cmac_diff_refuted"
   ],
   "note": "Holds for LinearApproximator, ActionRegressor over it and QRegressor. CMAC: weights and predict(s,a) hold; diff is refuted (it computes features of features) and Regressor.predict of a single state is refuted (the squeeze drops the batch dimension). Torch networks are the subject of C76 and C77."
  },
  {
   "property": "C46",
   "status": "partial",
   "theorems": [
    "step_all_rows",
    "reset_all_rows",
    "session_sequential",
    "call_result",
    "call_progress",
    "call_terminates",
    "reset_all_initial_states_refuted"
   ],
   "note": "Proved for every interleaving of the parent and worker processes and every sequence of masked calls: right slots, no unread reply, no deadlock, bounded number of moves. Refuted part: the initial states given to reset_all do not reach the environments (the worker forwards only the first number of the row)."
  },
  {
   "property": "C47",
   "status": "partial",
   "theorems": [
    "best_agent_saved",
    "best_agent_first_refuted",
    "best_agent_reopened_refuted"
   ],
   "note": "The saved agent has the maximal score, but it is the last one reaching it (ties overwrite), and a second logger on the same directory forgets the best score: both deviations are refuted with witnesses."
  },
  {
   "property": "C48",
   "status": "partial",
   "theorems": [
    "adaptive_step",
    "minimize_negates",
    "adam_averages",
    "adam_update",
    "adam_first_step",
    "caller_gradient_modified_refuted"
   ],
   "note": "Step rules proved for all real vectors (the adaptive step is optimal in the metric ball unless the gradient is below the numerical guard). The claim that the caller's array is not modified is refuted when minimising. Floats are reals; a negative g.ng (indefinite metric) is outside."
  },
  {
   "property": "C49",
   "status": "partial",
   "theorems": [
    "vector_policy_new",
    "vector_draw_rows",
    "vector_weights_roundtrip",
    "set_n_no_effect",
    "set_n_size_refuted",
    "vector_draw_stateful_refuted",
    "vector_reset_masked_rows_refuted"
   ],
   "note": "set_n is refuted: it never changes the number of policies. Row-wise drawing and weight round trip proved for stateless policies; stateful policies make draw_action raise."
  },
  {
   "property": "C50",
   "status": "proved",
   "theorems": [
    "lqr_lyapunov",
    "lqr_value_bellman",
    "lqr_action_value",
    "lqr_value_return",
    "lqr_gaussian_bellman",
    "feedback_gain_optimal",
    "lqr_gradient_K",
    "lqr_solver_env"
   ],
   "note": "For all dimensions and real matrices; numpy.linalg.solve/inv are arguments with their contracts as hypotheses. States have batch size one (the gradient function raises on larger batches). Floats are reals."
  },
  {
   "property": "C51",
   "status": "proved",
   "theorems": [
    "rwr_weights_spec",
    "reps_weights_spec",
    "mle_mean_hull",
    "con_mean_hull",
    "mle_Z_spec",
    "mle_var_unbiased",
    "mle_mean_maximises",
    "gd_dual_max",
    "diag_dual_max",
    "diag_dual_bound",
    "diag_mle_maximises",
    "chol_mle_psd",
    "chol_con_psd",
    "reps_dual_derivative",
    "reps_dual_slack",
    "reps_dual_bound",
    "reps_update_bound",
    "reps_stationary_optimal",
    "pgpe_baseline_optimal",
    "pgpe_shift_invariant"
   ],
   "note": "Floats are reals; scipy minimize, inverses and log-determinants are arguments with contracts. The normaliser is 0 exactly for one sample, where the code divides by zero."
  },
  {
   "property": "C52",
   "status": "partial",
   "theorems": [
    "more_surrogate_refuted",
    "more_quadratic",
    "more_features",
    "more_neg_nsd",
    "more_update",
    "more_beta_between"
   ],
   "note": "Refuted as stated: the coefficients of the mixed products are counted twice (more_quadratic gives the exact form, more_surrogate_refuted a witness). Proved: feature order, negative semidefiniteness after clipping, optimality of the new mean for the surrogate actually used. The two least-squares fits and the optimiser are not modelled."
  },
  {
   "property": "C53",
   "status": "proved",
   "theorems": [
    "gd_score",
    "diag_score",
    "chol_parameters",
    "chol_score",
    "gp_score",
    "dgp_score",
    "ssgp_score",
    "slsgp_score",
    "gaussian_entropy_kl"
   ],
   "note": "Directional derivatives along every direction. The log-determinant of LL^T is taken as the sum of ln L_ii^2, the inverse of L and of Sigma by contract, the Jacobians of the regressors by contract. gaussian_entropy_kl: the entropy and the divergence used by the constrained updates are the expected values of the log density and of the log ratio."
  },
  {
   "property": "C54",
   "status": "proved",
   "theorems": [
    "fqi_run",
    "fqi_resume",
    "fqi_error",
    "dfqi_split",
    "dfqi_step",
    "boosted_run",
    "boosted_exact",
    "boosted_overflow"
   ],
   "note": "Regressors are arbitrary functions; the progress bar is not modelled."
  },
  {
   "property": "C55",
   "status": "partial",
   "theorems": [
    "collect_samples",
    "collect_whole_episodes_partial",
    "collect_step_fits_refuted",
    "collect_clean_refuted"
   ],
   "note": "fails for fits in the middle of an episode; holds for whole-episode fits"
  },
  {
   "property": "C56",
   "status": "partial",
   "theorems": [
    "vec_single_env_refuted"
   ],
   "note": "fails: the mask array is not allocated for one environment and the first append raises"
  },
  {
   "property": "C57",
   "status": "partial",
   "theorems": [
    "rq_is_q_learning",
    "rq_absorbing_refuted",
    "weighted_q_next",
    "weighted_q_variance",
    "weighted_q_moments"
   ],
   "note": "RQ-learning equals Q-learning only without absorbing samples: rq_absorbing_refuted gives a run on which they differ."
  },
  {
   "property": "C58",
   "status": "proved",
   "theorems": [
    "true_online_forward_view",
    "linear_sarsa_zero",
    "linear_sarsa_one_hot"
   ],
   "note": "Linear regressors with feature vectors of constant length; lambda constant."
  },
  {
   "property": "C59",
   "status": "partial",
   "theorems": [
    "minmax_values",
    "minmax_preserves_input_partial",
    "minmax_mutates_input_refuted",
    "minmax_single_bound_refuted"
   ],
   "note": "Values proved; the caller's array is modified when all components are bounded, and spaces with exactly one bounded component are rejected (refuted)."
  },
  {
   "property": "C60",
   "status": "proved",
   "theorems": [
    "tiles_features_indexes",
    "voronoi_nearest",
    "action_features_block",
    "rbf_range"
   ],
   "note": "For one input vector; the batch loop applies it row by row."
  },
  {
   "property": "C61",
   "status": "proved",
   "theorems": [
    "dqn_target",
    "double_dqn_target",
    "averaged_dqn_target",
    "maxmin_dqn_target",
    "td3_target",
    "sac_action_bounds",
    "sac_target"
   ],
   "note": "Network outputs are arbitrary matrices / functions. SAC's log-probability omits the log of the action scaling (noted in DESIGN.md)."
  },
  {
   "property": "C62",
   "status": "proved",
   "theorems": [
    "puddle_world_reward",
    "puddle_world_move",
    "lqr_dynamics",
    "ship_outcome",
    "cart_pole_termination",
    "car_on_hill_outcome",
    "inverted_pendulum_box",
    "segway_angle"
   ],
   "note": "The ODE integrator is an arbitrary function; noise draws are universally quantified."
  },
  {
   "property": "C63",
   "status": "partial",
   "theorems": [
    "linear_fit_least_squares",
    "cmac_fit_average",
    "cmac_fit_relax",
    "cmac_fit_fixpoint",
    "action_regressor_fit",
    "ensemble_aggregation",
    "set_weights_shares_buffer_refuted"
   ],
   "note": "The pseudo-inverse is an arbitrary matrix satisfying two Penrose equations. Refuted: set_weights keeps a view of the caller's array, which CMAC.fit then overwrites. An input outside every tiling makes CMAC.fit divide by zero (cmac_fit_average characterises when this happens)."
  },
  {
   "property": "C64",
   "status": "partial",
   "theorems": [
    "numpy_log_append",
    "numpy_log_append_no_seed",
    "numpy_log_append_no_seed_refuted"
   ],
   "note": "Proved for every non-negative integer seed, and without a seed when no file of the directory carries a seed suffix. Refuted for loggers without seed sharing a directory with a seeded run."
  },
  {
   "property": "C65",
   "status": "partial",
   "theorems": [
    "lspi_result",
    "lspi_optimal_fixed",
    "lspi_absorbing_refuted"
   ],
   "note": "Refuted for absorbing samples: the flag only changes the next action (to 0), the value of the absorbing state is still bootstrapped. Proved: everything else; lspi_result states the equations that do hold. Termination is not guaranteed by the code and not claimed."
  },
  {
   "property": "C66",
   "status": "proved",
   "theorems": [
    "extra_info_rounds",
    "extra_info_new_key_refuted",
    "extra_info_copy_refuted",
    "extra_info_add",
    "extra_info_add_refuted",
    "extra_info_view",
    "extra_info_keys_separate",
    "extra_info_collision_refuted"
   ],
   "note": "One environment; several environments and the flatten step are the subject of C96. The provisos are necessary: the _refuted theorems show each of them failing. "
  },
  {
   "property": "C67",
   "status": "proved",
   "theorems": [
    "bbo_fit_pairs",
    "bbo_fit_contexts",
    "bbo_context_preprocessed_refuted",
    "bbo_step_fits_refuted",
    "bbo_vectorized_mean_refuted",
    "bbo_fit_update"
   ],
   "note": "Refuted parts concern preprocessors, step-based fits and vectorised starts; a vectorised start without context always raises (lemma bbo_vectorized_start). bbo_fit_update: the update rule is called with these returns and parameters."
  },
  {
   "property": "C68",
   "status": "proved",
   "theorems": [
    "ppo_surrogate",
    "ppo_loss_gradient",
    "advantage_normalised",
    "ppo_epochs",
    "ppo_fit_rows",
    "ppo_first_step",
    "ppo_fit_defined",
    "ppo_single_transition_refuted",
    "a2c_gradient",
    "eppo_rows_start",
    "eppo_context_refuted"
   ],
   "note": "The policy is any log-probability and the optimizer step any function of the loss. Refuted: a dataset with a single transition gives NaN advantages (unbiased deviation of one number); episodic PPO computes the old densities without the context, so with a contextual distribution the ratios do not start at one."
  },
  {
   "property": "C69",
   "status": "partial",
   "theorems": [
    "agent_preprocessors_update",
    "ppo_fit_rows",
    "a2c_states",
    "a2c_preprocessor_refuted",
    "ppo_first_ratio_refuted",
    "ppo_fit_preprocessed"
   ],
   "note": "Proved for the update order and for the acting-state probabilities used by PPO; A2C (as every agent except PPO and TRPO) only satisfies it without agent preprocessors: with one it acts on preprocessed states and fits raw ones (witness). With running statistics the ratio of the first PPO minibatch is not one (witness). ppo_fit_preprocessed: a PPO fit is, apart from the old log-probabilities, the fit without preprocessors on the processed dataset."
  },
  {
   "property": "C70",
   "status": "proved",
   "theorems": [
    "sac_credit",
    "sac_fit_split",
    "sac_avg_credit",
    "sac_avg_shift",
    "sac_two_episodes_refuted",
    "sac_lambda_schedule_refuted"
   ],
   "note": "Within an episode, for every schedule. Refuted beyond it: a fit whose data spans two episodes lets errors of the second reach the states of the first (traces are reset by episode_start only), and a scheduled trace decay is advanced twice per step, so the two traces decay differently."
  },
  {
   "property": "C71",
   "status": "proved",
   "theorems": [
    "copdac_on_policy",
    "copdac_step",
    "copdac_linear_single",
    "copdac_multi_action_refuted"
   ],
   "note": "Proved for every regressor whose derivative has one row per action component, which a linear policy with one action satisfies; with two or more actions the derivative of the linear regressor is transposed and every fit raises."
  },
  {
   "property": "C72",
   "status": "proved",
   "theorems": [
    "ou_actions",
    "ou_bounded",
    "ou_moments",
    "ou_episode_start",
    "clipped_in_bounds"
   ],
   "note": "The expectation is an arbitrary linear functional; independence is used only as zero correlation."
  },
  {
   "property": "C73",
   "status": "partial",
   "theorems": [
    "promp_time_closed",
    "promp_phase_range",
    "promp_duration_refuted",
    "dmp_reaches_goal",
    "dmp_phase_refuted",
    "dmp_actions_alias_refuted"
   ],
   "note": "Phase and time of ProMP and goal convergence of the unforced, critically damped DMP are proved. Refuted: a ProMP built with duration n has not reached phase 1 at its n-th step (set_duration subtracts one, the constructor does not); the DMP phase is driven by the action and may stop anywhere; the actions returned by a DMP are one array that every later draw overwrites. Not covered: convergence with forcing. ProMP.draw_action itself raises a TypeError (it calls _compute_phase without the policy state) and DMP.draw_action does not accept the policy state an Agent passes."
  },
  {
   "property": "C74",
   "status": "partial",
   "theorems": [
    "car_solver_optimal",
    "car_solver_complete",
    "car_solver_failure",
    "car_solver_total",
    "car_solver_depth_refuted",
    "car_solver_bound_refuted"
   ],
   "note": "Positive values are optimal. Refuted: when every action sequence fails after the first step the value is one discount factor too close to zero (the depth of the empty frontier is returned), and with max_k below 2 the recursion has no bound."
  },
  {
   "property": "C75",
   "status": "partial",
   "theorems": [
    "numerical_diff_object",
    "numerical_diff_accuracy",
    "numerical_diff_quadratic",
    "numerical_diff_integer_refuted"
   ],
   "note": "Real arithmetic, so rounding error is not part of the bound. Refuted for integer parameter arrays: the result array inherits their type and is truncated."
  },
  {
   "property": "C76",
   "status": "proved",
   "theorems": [
    "torch_weights_roundtrip",
    "torch_weights_short",
    "torch_weights_rollback_refuted",
    "torch_weights_size_refuted",
    "gaussian_torch_weights",
    "sac_policy_weights",
    "target_sync_independent",
    "shared_weights_refuted",
    "optimizer_state_moves"
   ],
   "note": "Refuted parts: set_weights accepts vectors that are too long (the check is commented out), has already overwritten earlier parameters when it raises on a short one, and makes the network share memory with the vector it is given, so two networks set from one vector are trained together."
  },
  {
   "property": "C77",
   "status": "proved",
   "theorems": [
    "torch_fit_split",
    "torch_weighted_loss",
    "torch_fit_epochs",
    "torch_early_stopping",
    "torch_fit_terminates",
    "torch_fit_mode",
    "torch_loss_fit",
    "torch_fit_terminates_refuted",
    "torch_loss_fit_refuted",
    "torch_validation_mode_refuted"
   ],
   "note": "Refuted parts: with epsilon = 0 and no n_epochs the loop need not end; loss_fit is the mean of batch means, not the average loss over the training set, when the last minibatch is smaller; the validation loss used for early stopping is computed with dropout active; an invalid validation_split leaves a dropout network in training mode."
  },
  {
   "property": "C78",
   "status": "proved",
   "theorems": [
    "quantile_levels",
    "quantile_loss_value",
    "quantile_loss_zero",
    "quantile_loss_gradient",
    "quantile_target_mean",
    "quantile_shared_levels",
    "quantile_shared_levels_refuted",
    "quantile_single_refuted"
   ],
   "note": "tensor-level model of the loss with squeeze, repeat and broadcasting; exact value, gradient and zero set for every batch size and at least two quantiles; refuted for shared class attribute and for one quantile"
  },
  {
   "property": "C79",
   "status": "proved",
   "theorems": [
    "dueling_identifiable",
    "noisy_range",
    "noisy_centred_refuted",
    "categorical_q_range",
    "rainbow_dueling",
    "categorical_loss_gradient",
    "categorical_loss_stuck_refuted"
   ],
   "note": "dueling_dqn.py with avg_advantage=False always raises (Tensor.max(1) returns a pair), noted in DESIGN and not stated as a theorem"
  },
  {
   "property": "C80",
   "status": "proved",
   "theorems": [
    "sac_log_prob_density",
    "sac_log_prob_refuted",
    "sac_std_bounds",
    "sac_alpha_gradient",
    "sac_warmup",
    "sac_warmup_refuted",
    "sac_fit_order",
    "sac_actor_loss"
   ],
   "note": "density stated through distribution functions and the chain rule; networks and optimizers are oracles"
  },
  {
   "property": "C81",
   "status": "proved",
   "theorems": [
    "ddpg_actor_schedule",
    "soft_update_ensemble",
    "soft_update_ensemble_refuted",
    "ddpg_fit_order"
   ],
   "note": "constant policy_delay; gradients and fits are oracles"
  },
  {
   "property": "C82",
   "status": "partial",
   "theorems": [
    "torch_gaussian_density",
    "torch_gaussian_score",
    "torch_gaussian_entropy",
    "recurrent_gaussian",
    "recurrent_entropy_refuted",
    "torch_boltzmann_distribution",
    "torch_boltzmann_temperature",
    "torch_boltzmann_entropy",
    "torch_boltzmann_score",
    "torch_draw_shape",
    "torch_draw_shape_refuted",
    "recurrent_log_prob_shape",
    "recurrent_scalar_action_refuted",
    "torch_gaussian_weights",
    "torch_cholesky",
    "torch_cholesky_density"
   ],
   "note": "Densities, scores, entropies, temperature limits and round trips proved for all inputs. Refuted: entropy outside the clamp of the recurrent policy, its log-probability for one-dimensional actions, batch shapes of drawn actions."
  },
  {
   "property": "C83",
   "status": "partial",
   "theorems": [
    "torch_features_value",
    "gauss_tensor_agrees",
    "single_center_refuted",
    "single_feature_refuted",
    "normalize_partition",
    "von_mises_range",
    "von_mises_ring_refuted",
    "random_fourier",
    "rbf_width",
    "gauss_tensor_normalized"
   ],
   "note": "Values, shapes, ranges and agreement proved for all grids and batches. Refuted: single-centre tensors, single features, the ring of the von Mises grid."
  },
  {
   "property": "C84",
   "status": "partial",
   "theorems": [
    "frame_skip",
    "frame_skip_stale_refuted",
    "atari_history",
    "atari_episode",
    "atari_truncation_refuted",
    "gymnasium_life_refuted",
    "start_actions",
    "start_game_over_refuted"
   ],
   "note": "The emulator, the image preprocessing and the pooling are oracles. The claims a user would expect for early game over during a skip, for game over during no-ops, for truncation and for GymnasiumAtari resets after a lost life are refuted."
  },
  {
   "property": "C85",
   "status": "partial",
   "theorems": [
    "gym_horizon",
    "gym_horizon_raises",
    "gym_inner_limit_refuted",
    "gymnasium_horizon",
    "gym_reset_state_refuted",
    "gym_reset_plain",
    "minigrid_history",
    "minigrid_reward",
    "minigrid_limit_refuted",
    "minigrid_seed_refuted",
    "dm_observation_size",
    "dm_observation_parts",
    "dm_limit_vector",
    "dm_limit_pixels_refuted",
    "minigrid_flags",
    "gym_action"
   ],
   "note": "Simulators are oracles; user wrappers that change observations are not modelled; gym, gymnasium, gym_minigrid and dm_control conventions (private attributes are not forwarded, writes stay on the wrapper, the step limit ends the episode) are part of the trusted reading. The refuted parts are proved as counterexamples."
  },
  {
   "property": "C86",
   "status": "partial",
   "theorems": [
    "box_scalars",
    "box_arrays",
    "box_mixed_refuted",
    "box_shape_mismatch_refuted",
    "box_consistent",
    "mdp_sizes",
    "make_dots",
    "make_decimal_refuted",
    "register_first"
   ],
   "note": "Keyword arguments and data types are not modelled; the three refuted claims are proved as counterexamples."
  },
  {
   "property": "C87",
   "status": "partial",
   "theorems": [
    "mj_observation",
    "mj_limits",
    "remove_obs_order",
    "remove_obs_order_refuted",
    "mj_reset_obs",
    "mj_step_control",
    "mj_step_time",
    "mj_controls",
    "mj_collision",
    "mj_force",
    "mj_force_refuted",
    "multi_reset_fresh",
    "multi_turns",
    "multi_timestep_refuted",
    "multi_limits_refuted",
    "multi_reset_protocol_refuted",
    "env_id_distinct"
   ],
   "note": "The simulator is an arbitrary function; physics, viewers and the bit-width logarithm in floats are not modelled. The refuted parts are defects of the code."
  },
  {
   "property": "C88",
   "status": "partial",
   "theorems": [
    "pb_names",
    "pb_names_refuted",
    "pb_actions",
    "pb_unknown_joint_refuted",
    "pb_empty_actuation_refuted",
    "pb_observation",
    "pb_limits",
    "pb_contact_flag",
    "pb_self_contact",
    "pb_self_contact_refuted",
    "pb_defined",
    "pb_step_control",
    "pb_step_time",
    "pb_reset_fresh"
   ],
   "note": "The simulator is arbitrary readings and an arbitrary step; loading files and viewers are not modelled. The refuted parts are defects of the code."
  },
  {
   "property": "C89",
   "status": "partial",
   "theorems": [
    "hockey_flags",
    "hockey_double_flags",
    "hockey_double_flags_refuted",
    "puck_readings",
    "puck_readings_refuted",
    "puck_in_frame",
    "puck_velocity_in_frame",
    "puck_velocity_in_frame_refuted",
    "ee_constraints_iff",
    "ee_constraints_second",
    "joint_vel_constraints_iff",
    "joint_pos_constraints_refuted",
    "hockey_absorbing",
    "hockey_absorbing_bullet",
    "hockey_task_absorbing",
    "hit_bounce_point",
    "hit_direction",
    "hit_goal",
    "hit_defined",
    "hit_speed_ignored",
    "hit_speed_refuted",
    "pb_hit_stale_refuted",
    "pb_hit_goal",
    "defend_conceding",
    "repel_conceding",
    "repel_worst_refuted",
    "prepare_bonus_refuted",
    "prepare_range",
    "pb_hockey_observation",
    "pb_noise_refuted",
    "pb_delay_refuted",
    "pb_puck_limits_refuted",
    "hockey_reach",
    "cup_reward_absorbing",
    "cup_same_start",
    "cup_movement"
   ],
   "note": "The simulators are oracles; the PyBullet defend/prepare/repel tasks differ from the modelled MuJoCo ones in thresholds and are not modelled; the _refuted theorems give the deviations."
  },
  {
   "property": "C90",
   "status": "partial",
   "theorems": [
    "backend_flatten",
    "backend_pack",
    "backend_median",
    "backend_median_refuted",
    "backend_from_list",
    "backend_from_list_rows",
    "backend_from_list_refuted",
    "backend_where_indices",
    "backend_where_refuted",
    "backend_squeeze",
    "backend_squeeze_refuted",
    "backend_convert",
    "backend_convert_refuted",
    "backend_agent_env",
    "default_env_mask"
   ],
   "note": "Refuted: medians of an even number of values, from_list of one tensor (torch raises), three-argument where (returns None), squeeze of a dimension larger than one, convert to another target (returns the exception class), convert of None. Negative environment ids, devices and dtypes are not modelled."
  },
  {
   "property": "C91",
   "status": "partial",
   "theorems": [
    "collected_history",
    "collect_q_history",
    "collect_q_ensemble_mean",
    "collect_max_q_value",
    "cleaned_lists_kept",
    "plot_windows",
    "plot_episodes",
    "plot_cut_run",
    "plot_returns_refuted",
    "window_tracking",
    "window_all",
    "window_default_refuted",
    "colors_enough",
    "curve_colors_refuted",
    "confidence_equivariant",
    "confidence_zero",
    "recordings",
    "recording_empty_refuted",
    "polygon_rigid",
    "viewer_on_screen",
    "torque_center_refuted",
    "logger_writes",
    "logger_independent",
    "logger_same_name_refuted"
   ],
   "note": "Refuted: returns plotted after a run that stopped inside an episode, windows with the default tracking flag, colours of the curves of one plot, recording a run without frames, the array given to torque_arrow, two loggers of one name. The quantile of the t distribution is any function; Qt, pygame and cv2 are not modelled."
  },
  {
   "property": "C92",
   "status": "partial",
   "theorems": [
    "sim_obs_shape",
    "sim_obs_shape_refuted",
    "ig_obs_range",
    "rearrange_split",
    "rearrange_no_gripper_refuted",
    "sim_absorbing",
    "ig_horizon_refuted",
    "sim_render_step",
    "sim_render_reset_refuted",
    "optimal_return_sum",
    "isaac_reset_mask",
    "isaac_reset_one_refuted",
    "isaac_done_mask",
    "isaac_observation"
   ],
   "note": "Refuted: the declared shape for images that are not square, the horizon given to iGibson, render after reset, masks with one environment, actions without gripper. The step limits and the argwhere convention of the simulators and of torch are part of the trusted reading."
  },
  {
   "property": "C93",
   "status": "partial",
   "theorems": [
    "observations_stable",
    "caller_arrays_kept",
    "lqr_initial_state",
    "reset_given_overwrites_refuted"
   ],
   "note": "Refuted: a caller array with an angle outside ]-pi, pi] or an inadmissible pendulum velocity is overwritten by reset(state). An angle of exactly -pi drawn by reset() is excluded. Integer arrays are not modelled."
  },
  {
   "property": "C94",
   "status": "partial",
   "theorems": [
    "loaded_agent_acts_on_learned",
    "copdac_unsaved",
    "copdac_loaded_refuted",
    "mellowmax_unsaved",
    "mellowmax_loaded_refuted"
   ],
   "note": "Object identity through save/load over a heap of approximators; the TD and DDPG kinds keep the link, COPDAC_Q and Mellowmax lose it after a load (the two _refuted theorems). Missing: agents outside these four kinds."
  },
  {
   "property": "C95",
   "status": "partial",
   "theorems": [
    "loaded_attributes_exist",
    "loaded_values",
    "loaded_forgotten",
    "loaded_methods_agree",
    "restored_classes",
    "missing_attributes_refuted"
   ],
   "note": "The table of attributes read and registered is part of the model. A nested Serializable attribute counts as one value here; its own restoration is the same theorem for its class. The unregistered attributes are the _refuted theorem."
  },
  {
   "property": "C96",
   "status": "partial",
   "theorems": [
    "vec_positions",
    "vec_info_aligned",
    "vec_info_cut_refuted",
    "vec_info_view_refuted"
   ],
   "note": "Alignment proved when the first step reports every key and flat keys do not collide. Refuted: length after a cut at n_steps_per_fit, and views of a flattened dataset. Trailing array dimensions, backends and broadcasting of arrays of length one are not modelled."
  },
  {
   "property": "C97",
   "status": "partial",
   "theorems": [
    "vec_record_prefix",
    "vec_record_mask_refuted",
    "vec_record_paths_refuted",
    "vec_record_names"
   ],
   "note": "The mask and file-name claims are refuted in general; what two writers of one file leave behind is not modelled."
  },
  {
   "property": "C98",
   "status": "proved",
   "theorems": [
    "car_slope",
    "car_curvature",
    "car_picture",
    "car_energy_balance",
    "car_force_constant",
    "car_must_swing",
    "pend_energy_balance",
    "pend_dissipates",
    "cart_equations",
    "cart_energy_balance",
    "seg_equations",
    "seg_energy_balance",
    "seg_picture",
    "mirrored_dynamics"
   ],
   "note": "Theorems speak of exact solutions of the differential equations; the numerical error of odeint is not modelled. Beyond the speed bound the pendulum equations are not mechanical (the angle moves with the bounded speed)."
  },
  {
   "property": "C99",
   "status": "proved",
   "theorems": [
    "more_density",
    "more_weak_duality",
    "more_attained",
    "more_bounds",
    "more_active"
   ],
   "note": "Matrix inverses and log-determinants are arguments with contracts; expectations are linear functionals and divergences between the candidate distributions are assumed not negative (Gibbs). The optimiser is assumed to return a minimum. Continuity of divergence and entropy in the multipliers is a hypothesis of the two bounds at the optimum itself."
  },
  {
   "property": "C100",
   "status": "proved",
   "theorems": [
    "vec_transitions_chain",
    "vec_preprocess_twice_refuted",
    "vec_preprocess_raises_refuted",
    "vec_preprocess_updates_refuted",
    "minmax_batch_rows_refuted"
   ],
   "note": "Chaining proved for runs without core preprocessors; the four refuted theorems characterise what happens with them."
  },
  {
   "property": "C101",
   "status": "proved",
   "theorems": [
    "optimal_unique",
    "optimal_values_exist",
    "optimal_values_are_returns",
    "q_learning_converges",
    "expected_sarsa_converges",
    "maxmin_q_converges",
    "decaying_rates_diverge",
    "greedy_returns_optimal"
   ],
   "note": "Deterministic environments (the sample equals the environment's reaction); stochastic approximation is not covered.  Real arithmetic."
  },
  {
   "property": "C102",
   "status": "proved",
   "theorems": [
    "core_q_learning_run",
    "core_q_learning_converges",
    "exploration_possible"
   ],
   "note": "Deterministic environment with one start state; constant epsilon; real arithmetic.  That random draws explore with probability one is not part of the model (exploration_possible shows that such draws exist)."
  },
  {
   "property": "C103",
   "status": "proved",
   "theorems": [
    "dqn_learns_from_run"
   ],
   "note": "Composition of CoreModel, ReplayModel and DqnModel."
  },
  {
   "property": "C104",
   "status": "proved",
   "theorems": [
    "replay_agent_experiment",
    "ddpg_learns_from_run",
    "td3_learns_from_run",
    "sac_learns_from_run",
    "dqn_learns_from_experiment"
   ],
   "note": "Composition of CoreModel, ReplayModel, SacModel and DqnModel. Prioritised memories are not part of it."
  },
  {
   "property": "C105",
   "status": "partial",
   "theorems": [
    "core_fits_on_policy_data",
    "vector_fits_off_policy_data_refuted"
   ],
   "note": "Proved for Core; for VectorCore a witness run violates it (with n_envs dividing n_steps_per_fit the datasets are exact, C10)."
  },
  {
   "property": "C106",
   "status": "partial",
   "theorems": [
    "reinforce_expectation_partial",
    "gpomdp_expectation_partial",
    "policy_gradient_bias_refuted"
   ],
   "note": "Exact expectation of the computed gradients for every finite environment and any number of episodes; the part without baseline is the policy gradient. Unbiasedness itself is refuted: the baseline uses the same episodes. Continuous state and action spaces are not modelled."
  },
  {
   "property": "C107",
   "status": "proved",
   "theorems": [
    "sarsa_family_textbook",
    "sarsa_family_bootstrap",
    "sarsa_family_evaluate",
    "sarsa_bootstraps_next_action",
    "sarsa_traces_bootstrap_next_action",
    "sarsa_traces_evaluate",
    "true_online_core_forward_view"
   ],
   "note": "The policy is any function of values, draw number and state; no core preprocessors; the regressors of the linear agents are dot products with features."
  },
  {
   "property": "C108",
   "status": "partial",
   "theorems": [
    "core_reinforce_updates",
    "core_gpomdp_updates",
    "core_enac_updates",
    "core_policy_gradient_one_episode_raises",
    "reinforce_step_schedule_refuted"
   ],
   "note": "Full for episode schedules. For step schedules the claim is false: reinforce_step_schedule_refuted is the witness."
  },
  {
   "property": "C109",
   "status": "partial",
   "theorems": [
    "optimizers_follow_loaded_parameters",
    "eppo_optimizer_without_load",
    "eppo_loaded_never_learns_refuted"
   ],
   "note": "Proved for the classes that relink their optimizer in _post_load. Refuted for ePPO, which saves its optimizer but does not relink it: after a load every fit leaves the distribution unchanged."
  },
  {
   "property": "C110",
   "status": "partial",
   "theorems": [
    "core_ppo_updates",
    "core_a2c_updates_partial",
    "core_ppo_every_step_refuted",
    "core_a2c_every_step_refuted",
    "core_a2c_horizon_refuted"
   ],
   "note": "PPO: whole property (learn with n_steps_per_fit or n_episodes_per_fit >= 2). A2C: proved for environments without a horizon; with a horizon core_a2c_horizon_refuted shows a target that runs across an episode end. With n_steps_per_fit = 1 every fit is NaN (PPO) or raises (A2C)."
  },
  {
   "property": "C111",
   "status": "partial",
   "theorems": [
    "core_per_updates",
    "core_per_memory",
    "core_per_full_sound",
    "core_per_unwritten_refuted"
   ],
   "note": "Whole property as long as no slot that was never written is read, which is proved for memories that train only once full (initial_size >= max_size - 1). core_per_unwritten_refuted: with a larger memory the search of the sum tree, which tosses a coin when two siblings have equal priority, ends in an unwritten slot in a run of two steps. Which positions are drawn from which random numbers is the subject of C18."
  },
  {
   "property": "C112",
   "status": "partial",
   "theorems": [
    "core_learn_alike",
    "core_evaluate_alike",
    "learn_continues",
    "learn_in_epochs",
    "learn_continues_mid_episode_refuted",
    "sarsa_resumes",
    "sarsa_loaded_evaluates",
    "replay_loaded_evaluates",
    "replay_resumes",
    "dqn_resumes",
    "per_loaded_evaluates",
    "per_full_memory_resume_refuted",
    "per_resume_refuted"
   ],
   "note": "Composition of CoreModel with the agents of C103, C104, C107 and C111. Cutting an episode between two calls changes the run (refuted), and a prioritised memory does not survive a load (refuted). Full saves of a replay memory lose the rows (C21) and are not covered here; VectorCore neither."
  },
  {
   "property": "C113",
   "status": "proved",
   "theorems": [
    "stochastic_optimum_unique",
    "stochastic_optimum_exists",
    "stochastic_optimum_is_return",
    "q_learning_converges_stochastic",
    "expected_sarsa_converges_stochastic",
    "q_learning_averages",
    "expected_sarsa_averages",
    "core_q_learning_finite_mdp",
    "constant_rate_stochastic_refuted"
   ],
   "note": "Pathwise: the strong law of large numbers (the frequencies of the outcomes) and infinitely many visits are conditions on the run, not derived from a probability space. constant_rate_stochastic_refuted: with a constant learning rate and fair outcomes the table oscillates."
  },
  {
   "property": "C114",
   "status": "proved",
   "theorems": [
    "vec_learn_history",
    "vec_ppo_updates",
    "vec_a2c_targets_cross",
    "vec_a2c_mixes_refuted"
   ],
   "note": "The A2C theorems refute that its targets stay inside an environment. Core preprocessors, stateful policies and episode-wise parameters are left out (VecLearnModel.v)."
  },
  {
   "property": "C115",
   "status": "partial",
   "theorems": [
    "trpo_step_correct",
    "core_trpo_updates",
    "vec_trpo_updates",
    "trpo_trust_region_refuted",
    "trpo_flat_data_refuted"
   ],
   "note": "Proved for the weights and, without agent preprocessors, for the acting policy. Refuted: with preprocessors the acting policy may leave the trust region although the weights are put back; equal advantages make fit raise for policies that validate their arguments. max_kl, damping and iteration numbers are constant during a fit; autograd is an oracle."
  },
  {
   "property": "C116",
   "status": "partial",
   "theorems": [
    "gd_con_wmle_optimal",
    "diag_con_wmle_optimal",
    "chol_con_wmle_optimal",
    "creps_weights_bound",
    "creps_update_bounds",
    "creps_dual_unbounded_refuted"
   ],
   "note": "Optimisers are oracles assumed to return a local minimum within the bounds at which the new covariance is defined; numpy.linalg enters through its contract on positive definite matrices. The existence of a global minimum for a full covariance is refuted."
  },
  {
   "property": "C117",
   "status": "partial",
   "theorems": [
    "bptt_fit_correct_partial",
    "core_ppo_bptt_updates_partial",
    "bptt_joined_rows_refuted"
   ],
   "note": "Proved for every row that is clean: at position >= truncation_length, or with no episode end before it in the data. For the others the claim is false (bptt_joined_rows_refuted, the slice last[-1:i] is empty). Networks are those of examples/gym_recurrent_ppo.py: a recurrent step of any kind and layers behind it; actions of at least two components."
  },
  {
   "property": "C118",
   "status": "partial",
   "theorems": [
    "core_evaluate_distribution",
    "core_evaluate_unbiased",
    "core_learn_on_policy",
    "core_reinforce_expectation_partial",
    "core_gpomdp_expectation_partial",
    "core_evaluate_steps_refuted"
   ],
   "note": "The random generators of environment and policy are two tapes of independent draws from finite distributions, related to the transition probabilities, initial distribution and action probabilities by hypotheses; fully observed environments without core preprocessors. The two gradient theorems are partial as in C106: the term of the baseline is left as an expectation. core_evaluate_steps_refuted is the witness for n_steps."
  },
  {
   "property": "C119",
   "status": "proved",
   "theorems": [
    "vector_core_evaluate_distribution",
    "vector_core_evaluate_unbiased",
    "vector_core_learn_on_policy",
    "vector_core_learns_as_core",
    "shared_seed_variance_refuted"
   ],
   "note": "evaluate without initial_states and with no episode schedule left over from an earlier learn (that case is C08's defect); environments with generators of their own; shared_seed_variance_refuted is the last sentence of the statement."
  },
  {
   "property": "C120",
   "status": "partial",
   "theorems": [
    "core_enac_least_squares",
    "enac_natural_gradient",
    "enac_reparametrisation",
    "enac_compatible_advantage",
    "enac_population_natural_gradient",
    "pinv_exists",
    "enac_discounted_refuted",
    "enac_few_episodes_refuted"
   ],
   "note": "Everything in the statement is proved. Partial because two things a user may expect are refuted: with a discount factor below one the direction is not the natural gradient of the discounted return (the scores are discounted too, so later decisions are not scaled down), and with fewer independent episodes than coefficients the pseudo-inverse picks a direction that depends on the parametrisation. np.linalg.pinv is an argument satisfying the Moore-Penrose equations (pinv_exists constructs one)."
  },
  {
   "property": "C121",
   "status": "partial",
   "theorems": [
    "fqi_table_fit",
    "fqi_table_value_iteration",
    "fqi_table_near_optimal",
    "fqi_linear_diverges_refuted"
   ],
   "note": "Real arithmetic; np.linalg.pinv is any function satisfying the four Penrose equations (pinv_exists shows there is one). Partial: convergence is proved for partitions only, because fqi_linear_diverges_refuted shows it fails for general linear features; the distance between the data and a true decision process is a hypothesis, not derived from sample counts."
  },
  {
   "property": "C122",
   "status": "partial",
   "theorems": [
    "lspi_table_policy_iteration",
    "lspi_table_terminates",
    "lspi_fqi_agree",
    "pinv_solves",
    "lspi_untried_refuted"
   ],
   "note": "Real arithmetic; np.linalg.solve is any function that solves the regular systems (pinv_solves shows there is one) and matrix_rank is exact. Partial: partitions covered by the data only, since lspi_untried_refuted shows the claim fails for pairs without data; the epsilon must be positive."
  },
  {
   "property": "C123",
   "status": "partial",
   "theorems": [
    "boosted_linear_is_fqi",
    "boosted_table_value_iteration",
    "boosted_mean_greedy",
    "boosted_mean_refuted",
    "double_same_halves",
    "double_table_over",
    "double_table_near_optimal_partial",
    "double_table_refuted",
    "double_table_deterministic"
   ],
   "note": "Real arithmetic; for boosting any matrix may stand for the pseudo-inverse, for tables it satisfies the Penrose equations. Partial: values of the default ensemble prediction and convergence of DoubleFQI are refuted; the two-sided bound for DoubleFQI is proved for gamma < 1/2 only, and assumes that both halves try every pair."
  },
  {
   "property": "C124",
   "status": "partial",
   "theorems": [
    "rainbow_updates",
    "rainbow_memory",
    "rainbow_full_sound",
    "rainbow_rows",
    "rainbow_window_count",
    "rainbow_never_learns_refuted",
    "rainbow_lost_windows"
   ],
   "note": "All clauses are proved except that learning always happens, which is refuted: rainbow_never_learns_refuted (n_steps_per_fit < n_steps_return), rainbow_lost_windows (n - 1 windows lost per fit). The network, its optimizer step and the draws are arbitrary functions; as in C111 an unwritten slot may be read before the memory is full, and the claims about a fit are under the recorded condition that this did not happen."
  },
  {
   "property": "C125",
   "status": "partial",
   "theorems": [
    "vec_windows_by_env",
    "vec_replay_agent",
    "vec_replay_call",
    "vec_rainbow_updates",
    "vec_rainbow_memory",
    "vec_rainbow_rows",
    "vec_rainbow_never_learns_refuted"
   ],
   "note": "The positive part is proved for the covered schedules (fit every multiple of n steps with a budget of steps; fit every k episodes with a horizon); the last sentence is refuted by vec_rainbow_never_learns_refuted for every network and environment. Actions of a batch of states are an arbitrary function with one action per environment."
  },
  {
   "property": "C126",
   "status": "partial",
   "theorems": [
    "vec_bb_fits",
    "vec_bb_never_starts_refuted",
    "vec_bb_deterministic_refuted"
   ],
   "note": "Proved for environments that give a mapping and contextual builders working row by row, without core preprocessors and with stateless policies; the library's own environments give a list, for which vec_bb_never_starts_refuted shows that no training starts."
  },
  {
   "property": "C127",
   "status": "partial",
   "theorems": [
    "double_q_no_overestimation",
    "double_q_converges",
    "double_q_limits_optimal",
    "double_q_convergence_refuted",
    "double_q_basin",
    "double_q_sweeps_converge"
   ],
   "note": "Deterministic environments. Convergence is proved for gamma < 1/2 and refuted for gamma = 0.9 without further conditions on the coin flips; convergence with probability one under fair independent coin flips is not proved."
  },
  {
   "property": "C128",
   "status": "proved",
   "theorems": [
    "rq_learning_converges"
   ],
   "note": "off_policy=True; deterministic environment; exact real arithmetic"
  },
  {
   "property": "C129",
   "status": "proved",
   "theorems": [
    "sarsa_no_overestimation",
    "esarsa_eps_greedy_converges",
    "esarsa_boltzmann_converges",
    "sarsa_greedy_converges",
    "esarsa_fixed_exploration_refuted"
   ],
   "note": "the refuted theorem is item (4)"
  },
  {
   "property": "C130",
   "status": "proved",
   "theorems": [
    "q_lambda_zero_converges",
    "q_lambda_convergence_refuted"
   ],
   "note": "the refuted theorem is item (2), with its witness run"
  },
  {
   "property": "C131",
   "status": "proved",
   "theorems": [
    "weighted_q_no_overestimation",
    "weighted_q_greedy_converges"
   ],
   "note": "deterministic environment; the sampled maximisers are arbitrary"
  },
  {
   "property": "C132",
   "status": "proved",
   "theorems": [
    "core_bbo_updates",
    "core_bbo_keeps",
    "core_pgpe_updates",
    "core_pgpe_one_episode_refuted",
    "core_wmle_one_episode",
    "core_wmle_finite"
   ],
   "note": "core_bbo_updates: the episodes, parameters, returns and distribution of each fit; core_bbo_keeps: what every update on k episodes preserves holds after learn; core_pgpe_updates: the gradient of each PGPE fit; core_pgpe_one_episode_refuted: with one episode per fit PGPE leaves the distribution as it was (Adam: if it has seen no other gradient). In exact arithmetic: with floats the gradient is rounding noise.  core_wmle_one_episode: a fit of RWR or REPS on a diagonal Gaussian makes the standard deviation NaN if and only if it is made on one episode; core_wmle_finite: with more episodes it stays finite."
  },
  {
   "property": "C133",
   "status": "proved",
   "theorems": [
    "dataset_columns",
    "view_full",
    "view_negative_refuted",
    "flatten_policy_states_refuted",
    "core_policy_states",
    "view_add_refuted"
   ],
   "note": "dataset_columns, view_full, core_policy_states: the positive statements; the three refuted theorems: negative indexes on a dataset that is not full, policy states through from_array and flatten, sums with views."
  },
  {
   "property": "C134",
   "status": "proved",
   "theorems": [
    "eps_greedy_batch",
    "eps_greedy_one_state_refuted",
    "eps_greedy_vector_step_refuted",
    "eps_greedy_call_disagrees_refuted"
   ],
   "note": "eps_greedy_batch: one number, and exactly which numbers are possible; eps_greedy_one_state_refuted: a 1 x n prediction gives action 0 at one of the two equally likely positions; eps_greedy_vector_step_refuted: step_all raises.  eps_greedy_call_disagrees_refuted: the chance of the best action under the draw is (1 - eps) / 2 below what policy(state, action) reports."
  },
  {
   "property": "C135",
   "status": "proved",
   "theorems": [
    "td3_noise_schedule",
    "td3_noise_odd",
    "td3_shared_parameter",
    "td3_shared_parameter_refuted"
   ],
   "note": "Parameters are objects in a heap; the shared case is refuted with every n >= 2 as witness."
  },
  {
   "property": "C136",
   "status": "proved",
   "theorems": [
    "ppo_clip_schedule",
    "ppo_clip_schedule_ends"
   ],
   "note": "Number of epochs and batch size are numbers; the minibatch count is specified as the least number of batches that cover the rows."
  },
  {
   "property": "C137",
   "status": "proved",
   "theorems": [
    "trpo_coefficient_reads",
    "trpo_entropy_decay_refuted",
    "trpo_entropy_growth_refuted"
   ],
   "note": "Refutes that the line search compares like with like; trpo_decay_ex runs a whole instance."
  },
  {
   "property": "C138",
   "status": "proved",
   "theorems": [
    "creps_schedule",
    "creps_schedule_ends"
   ],
   "note": "Gaussian with fixed covariance; the other distributions read eps in the same line."
  }
 ]
}
(** Which attributes of the Serializable classes are registered for saving and which ones
    their methods read: the 130 classes of mushroom_rl that derive from Serializable
    (core/serialization.py).

    Each entry of the table lists, for one class:
    - the attributes that its constructor (or that of a base class) creates and that some
      method other than the constructor reads (methods of base classes included unless
      overridden); the constructor itself does not run when an object is loaded
      (serialization.py 115);
    - the attributes registered with _add_save_attr by the class and its base classes, with
      the method of the last registration; [Dyn] is a registration whose method is chosen
      from the class of the value (serialization.py 266-271);
    - the attributes assigned by _post_load and the methods it calls.
    The table was read off the source text.  Attributes read only by other classes are left
    out, except DatasetInfo.device (core/dataset.py 107, 108, 119).  Values are opaque. *)
From Coq Require Import List Arith Lia Bool String.
From Verif Require Import Common.
Import ListNotations.
Local Open Scope string_scope.

(** The save methods; [Opt m] is the method with "!" appended. *)
Inductive meth := Primitive | Pickle | Numpy | Torch | Mushroom | NoneM | Dyn | Opt (m : meth).

Record klass := K { k_name : string; k_reads : list string; k_saved : list (string * meth); k_post : list string }.

Definition mem (a : string) (l : list string) : bool := existsb (String.eqb a) l.

(** _save_attributes[a]. *)
Fixpoint meth_of (a : string) (l : list (string * meth)) : option meth :=
  match l with [] => None | (b, m) :: t => if String.eqb a b then Some m else meth_of a t end.

Section Load.
Context {V : Type}.
(** The value None of Python. *)
Variable vnone : V.
(** The values that _post_load assigns. *)
Variable post : string -> V.

(** The attribute dictionary of an object; [None]: no such attribute. *)
Definition attrs := string -> option V.

(** serialization.py 46-52: hasattr/getattr of the saved object. *)
Definition value_or_none (v : option V) : V := match v with Some x => x | None => vnone end.

(** serialization.py 46-66 (save) and 118-137 (load) for one registered attribute.  Reading a
    file back gives the saved value.  A "mushroom!" object is written to a folder but its
    file name is looked up, so it is None even after a full save. *)
Definition loaded_value (full : bool) (m : meth) (v : option V) : V :=
  match m with
  | NoneM => vnone
  | Opt Mushroom => vnone
  | Opt _ => if full then value_or_none v else vnone
  | _ => value_or_none v
  end.

(** serialization.py 115-139: an object made by __new__, its registered attributes, then
    _post_load. *)
Definition loaded (full : bool) (k : klass) (o : attrs) : attrs := fun a =>
  if mem a (k_post k) then Some (post a)
  else match meth_of a (k_saved k) with
       | Some m => Some (loaded_value full m (o a))
       | None => None
       end.
End Load.
Arguments attrs : clear implicits.

(** algorithms/actor_critic/deep_actor_critic/a2c.py:12 *)
Definition k_A2C : klass := K "A2C"
  ["_V"; "_agent_backend"; "_agent_preprocessors"; "_clipping"; "_clipping_params"; "_core_preprocessors"; "_critic_fit_params"; "_entropy_coeff"; "_env_backend"; "_info"; "_optimizer"; "_parameters"; "mdp_info"; "next_action"; "policy"]
  [("_V", Mushroom); ("_agent_backend", Primitive); ("_agent_preprocessors", Mushroom); ("_clipping", Torch); ("_clipping_params", Pickle); ("_core_preprocessors", Mushroom); ("_critic_fit_params", Pickle); ("_entropy_coeff", Mushroom); ("_env_backend", Primitive); ("_info", Mushroom); ("_logger", NoneM); ("_optimizer", Torch); ("mdp_info", Mushroom); ("next_action", NoneM); ("policy", Mushroom)]
  ["_parameters"].
(** algorithms/value/dqn/abstract_dqn.py:12 *)
Definition k_AbstractDQN : klass := K "AbstractDQN"
  ["_agent_backend"; "_agent_preprocessors"; "_batch_size"; "_clip_reward"; "_core_preprocessors"; "_env_backend"; "_fit"; "_fit_params"; "_info"; "_n_updates"; "_predict_params"; "_replay_memory"; "_target_update_frequency"; "approximator"; "mdp_info"; "next_action"; "policy"; "target_approximator"]
  [("_agent_backend", Primitive); ("_agent_preprocessors", Mushroom); ("_batch_size", Mushroom); ("_clip_reward", Primitive); ("_core_preprocessors", Mushroom); ("_env_backend", Primitive); ("_fit_params", Pickle); ("_info", Mushroom); ("_logger", NoneM); ("_n_approximators", Primitive); ("_n_updates", Primitive); ("_predict_params", Pickle); ("_replay_memory", Mushroom); ("_target_update_frequency", Primitive); ("approximator", Mushroom); ("mdp_info", Mushroom); ("next_action", NoneM); ("policy", Mushroom); ("target_approximator", Mushroom)]
  ["_fit"].
(** policy/gaussian_policy.py:7 *)
Definition k_AbstractGaussianPolicy : klass := K "AbstractGaussianPolicy"
  ["policy_state_shape"]
  [("policy_state_shape", Primitive)]
  [].
(** distributions/torch_distribution.py:6 *)
Definition k_AbstractGaussianTorchDistribution : klass := K "AbstractGaussianTorchDistribution"
  ["_context_shape"]
  [("_context_shape", Primitive)]
  [].
(** rl_utils/eligibility_trace.py:36 *)
Definition k_AccumulatingTrace : klass := K "AccumulatingTrace"
  ["table"]
  [("table", Numpy)]
  [].
(** approximators/_implementations/action_regressor.py:6 *)
Definition k_ActionRegressor : klass := K "ActionRegressor"
  ["_n_actions"; "model"]
  [("_n_actions", Primitive); ("model", Dyn)]
  [].
(** rl_utils/optimizers.py:121 *)
Definition k_AdamOptimizer : klass := K "AdamOptimizer"
  ["_beta1"; "_beta2"; "_eps"; "_lr"; "_m"; "_maximize"; "_t"; "_v"]
  [("_beta1", Primitive); ("_beta2", Primitive); ("_lr", Mushroom); ("_m", Numpy); ("_maximize", Primitive); ("_t", Primitive); ("_v", Numpy)]
  [].
(** rl_utils/optimizers.py:37 *)
Definition k_AdaptiveOptimizer : klass := K "AdaptiveOptimizer"
  ["_eps"; "_maximize"]
  [("_eps", Primitive); ("_lr", Mushroom); ("_maximize", Primitive)]
  [].
(** core/agent.py:24 *)
Definition k_Agent : klass := K "Agent"
  ["_agent_backend"; "_agent_preprocessors"; "_core_preprocessors"; "_env_backend"; "_info"; "next_action"; "policy"]
  [("_agent_backend", Primitive); ("_agent_preprocessors", Mushroom); ("_core_preprocessors", Mushroom); ("_env_backend", Primitive); ("_info", Mushroom); ("_logger", NoneM); ("mdp_info", Mushroom); ("next_action", NoneM); ("policy", Mushroom)]
  [].
(** core/agent.py:5 *)
Definition k_AgentInfo : klass := K "AgentInfo"
  []
  [("backend", Primitive); ("is_episodic", Primitive); ("is_stateful", Primitive); ("policy_state_shape", Primitive)]
  [].
(** algorithms/value/dqn/averaged_dqn.py:7 *)
Definition k_AveragedDQN : klass := K "AveragedDQN"
  ["_agent_backend"; "_agent_preprocessors"; "_batch_size"; "_clip_reward"; "_core_preprocessors"; "_env_backend"; "_fit"; "_fit_params"; "_info"; "_n_approximators"; "_n_fitted_target_models"; "_n_updates"; "_predict_params"; "_replay_memory"; "_target_update_frequency"; "approximator"; "mdp_info"; "next_action"; "policy"; "target_approximator"]
  [("_agent_backend", Primitive); ("_agent_preprocessors", Mushroom); ("_batch_size", Mushroom); ("_clip_reward", Primitive); ("_core_preprocessors", Mushroom); ("_env_backend", Primitive); ("_fit_params", Pickle); ("_info", Mushroom); ("_logger", NoneM); ("_n_approximators", Primitive); ("_n_fitted_target_models", Primitive); ("_n_updates", Primitive); ("_predict_params", Pickle); ("_replay_memory", Mushroom); ("_target_update_frequency", Primitive); ("approximator", Mushroom); ("mdp_info", Mushroom); ("next_action", NoneM); ("policy", Mushroom); ("target_approximator", Mushroom)]
  ["_fit"].
(** algorithms/value/batch_td/batch_td.py:5 *)
Definition k_BatchTD : klass := K "BatchTD"
  ["_agent_backend"; "_agent_preprocessors"; "_core_preprocessors"; "_env_backend"; "_info"; "approximator"; "next_action"; "policy"]
  [("_agent_backend", Primitive); ("_agent_preprocessors", Mushroom); ("_core_preprocessors", Mushroom); ("_env_backend", Primitive); ("_fit_params", Pickle); ("_info", Mushroom); ("_logger", NoneM); ("approximator", Mushroom); ("mdp_info", Mushroom); ("next_action", NoneM); ("policy", Mushroom)]
  [].
(** algorithms/policy_search/black_box_optimization/black_box_optimization.py:9 *)
Definition k_BlackBoxOptimization : klass := K "BlackBoxOptimization"
  ["_agent_backend"; "_agent_preprocessors"; "_context_builder"; "_core_preprocessors"; "_deterministic"; "_env_backend"; "_info"; "distribution"; "next_action"; "policy"]
  [("_agent_backend", Primitive); ("_agent_preprocessors", Mushroom); ("_context_builder", Mushroom); ("_core_preprocessors", Mushroom); ("_deterministic", Primitive); ("_env_backend", Primitive); ("_info", Mushroom); ("_logger", NoneM); ("distribution", Mushroom); ("mdp_info", Mushroom); ("next_action", NoneM); ("policy", Mushroom)]
  [].
(** policy/td_policy.py:116 *)
Definition k_Boltzmann : klass := K "Boltzmann"
  ["_approximator"; "_beta"; "_predict_params"; "policy_state_shape"]
  [("_approximator", Opt Mushroom); ("_beta", Mushroom); ("_predict_params", Pickle); ("policy_state_shape", Primitive)]
  [].
(** policy/torch_policy.py:240 *)
Definition k_BoltzmannTorchPolicy : klass := K "BoltzmannTorchPolicy"
  ["_beta"; "_logits"; "_predict_params"; "policy_state_shape"]
  [("_action_dim", Primitive); ("_beta", Mushroom); ("_logits", Mushroom); ("_predict_params", Pickle); ("policy_state_shape", Primitive)]
  [].
(** algorithms/value/batch_td/boosted_fqi.py:7 *)
Definition k_BoostedFQI : klass := K "BoostedFQI"
  ["_agent_backend"; "_agent_preprocessors"; "_core_preprocessors"; "_env_backend"; "_fit_params"; "_idx"; "_info"; "_n_iterations"; "_next_q"; "_prediction"; "_quiet"; "_target"; "approximator"; "mdp_info"; "next_action"; "policy"]
  [("_agent_backend", Primitive); ("_agent_preprocessors", Mushroom); ("_core_preprocessors", Mushroom); ("_env_backend", Primitive); ("_fit_params", Pickle); ("_idx", Primitive); ("_info", Mushroom); ("_logger", NoneM); ("_n_iterations", Primitive); ("_next_q", Numpy); ("_prediction", Primitive); ("_quiet", Primitive); ("_target", Pickle); ("approximator", Mushroom); ("mdp_info", Mushroom); ("next_action", NoneM); ("policy", Mushroom)]
  [].
(** rl_utils/spaces.py:6 *)
Definition k_Box : klass := K "Box"
  ["_data_type"; "_high"; "_low"; "_shape"]
  [("_data_type", Primitive); ("_high", Numpy); ("_low", Numpy)]
  ["_shape"].
(** approximators/parametric/cmac.py:7 *)
Definition k_CMAC : klass := K "CMAC"
  ["_phi"; "_w"]
  [("_n", Primitive); ("_phi", Pickle); ("_w", Numpy)]
  [].
(** algorithms/actor_critic/classic_actor_critic/copdac_q.py:10 *)
Definition k_COPDAC_Q : klass := K "COPDAC_Q"
  ["_A"; "_V"; "_agent_backend"; "_agent_preprocessors"; "_alpha_omega"; "_alpha_theta"; "_alpha_v"; "_core_preprocessors"; "_env_backend"; "_info"; "_mu"; "_psi"; "mdp_info"; "next_action"; "policy"]
  [("_A", Mushroom); ("_V", Mushroom); ("_agent_backend", Primitive); ("_agent_preprocessors", Mushroom); ("_alpha_omega", Mushroom); ("_alpha_theta", Mushroom); ("_alpha_v", Mushroom); ("_core_preprocessors", Mushroom); ("_env_backend", Primitive); ("_info", Mushroom); ("_logger", NoneM); ("_mu", Mushroom); ("_psi", Pickle); ("mdp_info", Mushroom); ("next_action", NoneM); ("policy", Mushroom)]
  [].
(** algorithms/value/dqn/categorical_dqn.py:76 *)
Definition k_CategoricalDQN : klass := K "CategoricalDQN"
  ["_a_values"; "_agent_backend"; "_agent_preprocessors"; "_batch_size"; "_clip_reward"; "_core_preprocessors"; "_delta"; "_env_backend"; "_fit_params"; "_info"; "_n_atoms"; "_n_updates"; "_predict_params"; "_replay_memory"; "_target_update_frequency"; "_v_max"; "_v_min"; "approximator"; "mdp_info"; "next_action"; "policy"; "target_approximator"]
  [("_a_values", Numpy); ("_agent_backend", Primitive); ("_agent_preprocessors", Mushroom); ("_batch_size", Mushroom); ("_clip_reward", Primitive); ("_core_preprocessors", Mushroom); ("_delta", Primitive); ("_env_backend", Primitive); ("_fit_params", Pickle); ("_info", Mushroom); ("_logger", NoneM); ("_n_approximators", Primitive); ("_n_atoms", Primitive); ("_n_updates", Primitive); ("_predict_params", Pickle); ("_replay_memory", Mushroom); ("_target_update_frequency", Primitive); ("_v_max", Primitive); ("_v_min", Primitive); ("approximator", Mushroom); ("mdp_info", Mushroom); ("next_action", NoneM); ("policy", Mushroom); ("target_approximator", Mushroom)]
  ["_fit"].
(** distributions/torch_distribution.py:100 *)
Definition k_CholeskyGaussianTorchDistribution : klass := K "CholeskyGaussianTorchDistribution"
  ["_chol_sigma"; "_context_shape"; "_mu"]
  [("_chol_sigma", Torch); ("_context_shape", Primitive); ("_mu", Torch)]
  [].
(** policy/noise_policy.py:75 *)
Definition k_ClippedGaussianPolicy : klass := K "ClippedGaussianPolicy"
  ["_approximator"; "_chol_sigma"; "_high"; "_low"; "_predict_params"; "policy_state_shape"]
  [("_approximator", Mushroom); ("_chol_sigma", Torch); ("_high", Torch); ("_low", Torch); ("_predict_params", Pickle); ("policy_state_shape", Primitive)]
  [].
(** algorithms/policy_search/black_box_optimization/constrained_reps.py:7 *)
Definition k_ConstrainedREPS : klass := K "ConstrainedREPS"
  ["_agent_backend"; "_agent_preprocessors"; "_context_builder"; "_core_preprocessors"; "_deterministic"; "_env_backend"; "_eps"; "_info"; "_kappa"; "distribution"; "next_action"; "policy"]
  [("_agent_backend", Primitive); ("_agent_preprocessors", Mushroom); ("_context_builder", Mushroom); ("_core_preprocessors", Mushroom); ("_deterministic", Primitive); ("_env_backend", Primitive); ("_eps", Mushroom); ("_info", Mushroom); ("_kappa", Mushroom); ("_logger", NoneM); ("distribution", Mushroom); ("mdp_info", Mushroom); ("next_action", NoneM); ("policy", Mushroom)]
  [].
(** algorithms/policy_search/black_box_optimization/context_builder.py:4 *)
Definition k_ContextBuilder : klass := K "ContextBuilder"
  ["_context_shape"]
  [("_context_shape", Primitive)]
  [].
(** algorithms/actor_critic/deep_actor_critic/ddpg.py:13 *)
Definition k_DDPG : klass := K "DDPG"
  ["_actor_approximator"; "_actor_predict_params"; "_agent_backend"; "_agent_preprocessors"; "_batch_size"; "_clipping"; "_clipping_params"; "_core_preprocessors"; "_critic_approximator"; "_critic_fit_params"; "_critic_predict_params"; "_env_backend"; "_fit_count"; "_info"; "_optimizer"; "_parameters"; "_policy_delay"; "_replay_memory"; "_target_actor_approximator"; "_target_critic_approximator"; "_tau"; "mdp_info"; "next_action"; "policy"]
  [("_actor_predict_params", Pickle); ("_agent_backend", Primitive); ("_agent_preprocessors", Mushroom); ("_batch_size", Mushroom); ("_clipping", Torch); ("_clipping_params", Pickle); ("_core_preprocessors", Mushroom); ("_critic_approximator", Mushroom); ("_critic_fit_params", Pickle); ("_critic_predict_params", Pickle); ("_env_backend", Primitive); ("_fit_count", Primitive); ("_info", Mushroom); ("_logger", NoneM); ("_optimizer", Torch); ("_policy_delay", Mushroom); ("_replay_memory", Mushroom); ("_target_actor_approximator", Mushroom); ("_target_critic_approximator", Mushroom); ("_tau", Mushroom); ("mdp_info", Mushroom); ("next_action", NoneM); ("policy", Mushroom)]
  ["_actor_approximator"; "_parameters"].
(** policy/dmp.py:6 *)
Definition k_DMP : klass := K "DMP"
  ["_alpha_v"; "_alpha_z"; "_approximator"; "_beta_v"; "_beta_z"; "_dt"; "_g"; "_phi"; "_tau"; "_v"; "_x"; "_y"; "_z"; "policy_state_shape"]
  [("_alpha_v", Numpy); ("_alpha_z", Numpy); ("_approximator", Mushroom); ("_beta_v", Numpy); ("_beta_z", Numpy); ("_dt", Primitive); ("_g", Numpy); ("_phi", Mushroom); ("_tau", Primitive); ("_v", Numpy); ("_x", Numpy); ("_y", Numpy); ("_z", Numpy); ("policy_state_shape", Primitive)]
  [].
(** algorithms/value/dqn/dqn.py:4 *)
Definition k_DQN : klass := K "DQN"
  ["_agent_backend"; "_agent_preprocessors"; "_batch_size"; "_clip_reward"; "_core_preprocessors"; "_env_backend"; "_fit"; "_fit_params"; "_info"; "_n_updates"; "_predict_params"; "_replay_memory"; "_target_update_frequency"; "approximator"; "mdp_info"; "next_action"; "policy"; "target_approximator"]
  [("_agent_backend", Primitive); ("_agent_preprocessors", Mushroom); ("_batch_size", Mushroom); ("_clip_reward", Primitive); ("_core_preprocessors", Mushroom); ("_env_backend", Primitive); ("_fit_params", Pickle); ("_info", Mushroom); ("_logger", NoneM); ("_n_approximators", Primitive); ("_n_updates", Primitive); ("_predict_params", Pickle); ("_replay_memory", Mushroom); ("_target_update_frequency", Primitive); ("approximator", Mushroom); ("mdp_info", Mushroom); ("next_action", NoneM); ("policy", Mushroom); ("target_approximator", Mushroom)]
  ["_fit"].
(** core/dataset.py:77 *)
Definition k_Dataset : klass := K "Dataset"
  ["_array_backend"; "_data"; "_dataset_info"; "_episode_info"; "_info"; "_theta_list"]
  [("_array_backend", Primitive); ("_data", Mushroom); ("_dataset_info", Mushroom); ("_episode_info", Mushroom); ("_info", Mushroom); ("_theta_list", Pickle)]
  [].
(** core/dataset.py:14 *)
Definition k_DatasetInfo : klass := K "DatasetInfo"
  ["device"; "policy_state_shape"]
  [("action_dtype", Primitive); ("action_shape", Primitive); ("backend", Primitive); ("gamma", Primitive); ("horizon", Primitive); ("n_envs", Primitive); ("policy_state_shape", Primitive); ("state_dtype", Primitive); ("state_shape", Primitive)]
  [].
(** rl_utils/parameters.py:155 *)
Definition k_DecayParameter : klass := K "DecayParameter"
  ["_exp"; "_initial_value"; "_max_value"; "_min_value"; "_n_updates"]
  [("_exp", Primitive); ("_initial_value", Primitive); ("_max_value", Primitive); ("_min_value", Primitive); ("_n_updates", Mushroom)]
  [].
(** algorithms/actor_critic/deep_actor_critic/deep_actor_critic.py:22 *)
Definition k_DeepAC : klass := K "DeepAC"
  ["_agent_backend"; "_agent_preprocessors"; "_clipping"; "_clipping_params"; "_core_preprocessors"; "_env_backend"; "_info"; "_optimizer"; "_parameters"; "next_action"; "policy"]
  [("_agent_backend", Primitive); ("_agent_preprocessors", Mushroom); ("_clipping", Torch); ("_clipping_params", Pickle); ("_core_preprocessors", Mushroom); ("_env_backend", Primitive); ("_info", Mushroom); ("_logger", NoneM); ("_optimizer", Torch); ("mdp_info", Mushroom); ("next_action", NoneM); ("policy", Mushroom)]
  [].
(** policy/deterministic_policy.py:5 *)
Definition k_DeterministicPolicy : klass := K "DeterministicPolicy"
  ["_approximator"; "_predict_params"; "policy_state_shape"]
  [("_approximator", Mushroom); ("_predict_params", Pickle); ("policy_state_shape", Primitive)]
  [].
(** policy/gaussian_policy.py:107 *)
Definition k_DiagonalGaussianPolicy : klass := K "DiagonalGaussianPolicy"
  ["_approximator"; "_predict_params"; "_std"; "policy_state_shape"]
  [("_approximator", Mushroom); ("_predict_params", Pickle); ("_std", Numpy); ("policy_state_shape", Primitive)]
  [].
(** distributions/torch_distribution.py:63 *)
Definition k_DiagonalGaussianTorchDistribution : klass := K "DiagonalGaussianTorchDistribution"
  ["_context_shape"; "_log_sigma"; "_mu"]
  [("_context_shape", Primitive); ("_log_sigma", Torch); ("_mu", Torch)]
  [].
(** rl_utils/spaces.py:89 *)
Definition k_Discrete : klass := K "Discrete"
  ["n"]
  [("n", Primitive); ("values", Numpy)]
  [].
(** distributions/distribution.py:4 *)
Definition k_Distribution : klass := K "Distribution"
  ["_context_shape"]
  [("_context_shape", Primitive)]
  [].
(** algorithms/value/dqn/double_dqn.py:6 *)
Definition k_DoubleDQN : klass := K "DoubleDQN"
  ["_agent_backend"; "_agent_preprocessors"; "_batch_size"; "_clip_reward"; "_core_preprocessors"; "_env_backend"; "_fit"; "_fit_params"; "_info"; "_n_updates"; "_predict_params"; "_replay_memory"; "_target_update_frequency"; "approximator"; "mdp_info"; "next_action"; "policy"; "target_approximator"]
  [("_agent_backend", Primitive); ("_agent_preprocessors", Mushroom); ("_batch_size", Mushroom); ("_clip_reward", Primitive); ("_core_preprocessors", Mushroom); ("_env_backend", Primitive); ("_fit_params", Pickle); ("_info", Mushroom); ("_logger", NoneM); ("_n_approximators", Primitive); ("_n_updates", Primitive); ("_predict_params", Pickle); ("_replay_memory", Mushroom); ("_target_update_frequency", Primitive); ("approximator", Mushroom); ("mdp_info", Mushroom); ("next_action", NoneM); ("policy", Mushroom); ("target_approximator", Mushroom)]
  ["_fit"].
(** algorithms/value/batch_td/double_fqi.py:7 *)
Definition k_DoubleFQI : klass := K "DoubleFQI"
  ["_agent_backend"; "_agent_preprocessors"; "_core_preprocessors"; "_env_backend"; "_fit_params"; "_info"; "_n_iterations"; "_quiet"; "_target"; "approximator"; "mdp_info"; "next_action"; "policy"]
  [("_agent_backend", Primitive); ("_agent_preprocessors", Mushroom); ("_core_preprocessors", Mushroom); ("_env_backend", Primitive); ("_fit_params", Pickle); ("_info", Mushroom); ("_logger", NoneM); ("_n_iterations", Mushroom); ("_quiet", Primitive); ("_target", Pickle); ("approximator", Mushroom); ("mdp_info", Mushroom); ("next_action", NoneM); ("policy", Mushroom)]
  [].
(** algorithms/value/td/double_q_learning.py:8 *)
Definition k_DoubleQLearning : klass := K "DoubleQLearning"
  ["Q"; "_agent_backend"; "_agent_preprocessors"; "_alpha_double"; "_core_preprocessors"; "_env_backend"; "_info"; "mdp_info"; "next_action"; "policy"]
  [("Q", Mushroom); ("_agent_backend", Primitive); ("_agent_preprocessors", Mushroom); ("_alpha", Mushroom); ("_alpha_double", Primitive); ("_core_preprocessors", Mushroom); ("_env_backend", Primitive); ("_info", Mushroom); ("_logger", NoneM); ("mdp_info", Mushroom); ("next_action", NoneM); ("policy", Mushroom)]
  [].
(** algorithms/value/dqn/dueling_dqn.py:49 *)
Definition k_DuelingDQN : klass := K "DuelingDQN"
  ["_agent_backend"; "_agent_preprocessors"; "_batch_size"; "_clip_reward"; "_core_preprocessors"; "_env_backend"; "_fit"; "_fit_params"; "_info"; "_n_updates"; "_predict_params"; "_replay_memory"; "_target_update_frequency"; "approximator"; "mdp_info"; "next_action"; "policy"; "target_approximator"]
  [("_agent_backend", Primitive); ("_agent_preprocessors", Mushroom); ("_batch_size", Mushroom); ("_clip_reward", Primitive); ("_core_preprocessors", Mushroom); ("_env_backend", Primitive); ("_fit_params", Pickle); ("_info", Mushroom); ("_logger", NoneM); ("_n_approximators", Primitive); ("_n_updates", Primitive); ("_predict_params", Pickle); ("_replay_memory", Mushroom); ("_target_update_frequency", Primitive); ("approximator", Mushroom); ("mdp_info", Mushroom); ("next_action", NoneM); ("policy", Mushroom); ("target_approximator", Mushroom)]
  ["_fit"].
(** approximators/ensemble.py:8 *)
Definition k_Ensemble : klass := K "Ensemble"
  ["_model"; "_prediction"]
  [("_model", Dyn); ("_prediction", Primitive)]
  [].
(** approximators/ensemble_table.py:5 *)
Definition k_EnsembleTable : klass := K "EnsembleTable"
  ["_model"; "_prediction"]
  [("_model", Dyn); ("_prediction", Primitive)]
  [].
(** policy/td_policy.py:40 *)
Definition k_EpsGreedy : klass := K "EpsGreedy"
  ["_approximator"; "_epsilon"; "_predict_params"; "policy_state_shape"]
  [("_approximator", Opt Mushroom); ("_epsilon", Mushroom); ("_predict_params", Pickle); ("policy_state_shape", Primitive)]
  [].
(** algorithms/value/td/expected_sarsa.py:5 *)
Definition k_ExpectedSARSA : klass := K "ExpectedSARSA"
  ["Q"; "_agent_backend"; "_agent_preprocessors"; "_alpha"; "_core_preprocessors"; "_env_backend"; "_info"; "mdp_info"; "next_action"; "policy"]
  [("Q", Mushroom); ("_agent_backend", Primitive); ("_agent_preprocessors", Mushroom); ("_alpha", Mushroom); ("_core_preprocessors", Mushroom); ("_env_backend", Primitive); ("_info", Mushroom); ("_logger", NoneM); ("mdp_info", Mushroom); ("next_action", NoneM); ("policy", Mushroom)]
  [].
(** core/extra_info.py:6 *)
Definition k_ExtraInfo : klass := K "ExtraInfo"
  ["_array_backend"; "_device"; "_key_mapping"; "_n_envs"; "_shape_mapping"; "_storage"; "_structured_storage"]
  [("_key_mapping", Primitive); ("_shape_mapping", Primitive); ("_storage", Primitive); ("_structured_storage", Primitive); ("data", Primitive)]
  [].
(** algorithms/value/batch_td/fqi.py:8 *)
Definition k_FQI : klass := K "FQI"
  ["_agent_backend"; "_agent_preprocessors"; "_core_preprocessors"; "_env_backend"; "_fit_params"; "_info"; "_n_iterations"; "_quiet"; "_target"; "approximator"; "mdp_info"; "next_action"; "policy"]
  [("_agent_backend", Primitive); ("_agent_preprocessors", Mushroom); ("_core_preprocessors", Mushroom); ("_env_backend", Primitive); ("_fit_params", Pickle); ("_info", Mushroom); ("_logger", NoneM); ("_n_iterations", Mushroom); ("_quiet", Primitive); ("_target", Pickle); ("approximator", Mushroom); ("mdp_info", Mushroom); ("next_action", NoneM); ("policy", Mushroom)]
  [].
(** algorithms/policy_search/policy_gradient/gpomdp.py:6 *)
Definition k_GPOMDP : klass := K "GPOMDP"
  ["J_episode"; "_agent_backend"; "_agent_preprocessors"; "_core_preprocessors"; "_env_backend"; "_info"; "baseline_den"; "baseline_num"; "df"; "list_reward"; "list_reward_ep"; "list_sum_d_log_pi"; "list_sum_d_log_pi_ep"; "mdp_info"; "next_action"; "optimizer"; "policy"; "step_count"; "sum_d_log_pi"]
  [("J_episode", Numpy); ("_agent_backend", Primitive); ("_agent_preprocessors", Mushroom); ("_core_preprocessors", Mushroom); ("_env_backend", Primitive); ("_info", Mushroom); ("_logger", NoneM); ("baseline_den", Pickle); ("baseline_num", Pickle); ("df", Numpy); ("list_reward", Pickle); ("list_reward_ep", Pickle); ("list_sum_d_log_pi", Pickle); ("list_sum_d_log_pi_ep", Pickle); ("mdp_info", Mushroom); ("next_action", NoneM); ("optimizer", Mushroom); ("policy", Mushroom); ("step_count", Numpy); ("sum_d_log_pi", Numpy)]
  [].
(** distributions/gaussian.py:285 *)
Definition k_GaussianCholeskyDistribution : klass := K "GaussianCholeskyDistribution"
  ["_chol_sigma"; "_context_shape"; "_mu"]
  [("_chol_sigma", Numpy); ("_context_shape", Primitive); ("_mu", Numpy)]
  [].
(** distributions/gaussian.py:128 *)
Definition k_GaussianDiagonalDistribution : klass := K "GaussianDiagonalDistribution"
  ["_context_shape"; "_mu"; "_std"]
  [("_context_shape", Primitive); ("_mu", Numpy); ("_std", Numpy)]
  [].
(** distributions/gaussian.py:7 *)
Definition k_GaussianDistribution : klass := K "GaussianDistribution"
  ["_context_shape"; "_inv_sigma"; "_mu"; "_sigma"]
  [("_context_shape", Primitive); ("_inv_sigma", Numpy); ("_mu", Numpy); ("_sigma", Numpy)]
  [].
(** policy/gaussian_policy.py:30 *)
Definition k_GaussianPolicy : klass := K "GaussianPolicy"
  ["_approximator"; "_inv_sigma"; "_predict_params"; "_sigma"; "policy_state_shape"]
  [("_approximator", Mushroom); ("_inv_sigma", Numpy); ("_predict_params", Pickle); ("_sigma", Numpy); ("policy_state_shape", Primitive)]
  [].
(** policy/torch_policy.py:169 *)
Definition k_GaussianTorchPolicy : klass := K "GaussianTorchPolicy"
  ["_action_dim"; "_log_sigma"; "_mu"; "_predict_params"; "policy_state_shape"]
  [("_action_dim", Primitive); ("_log_sigma", Torch); ("_mu", Mushroom); ("_predict_params", Pickle); ("policy_state_shape", Primitive)]
  [].
(** approximators/_implementations/generic_regressor.py:4 *)
Definition k_GenericRegressor : klass := K "GenericRegressor"
  ["model"]
  [("_n_inputs", Primitive); ("model", Dyn)]
  [].
(** algorithms/value/batch_td/lspi.py:9 *)
Definition k_LSPI : klass := K "LSPI"
  ["_agent_backend"; "_agent_preprocessors"; "_core_preprocessors"; "_env_backend"; "_epsilon"; "_info"; "approximator"; "mdp_info"; "next_action"; "policy"]
  [("_agent_backend", Primitive); ("_agent_preprocessors", Mushroom); ("_core_preprocessors", Mushroom); ("_env_backend", Primitive); ("_epsilon", Mushroom); ("_fit_params", Pickle); ("_info", Mushroom); ("_logger", NoneM); ("approximator", Mushroom); ("mdp_info", Mushroom); ("next_action", NoneM); ("policy", Mushroom)]
  [].
(** approximators/parametric/linear.py:6 *)
Definition k_LinearApproximator : klass := K "LinearApproximator"
  ["_phi"; "_w"]
  [("_phi", Pickle); ("_w", Numpy)]
  [].
(** rl_utils/parameters.py:118 *)
Definition k_LinearParameter : klass := K "LinearParameter"
  ["_coeff"; "_initial_value"; "_max_value"; "_min_value"; "_n_updates"]
  [("_coeff", Primitive); ("_initial_value", Primitive); ("_max_value", Primitive); ("_min_value", Primitive); ("_n_updates", Mushroom)]
  [].
(** core/_impl/list_dataset.py:6 *)
Definition k_ListDataset : klass := K "ListDataset"
  ["_dataset"; "_is_stateful"; "_mask"; "_policy_dataset"]
  [("_dataset", Pickle); ("_is_stateful", Primitive); ("_policy_dataset", Pickle)]
  [].
(** core/environment.py:7 *)
Definition k_MDPInfo : klass := K "MDPInfo"
  ["action_space"; "observation_space"]
  [("action_space", Mushroom); ("backend", Primitive); ("dt", Primitive); ("gamma", Primitive); ("horizon", Primitive); ("observation_space", Mushroom)]
  [].
(** algorithms/policy_search/black_box_optimization/more.py:13 *)
Definition k_MORE : klass := K "MORE"
  ["_agent_backend"; "_agent_preprocessors"; "_context_builder"; "_core_preprocessors"; "_deterministic"; "_env_backend"; "_info"; "distribution"; "eps"; "h0"; "kappa"; "next_action"; "phi_linear_"; "phi_quadratic_"; "policy"; "regressor_linear"; "regressor_quadratic"]
  [("_agent_backend", Primitive); ("_agent_preprocessors", Mushroom); ("_context_builder", Mushroom); ("_core_preprocessors", Mushroom); ("_deterministic", Primitive); ("_env_backend", Primitive); ("_info", Mushroom); ("_logger", NoneM); ("distribution", Mushroom); ("eps", Primitive); ("h0", Primitive); ("kappa", Primitive); ("mdp_info", Mushroom); ("next_action", NoneM); ("policy", Mushroom)]
  [].
(** algorithms/value/dqn/maxmin_dqn.py:7 *)
Definition k_MaxminDQN : klass := K "MaxminDQN"
  ["_agent_backend"; "_agent_preprocessors"; "_batch_size"; "_clip_reward"; "_core_preprocessors"; "_env_backend"; "_fit"; "_fit_params"; "_info"; "_n_approximators"; "_n_updates"; "_predict_params"; "_replay_memory"; "_target_update_frequency"; "approximator"; "mdp_info"; "next_action"; "policy"; "target_approximator"]
  [("_agent_backend", Primitive); ("_agent_preprocessors", Mushroom); ("_batch_size", Mushroom); ("_clip_reward", Primitive); ("_core_preprocessors", Mushroom); ("_env_backend", Primitive); ("_fit_params", Pickle); ("_info", Mushroom); ("_logger", NoneM); ("_n_approximators", Primitive); ("_n_updates", Primitive); ("_predict_params", Pickle); ("_replay_memory", Mushroom); ("_target_update_frequency", Primitive); ("approximator", Mushroom); ("mdp_info", Mushroom); ("next_action", NoneM); ("policy", Mushroom); ("target_approximator", Mushroom)]
  ["_fit"].
(** algorithms/value/td/maxmin_q_learning.py:8 *)
Definition k_MaxminQLearning : klass := K "MaxminQLearning"
  ["Q"; "_agent_backend"; "_agent_preprocessors"; "_alpha_mm"; "_core_preprocessors"; "_env_backend"; "_info"; "_n_tables"; "mdp_info"; "next_action"; "policy"]
  [("Q", Mushroom); ("_agent_backend", Primitive); ("_agent_preprocessors", Mushroom); ("_alpha", Mushroom); ("_alpha_mm", Primitive); ("_core_preprocessors", Mushroom); ("_env_backend", Primitive); ("_info", Mushroom); ("_logger", NoneM); ("_n_tables", Primitive); ("mdp_info", Mushroom); ("next_action", NoneM); ("policy", Mushroom)]
  [].
(** policy/td_policy.py:176 *)
Definition k_Mellowmax : klass := K "Mellowmax"
  ["_approximator"; "_beta"; "_predict_params"; "policy_state_shape"]
  [("_approximator", Opt Mushroom); ("_beta", Mushroom); ("_predict_params", Pickle); ("policy_state_shape", Primitive)]
  [].
(** policy/td_policy.py:183 *)
Definition k_MellowmaxParameter : klass := K "MellowmaxParameter"
  ["_beta_max"; "_beta_min"; "_initial_value"; "_max_value"; "_min_value"; "_n_updates"; "_omega"; "_outer"]
  [("_beta_max", Primitive); ("_beta_min", Primitive); ("_initial_value", Primitive); ("_max_value", Primitive); ("_min_value", Primitive); ("_n_updates", Mushroom); ("_omega", Primitive); ("_outer", Primitive)]
  [].
(** rl_utils/preprocessors.py:83 *)
Definition k_MinMaxPreprocessor : klass := K "MinMaxPreprocessor"
  ["_array_backend"; "_clip_obs"; "_obs_delta"; "_obs_mask"; "_obs_mean"; "_obs_runstand"; "_run_norm_obs"]
  [("_array_backend", Pickle); ("_clip_obs", Primitive); ("_obs_delta", Numpy); ("_obs_mask", Numpy); ("_obs_mean", Numpy); ("_obs_runstand", Mushroom); ("_obs_shape", Primitive); ("_run_norm_obs", Primitive)]
  [].
(** algorithms/value/dqn/noisy_dqn.py:85 *)
Definition k_NoisyDQN : klass := K "NoisyDQN"
  ["_agent_backend"; "_agent_preprocessors"; "_batch_size"; "_clip_reward"; "_core_preprocessors"; "_env_backend"; "_fit"; "_fit_params"; "_info"; "_n_updates"; "_predict_params"; "_replay_memory"; "_target_update_frequency"; "approximator"; "mdp_info"; "next_action"; "policy"; "target_approximator"]
  [("_agent_backend", Primitive); ("_agent_preprocessors", Mushroom); ("_batch_size", Mushroom); ("_clip_reward", Primitive); ("_core_preprocessors", Mushroom); ("_env_backend", Primitive); ("_fit_params", Pickle); ("_info", Mushroom); ("_logger", NoneM); ("_n_approximators", Primitive); ("_n_updates", Primitive); ("_predict_params", Pickle); ("_replay_memory", Mushroom); ("_target_update_frequency", Primitive); ("approximator", Mushroom); ("mdp_info", Mushroom); ("next_action", NoneM); ("policy", Mushroom); ("target_approximator", Mushroom)]
  ["_fit"].
(** core/_impl/numpy_dataset.py:6 *)
Definition k_NumpyDataset : klass := K "NumpyDataset"
  ["_absorbing"; "_actions"; "_last"; "_len"; "_mask"; "_next_states"; "_policy_next_states"; "_policy_states"; "_rewards"; "_states"]
  [("_absorbing", Numpy); ("_action_type", Primitive); ("_actions", Numpy); ("_last", Numpy); ("_len", Primitive); ("_mask", Numpy); ("_next_states", Numpy); ("_policy_next_states", Numpy); ("_policy_states", Numpy); ("_rewards", Numpy); ("_state_type", Primitive); ("_states", Numpy)]
  [].
(** approximators/parametric/torch_approximator.py:318 *)
Definition k_NumpyTorchApproximator : klass := K "NumpyTorchApproximator"
  ["_batch_size"; "_dropout"; "_last_loss"; "_loss"; "_n_fit_targets"; "_optimizer"; "_quiet"; "_reinitialize"; "network"]
  [("_batch_size", Primitive); ("_dropout", Primitive); ("_last_loss", NoneM); ("_loss", Pickle); ("_n_fit_targets", Primitive); ("_optimizer", Torch); ("_quiet", Primitive); ("_reinitialize", Primitive); ("network", Torch)]
  [].
(** algorithms/actor_critic/deep_actor_critic/deep_actor_critic.py:5 *)
Definition k_OnPolicyDeepAC : klass := K "OnPolicyDeepAC"
  ["_agent_backend"; "_agent_preprocessors"; "_core_preprocessors"; "_env_backend"; "_info"; "next_action"; "policy"]
  [("_agent_backend", Primitive); ("_agent_preprocessors", Mushroom); ("_core_preprocessors", Mushroom); ("_env_backend", Primitive); ("_info", Mushroom); ("_logger", NoneM); ("mdp_info", Mushroom); ("next_action", NoneM); ("policy", Mushroom)]
  [].
(** rl_utils/optimizers.py:7 *)
Definition k_Optimizer : klass := K "Optimizer"
  []
  [("_lr", Mushroom); ("_maximize", Primitive)]
  [].
(** policy/noise_policy.py:7 *)
Definition k_OrnsteinUhlenbeckPolicy : klass := K "OrnsteinUhlenbeckPolicy"
  ["_approximator"; "_dt"; "_predict_params"; "_sigma"; "_theta"; "_x0"; "policy_state_shape"]
  [("_approximator", Mushroom); ("_dt", Primitive); ("_predict_params", Pickle); ("_sigma", Torch); ("_theta", Primitive); ("_x0", Torch); ("policy_state_shape", Primitive)]
  [].
(** algorithms/policy_search/black_box_optimization/pgpe.py:6 *)
Definition k_PGPE : klass := K "PGPE"
  ["_agent_backend"; "_agent_preprocessors"; "_context_builder"; "_core_preprocessors"; "_deterministic"; "_env_backend"; "_info"; "distribution"; "next_action"; "optimizer"; "policy"]
  [("_agent_backend", Primitive); ("_agent_preprocessors", Mushroom); ("_context_builder", Mushroom); ("_core_preprocessors", Mushroom); ("_deterministic", Primitive); ("_env_backend", Primitive); ("_info", Mushroom); ("_logger", NoneM); ("distribution", Mushroom); ("mdp_info", Mushroom); ("next_action", NoneM); ("optimizer", Mushroom); ("policy", Mushroom)]
  [].
(** algorithms/actor_critic/deep_actor_critic/ppo.py:15 *)
Definition k_PPO : klass := K "PPO"
  ["_V"; "_agent_backend"; "_agent_preprocessors"; "_batch_size"; "_core_preprocessors"; "_critic_fit_params"; "_ent_coeff"; "_env_backend"; "_eps_ppo"; "_info"; "_iter"; "_lambda"; "_logger"; "_n_epochs_policy"; "_optimizer"; "mdp_info"; "next_action"; "policy"]
  [("_V", Mushroom); ("_agent_backend", Primitive); ("_agent_preprocessors", Mushroom); ("_batch_size", Mushroom); ("_core_preprocessors", Mushroom); ("_critic_fit_params", Pickle); ("_ent_coeff", Mushroom); ("_env_backend", Primitive); ("_eps_ppo", Mushroom); ("_info", Mushroom); ("_iter", Primitive); ("_lambda", Mushroom); ("_logger", NoneM); ("_n_epochs_policy", Mushroom); ("_optimizer", Torch); ("mdp_info", Mushroom); ("next_action", NoneM); ("policy", Mushroom)]
  [].
(** algorithms/actor_critic/deep_actor_critic/ppo_bptt.py:11 *)
Definition k_PPO_BPTT : klass := K "PPO_BPTT"
  ["_V"; "_agent_backend"; "_agent_preprocessors"; "_batch_size"; "_core_preprocessors"; "_critic_fit_params"; "_ent_coeff"; "_env_backend"; "_eps_ppo"; "_info"; "_iter"; "_lambda"; "_n_epochs_policy"; "_optimizer"; "_truncation_length"; "mdp_info"; "next_action"; "policy"]
  [("_V", Mushroom); ("_agent_backend", Primitive); ("_agent_preprocessors", Mushroom); ("_batch_size", Mushroom); ("_core_preprocessors", Mushroom); ("_critic_fit_params", Pickle); ("_dim_env_state", Primitive); ("_ent_coeff", Mushroom); ("_env_backend", Primitive); ("_eps_ppo", Mushroom); ("_info", Mushroom); ("_iter", Primitive); ("_lambda", Mushroom); ("_logger", NoneM); ("_n_epochs_policy", Mushroom); ("_optimizer", Torch); ("mdp_info", Mushroom); ("next_action", NoneM); ("policy", Mushroom)]
  [].
(** rl_utils/parameters.py:14 *)
Definition k_Parameter : klass := K "Parameter"
  ["_initial_value"; "_max_value"; "_min_value"; "_n_updates"]
  [("_initial_value", Primitive); ("_max_value", Primitive); ("_min_value", Primitive); ("_n_updates", Mushroom)]
  [].
(** policy/policy.py:74 *)
Definition k_ParametricPolicy : klass := K "ParametricPolicy"
  ["policy_state_shape"]
  [("policy_state_shape", Primitive)]
  [].
(** policy/policy.py:4 *)
Definition k_Policy : klass := K "Policy"
  ["policy_state_shape"]
  [("policy_state_shape", Primitive)]
  [].
(** algorithms/policy_search/policy_gradient/policy_gradient.py:6 *)
Definition k_PolicyGradient : klass := K "PolicyGradient"
  ["J_episode"; "_agent_backend"; "_agent_preprocessors"; "_core_preprocessors"; "_env_backend"; "_info"; "df"; "mdp_info"; "next_action"; "optimizer"; "policy"]
  [("J_episode", Numpy); ("_agent_backend", Primitive); ("_agent_preprocessors", Mushroom); ("_core_preprocessors", Mushroom); ("_env_backend", Primitive); ("_info", Mushroom); ("_logger", NoneM); ("df", Numpy); ("mdp_info", Mushroom); ("next_action", NoneM); ("optimizer", Mushroom); ("policy", Mushroom)]
  [].
(** rl_utils/preprocessors.py:7 *)
Definition k_Preprocessor : klass := K "Preprocessor"
  []
  []
  [].
(** rl_utils/replay_memory.py:469 *)
Definition k_PrioritizedReplayMemory : klass := K "PrioritizedReplayMemory"
  ["_alpha"; "_beta"; "_epsilon"; "_initial_size"; "_tree"]
  [("_alpha", Primitive); ("_beta", Primitive); ("_epsilon", Primitive); ("_initial_size", Primitive); ("_max_size", Primitive); ("_tree", Mushroom)]
  [].
(** policy/promps.py:7 *)
Definition k_ProMP : klass := K "ProMP"
  ["_approximator"; "_duration"; "_periodic"; "_phi"; "_sigma"; "policy_state_shape"]
  [("_approximator", Mushroom); ("_duration", Primitive); ("_periodic", Primitive); ("_phi", Mushroom); ("_sigma", Numpy); ("policy_state_shape", Primitive)]
  [].
(** algorithms/value/td/q_lambda.py:9 *)
Definition k_QLambda : klass := K "QLambda"
  ["Q"; "_agent_backend"; "_agent_preprocessors"; "_alpha"; "_core_preprocessors"; "_env_backend"; "_info"; "_lambda"; "e"; "mdp_info"; "next_action"; "policy"]
  [("Q", Mushroom); ("_agent_backend", Primitive); ("_agent_preprocessors", Mushroom); ("_alpha", Mushroom); ("_core_preprocessors", Mushroom); ("_env_backend", Primitive); ("_info", Mushroom); ("_lambda", Mushroom); ("_logger", NoneM); ("e", Mushroom); ("mdp_info", Mushroom); ("next_action", NoneM); ("policy", Mushroom)]
  [].
(** algorithms/value/td/q_learning.py:7 *)
Definition k_QLearning : klass := K "QLearning"
  ["Q"; "_agent_backend"; "_agent_preprocessors"; "_alpha"; "_core_preprocessors"; "_env_backend"; "_info"; "mdp_info"; "next_action"; "policy"]
  [("Q", Mushroom); ("_agent_backend", Primitive); ("_agent_preprocessors", Mushroom); ("_alpha", Mushroom); ("_core_preprocessors", Mushroom); ("_env_backend", Primitive); ("_info", Mushroom); ("_logger", NoneM); ("mdp_info", Mushroom); ("next_action", NoneM); ("policy", Mushroom)]
  [].
(** approximators/_implementations/q_regressor.py:5 *)
Definition k_QRegressor : klass := K "QRegressor"
  ["model"]
  [("model", Dyn)]
  [].
(** algorithms/value/dqn/quantile_dqn.py:67 *)
Definition k_QuantileDQN : klass := K "QuantileDQN"
  ["_agent_backend"; "_agent_preprocessors"; "_batch_size"; "_clip_reward"; "_core_preprocessors"; "_env_backend"; "_fit_params"; "_info"; "_n_updates"; "_predict_params"; "_replay_memory"; "_target_update_frequency"; "approximator"; "mdp_info"; "next_action"; "policy"; "target_approximator"]
  [("_agent_backend", Primitive); ("_agent_preprocessors", Mushroom); ("_batch_size", Mushroom); ("_clip_reward", Primitive); ("_core_preprocessors", Mushroom); ("_env_backend", Primitive); ("_fit_params", Pickle); ("_info", Mushroom); ("_logger", NoneM); ("_n_approximators", Primitive); ("_n_quantiles", Primitive); ("_n_updates", Primitive); ("_predict_params", Pickle); ("_replay_memory", Mushroom); ("_target_update_frequency", Primitive); ("approximator", Mushroom); ("mdp_info", Mushroom); ("next_action", NoneM); ("policy", Mushroom); ("target_approximator", Mushroom)]
  ["_fit"].
(** algorithms/policy_search/policy_gradient/reinforce.py:6 *)
Definition k_REINFORCE : klass := K "REINFORCE"
  ["J_episode"; "_agent_backend"; "_agent_preprocessors"; "_core_preprocessors"; "_env_backend"; "_info"; "baseline_den"; "baseline_num"; "df"; "list_sum_d_log_pi"; "mdp_info"; "next_action"; "optimizer"; "policy"; "sum_d_log_pi"]
  [("J_episode", Numpy); ("_agent_backend", Primitive); ("_agent_preprocessors", Mushroom); ("_core_preprocessors", Mushroom); ("_env_backend", Primitive); ("_info", Mushroom); ("_logger", NoneM); ("baseline_den", Pickle); ("baseline_num", Pickle); ("df", Numpy); ("list_sum_d_log_pi", Pickle); ("mdp_info", Mushroom); ("next_action", NoneM); ("optimizer", Mushroom); ("policy", Mushroom); ("sum_d_log_pi", Numpy)]
  [].
(** algorithms/policy_search/black_box_optimization/reps.py:9 *)
Definition k_REPS : klass := K "REPS"
  ["_agent_backend"; "_agent_preprocessors"; "_context_builder"; "_core_preprocessors"; "_deterministic"; "_env_backend"; "_eps"; "_info"; "distribution"; "next_action"; "policy"]
  [("_agent_backend", Primitive); ("_agent_preprocessors", Mushroom); ("_context_builder", Mushroom); ("_core_preprocessors", Mushroom); ("_deterministic", Primitive); ("_env_backend", Primitive); ("_eps", Mushroom); ("_info", Mushroom); ("_logger", NoneM); ("distribution", Mushroom); ("mdp_info", Mushroom); ("next_action", NoneM); ("policy", Mushroom)]
  [].
(** algorithms/value/td/r_learning.py:9 *)
Definition k_RLearning : klass := K "RLearning"
  ["Q"; "_agent_backend"; "_agent_preprocessors"; "_alpha"; "_beta"; "_core_preprocessors"; "_env_backend"; "_info"; "_rho"; "next_action"; "policy"]
  [("Q", Mushroom); ("_agent_backend", Primitive); ("_agent_preprocessors", Mushroom); ("_alpha", Mushroom); ("_beta", Mushroom); ("_core_preprocessors", Mushroom); ("_env_backend", Primitive); ("_info", Mushroom); ("_logger", NoneM); ("_rho", Primitive); ("mdp_info", Mushroom); ("next_action", NoneM); ("policy", Mushroom)]
  [].
(** algorithms/value/td/rq_learning.py:8 *)
Definition k_RQLearning : klass := K "RQLearning"
  ["Q"; "Q_tilde"; "R_tilde"; "_agent_backend"; "_agent_preprocessors"; "_alpha"; "_core_preprocessors"; "_env_backend"; "_info"; "beta"; "delta"; "mdp_info"; "next_action"; "off_policy"; "policy"]
  [("Q", Mushroom); ("Q_tilde", Mushroom); ("R_tilde", Mushroom); ("_agent_backend", Primitive); ("_agent_preprocessors", Mushroom); ("_alpha", Mushroom); ("_core_preprocessors", Mushroom); ("_env_backend", Primitive); ("_info", Mushroom); ("_logger", NoneM); ("beta", Mushroom); ("delta", Mushroom); ("mdp_info", Mushroom); ("next_action", NoneM); ("off_policy", Primitive); ("policy", Mushroom)]
  [].
(** algorithms/policy_search/black_box_optimization/rwr.py:7 *)
Definition k_RWR : klass := K "RWR"
  ["_agent_backend"; "_agent_preprocessors"; "_beta"; "_context_builder"; "_core_preprocessors"; "_deterministic"; "_env_backend"; "_info"; "distribution"; "next_action"; "policy"]
  [("_agent_backend", Primitive); ("_agent_preprocessors", Mushroom); ("_beta", Mushroom); ("_context_builder", Mushroom); ("_core_preprocessors", Mushroom); ("_deterministic", Primitive); ("_env_backend", Primitive); ("_info", Mushroom); ("_logger", NoneM); ("distribution", Mushroom); ("mdp_info", Mushroom); ("next_action", NoneM); ("policy", Mushroom)]
  [].
(** algorithms/value/dqn/rainbow.py:67 *)
Definition k_Rainbow : klass := K "Rainbow"
  ["_a_values"; "_agent_backend"; "_agent_preprocessors"; "_batch_size"; "_clip_reward"; "_core_preprocessors"; "_delta"; "_env_backend"; "_fit_params"; "_info"; "_n_atoms"; "_n_steps_return"; "_n_updates"; "_predict_params"; "_replay_memory"; "_target_update_frequency"; "_v_max"; "_v_min"; "approximator"; "mdp_info"; "next_action"; "policy"; "target_approximator"]
  [("_a_values", Numpy); ("_agent_backend", Primitive); ("_agent_preprocessors", Mushroom); ("_batch_size", Mushroom); ("_clip_reward", Primitive); ("_core_preprocessors", Mushroom); ("_delta", Primitive); ("_env_backend", Primitive); ("_fit_params", Pickle); ("_info", Mushroom); ("_logger", NoneM); ("_n_approximators", Primitive); ("_n_atoms", Primitive); ("_n_steps_return", Primitive); ("_n_updates", Primitive); ("_predict_params", Pickle); ("_replay_memory", Mushroom); ("_sigma_coeff", Primitive); ("_target_update_frequency", Primitive); ("_v_max", Primitive); ("_v_min", Primitive); ("approximator", Mushroom); ("mdp_info", Mushroom); ("next_action", NoneM); ("policy", Mushroom); ("target_approximator", Mushroom)]
  ["_fit"].
(** policy/recurrent_torch_policy.py:9 *)
Definition k_RecurrentGaussianTorchPolicy : klass := K "RecurrentGaussianTorchPolicy"
  ["_action_dim"; "_log_sigma"; "_log_std_max"; "_log_std_min"; "_mu"; "_predict_params"; "policy_state_shape"]
  [("_action_dim", Primitive); ("_log_sigma", Torch); ("_mu", Mushroom); ("_predict_params", Pickle); ("policy_state_shape", Primitive)]
  [].
(** approximators/regressor.py:10 *)
Definition k_Regressor : klass := K "Regressor"
  ["_impl"; "_input_shape"; "_logger"; "_loss_filename"; "_n_models"; "_output_shape"]
  [("_impl", Mushroom); ("_input_shape", Primitive); ("_logger", NoneM); ("_n_models", Primitive); ("_output_shape", Primitive); ("n_actions", Primitive)]
  [].
(** rl_utils/eligibility_trace.py:24 *)
Definition k_ReplacingTrace : klass := K "ReplacingTrace"
  ["table"]
  [("table", Numpy)]
  [].
(** rl_utils/replay_memory.py:8 *)
Definition k_ReplayMemory : klass := K "ReplayMemory"
  ["_agent_info"; "_dataset"; "_full"; "_idx"; "_initial_size"; "_max_size"; "_mdp_info"]
  [("_agent_info", Mushroom); ("_dataset", Opt Mushroom); ("_full", Opt Primitive); ("_idx", Opt Primitive); ("_initial_size", Primitive); ("_max_size", Primitive); ("_mdp_info", Mushroom)]
  ["_dataset"; "_full"; "_idx"].
(** rl_utils/running_stats.py:152 *)
Definition k_RunningAveragedWindow : klass := K "RunningAveragedWindow"
  ["_array_backend"; "_avg_buffer"; "_shape"; "_window_size"]
  [("_array_backend", Pickle); ("_avg_buffer", Primitive); ("_shape", Primitive); ("_window_size", Primitive)]
  [].
(** rl_utils/running_stats.py:87 *)
Definition k_RunningExpWeightedAverage : klass := K "RunningExpWeightedAverage"
  ["_alpha"; "_array_backend"; "_avg_value"; "_shape"]
  [("_alpha", Primitive); ("_array_backend", Pickle); ("_avg_value", Primitive); ("_shape", Primitive)]
  [].
(** rl_utils/running_stats.py:6 *)
Definition k_RunningStandardization : klass := K "RunningStandardization"
  ["_alpha"; "_array_backend"; "_m"; "_n"; "_s"; "_shape"]
  [("_alpha", Primitive); ("_array_backend", Pickle); ("_m", Primitive); ("_n", Primitive); ("_s", Primitive); ("_shape", Primitive)]
  [].
(** algorithms/actor_critic/deep_actor_critic/sac.py:177 *)
Definition k_SAC : klass := K "SAC"
  ["_agent_backend"; "_agent_preprocessors"; "_alpha_optim"; "_batch_size"; "_clipping"; "_clipping_params"; "_core_preprocessors"; "_critic_approximator"; "_critic_fit_params"; "_env_backend"; "_info"; "_log_alpha"; "_optimizer"; "_parameters"; "_replay_memory"; "_target_critic_approximator"; "_target_entropy"; "_tau"; "_use_log_alpha_loss"; "_warmup_transitions"; "mdp_info"; "next_action"; "policy"]
  [("_agent_backend", Primitive); ("_agent_preprocessors", Mushroom); ("_alpha_optim", Torch); ("_batch_size", Mushroom); ("_clipping", Torch); ("_clipping_params", Pickle); ("_core_preprocessors", Mushroom); ("_critic_approximator", Mushroom); ("_critic_fit_params", Pickle); ("_env_backend", Primitive); ("_info", Mushroom); ("_log_alpha", Torch); ("_logger", NoneM); ("_optimizer", Torch); ("_replay_memory", Mushroom); ("_target_critic_approximator", Mushroom); ("_target_entropy", Primitive); ("_tau", Mushroom); ("_use_log_alpha_loss", Primitive); ("_warmup_transitions", Mushroom); ("mdp_info", Mushroom); ("next_action", NoneM); ("policy", Mushroom)]
  ["_parameters"].
(** algorithms/actor_critic/deep_actor_critic/sac.py:18 *)
Definition k_SACPolicy : klass := K "SACPolicy"
  ["_central_a"; "_delta_a"; "_eps_log_prob"; "_log_std_max"; "_log_std_min"; "_mu_approximator"; "_sigma_approximator"; "policy_state_shape"]
  [("_central_a", Torch); ("_delta_a", Torch); ("_eps_log_prob", Primitive); ("_log_std_max", Mushroom); ("_log_std_min", Mushroom); ("_mu_approximator", Mushroom); ("_sigma_approximator", Mushroom); ("policy_state_shape", Primitive)]
  [].
(** algorithms/value/td/sarsa.py:5 *)
Definition k_SARSA : klass := K "SARSA"
  ["Q"; "_agent_backend"; "_agent_preprocessors"; "_alpha"; "_core_preprocessors"; "_env_backend"; "_info"; "mdp_info"; "next_action"; "policy"]
  [("Q", Mushroom); ("_agent_backend", Primitive); ("_agent_preprocessors", Mushroom); ("_alpha", Mushroom); ("_core_preprocessors", Mushroom); ("_env_backend", Primitive); ("_info", Mushroom); ("_logger", NoneM); ("mdp_info", Mushroom); ("next_action", NoneM); ("policy", Mushroom)]
  [].
(** algorithms/value/td/sarsa_lambda.py:7 *)
Definition k_SARSALambda : klass := K "SARSALambda"
  ["Q"; "_agent_backend"; "_agent_preprocessors"; "_alpha"; "_core_preprocessors"; "_env_backend"; "_info"; "_lambda"; "e"; "mdp_info"; "next_action"; "policy"]
  [("Q", Mushroom); ("_agent_backend", Primitive); ("_agent_preprocessors", Mushroom); ("_alpha", Mushroom); ("_core_preprocessors", Mushroom); ("_env_backend", Primitive); ("_info", Mushroom); ("_lambda", Mushroom); ("_logger", NoneM); ("e", Mushroom); ("mdp_info", Mushroom); ("next_action", NoneM); ("policy", Mushroom)]
  [].
(** algorithms/value/td/sarsa_lambda_continuous.py:8 *)
Definition k_SARSALambdaContinuous : klass := K "SARSALambdaContinuous"
  ["Q"; "_agent_backend"; "_agent_preprocessors"; "_alpha"; "_core_preprocessors"; "_env_backend"; "_info"; "_lambda"; "e"; "mdp_info"; "next_action"; "policy"]
  [("Q", Mushroom); ("_agent_backend", Primitive); ("_agent_preprocessors", Mushroom); ("_alpha", Mushroom); ("_core_preprocessors", Mushroom); ("_env_backend", Primitive); ("_info", Mushroom); ("_lambda", Primitive); ("_logger", NoneM); ("e", Numpy); ("mdp_info", Mushroom); ("next_action", NoneM); ("policy", Mushroom)]
  [].
(** rl_utils/optimizers.py:99 *)
Definition k_SGDOptimizer : klass := K "SGDOptimizer"
  ["_lr"; "_maximize"]
  [("_lr", Mushroom); ("_maximize", Primitive)]
  [].
(** rl_utils/replay_memory.py:167 *)
Definition k_SequenceReplayMemory : klass := K "SequenceReplayMemory"
  ["_action_space_shape"; "_agent_info"; "_dataset"; "_full"; "_idx"; "_initial_size"; "_max_size"; "_mdp_info"; "_truncation_length"]
  [("_action_space_shape", Primitive); ("_agent_info", Mushroom); ("_dataset", Opt Mushroom); ("_full", Opt Primitive); ("_idx", Opt Primitive); ("_initial_size", Primitive); ("_max_size", Primitive); ("_mdp_info", Mushroom); ("_truncation_length", Primitive)]
  ["_dataset"; "_full"; "_idx"].
(** algorithms/value/td/speedy_q_learning.py:8 *)
Definition k_SpeedyQLearning : klass := K "SpeedyQLearning"
  ["Q"; "_agent_backend"; "_agent_preprocessors"; "_alpha"; "_core_preprocessors"; "_env_backend"; "_info"; "mdp_info"; "next_action"; "old_q"; "policy"]
  [("Q", Mushroom); ("_agent_backend", Primitive); ("_agent_preprocessors", Mushroom); ("_alpha", Mushroom); ("_core_preprocessors", Mushroom); ("_env_backend", Primitive); ("_info", Mushroom); ("_logger", NoneM); ("mdp_info", Mushroom); ("next_action", NoneM); ("old_q", Mushroom); ("policy", Mushroom)]
  [].
(** rl_utils/preprocessors.py:38 *)
Definition k_StandardizationPreprocessor : klass := K "StandardizationPreprocessor"
  ["_array_backend"; "_clip_obs"; "_obs_runstand"]
  [("_array_backend", Pickle); ("_clip_obs", Primitive); ("_obs_runstand", Mushroom); ("_obs_shape", Primitive)]
  [].
(** policy/gaussian_policy.py:282 *)
Definition k_StateLogStdGaussianPolicy : klass := K "StateLogStdGaussianPolicy"
  ["_log_std_approximator"; "_mu_approximator"; "_predict_params"; "policy_state_shape"]
  [("_log_std_approximator", Mushroom); ("_mu_approximator", Mushroom); ("_predict_params", Pickle); ("policy_state_shape", Primitive)]
  [].
(** policy/gaussian_policy.py:187 *)
Definition k_StateStdGaussianPolicy : klass := K "StateStdGaussianPolicy"
  ["_eps"; "_mu_approximator"; "_predict_params"; "_std_approximator"; "policy_state_shape"]
  [("_eps", Primitive); ("_mu_approximator", Mushroom); ("_predict_params", Pickle); ("_std_approximator", Mushroom); ("policy_state_shape", Primitive)]
  [].
(** algorithms/actor_critic/classic_actor_critic/stochastic_ac.py:10 *)
Definition k_StochasticAC : klass := K "StochasticAC"
  ["_V"; "_agent_backend"; "_agent_preprocessors"; "_alpha_theta"; "_alpha_v"; "_core_preprocessors"; "_e_theta"; "_e_v"; "_env_backend"; "_info"; "_lambda"; "_psi"; "mdp_info"; "next_action"; "policy"]
  [("_V", Mushroom); ("_agent_backend", Primitive); ("_agent_preprocessors", Mushroom); ("_alpha_theta", Mushroom); ("_alpha_v", Mushroom); ("_core_preprocessors", Mushroom); ("_e_theta", Numpy); ("_e_v", Numpy); ("_env_backend", Primitive); ("_info", Mushroom); ("_lambda", Mushroom); ("_logger", NoneM); ("_psi", Pickle); ("mdp_info", Mushroom); ("next_action", NoneM); ("policy", Mushroom)]
  [].
(** algorithms/actor_critic/classic_actor_critic/stochastic_ac.py:95 *)
Definition k_StochasticAC_AVG : klass := K "StochasticAC_AVG"
  ["_V"; "_agent_backend"; "_agent_preprocessors"; "_alpha_r"; "_alpha_theta"; "_alpha_v"; "_core_preprocessors"; "_e_theta"; "_e_v"; "_env_backend"; "_info"; "_lambda"; "_psi"; "_r_bar"; "next_action"; "policy"]
  [("_V", Mushroom); ("_agent_backend", Primitive); ("_agent_preprocessors", Mushroom); ("_alpha_r", Mushroom); ("_alpha_theta", Mushroom); ("_alpha_v", Mushroom); ("_core_preprocessors", Mushroom); ("_e_theta", Numpy); ("_e_v", Numpy); ("_env_backend", Primitive); ("_info", Mushroom); ("_lambda", Mushroom); ("_logger", NoneM); ("_psi", Pickle); ("_r_bar", Primitive); ("mdp_info", Mushroom); ("next_action", NoneM); ("policy", Mushroom)]
  [].
(** rl_utils/replay_memory.py:264 *)
Definition k_SumTree : klass := K "SumTree"
  ["_agent_info"; "_full"; "_idx"; "_max_size"; "_mdp_info"; "_tree"; "dataset"]
  [("_agent_info", Mushroom); ("_full", Primitive); ("_idx", Primitive); ("_max_size", Primitive); ("_mdp_info", Mushroom); ("_tree", Numpy); ("dataset", Opt Mushroom)]
  ["dataset"].
(** algorithms/value/td/td.py:6 *)
Definition k_TD : klass := K "TD"
  ["Q"; "_agent_backend"; "_agent_preprocessors"; "_core_preprocessors"; "_env_backend"; "_info"; "next_action"; "policy"]
  [("Q", Mushroom); ("_agent_backend", Primitive); ("_agent_preprocessors", Mushroom); ("_alpha", Mushroom); ("_core_preprocessors", Mushroom); ("_env_backend", Primitive); ("_info", Mushroom); ("_logger", NoneM); ("mdp_info", Mushroom); ("next_action", NoneM); ("policy", Mushroom)]
  [].
(** algorithms/actor_critic/deep_actor_critic/td3.py:8 *)
Definition k_TD3 : klass := K "TD3"
  ["_actor_approximator"; "_actor_predict_params"; "_agent_backend"; "_agent_preprocessors"; "_batch_size"; "_clipping"; "_clipping_params"; "_core_preprocessors"; "_critic_approximator"; "_critic_fit_params"; "_critic_predict_params"; "_env_backend"; "_fit_count"; "_info"; "_noise_clip"; "_noise_std"; "_optimizer"; "_parameters"; "_policy_delay"; "_replay_memory"; "_target_actor_approximator"; "_target_critic_approximator"; "_tau"; "mdp_info"; "next_action"; "policy"]
  [("_actor_predict_params", Pickle); ("_agent_backend", Primitive); ("_agent_preprocessors", Mushroom); ("_batch_size", Mushroom); ("_clipping", Torch); ("_clipping_params", Pickle); ("_core_preprocessors", Mushroom); ("_critic_approximator", Mushroom); ("_critic_fit_params", Pickle); ("_critic_predict_params", Pickle); ("_env_backend", Primitive); ("_fit_count", Primitive); ("_info", Mushroom); ("_logger", NoneM); ("_noise_clip", Mushroom); ("_noise_std", Mushroom); ("_optimizer", Torch); ("_policy_delay", Mushroom); ("_replay_memory", Mushroom); ("_target_actor_approximator", Mushroom); ("_target_critic_approximator", Mushroom); ("_tau", Mushroom); ("mdp_info", Mushroom); ("next_action", NoneM); ("policy", Mushroom)]
  ["_actor_approximator"; "_parameters"].
(** policy/td_policy.py:9 *)
Definition k_TDPolicy : klass := K "TDPolicy"
  ["_approximator"; "policy_state_shape"]
  [("_approximator", Opt Mushroom); ("_predict_params", Pickle); ("policy_state_shape", Primitive)]
  [].
(** algorithms/actor_critic/deep_actor_critic/trpo.py:16 *)
Definition k_TRPO : klass := K "TRPO"
  ["_V"; "_agent_backend"; "_agent_preprocessors"; "_cg_damping"; "_cg_residual_tol"; "_core_preprocessors"; "_critic_fit_params"; "_ent_coeff"; "_env_backend"; "_info"; "_iter"; "_lambda"; "_logger"; "_max_kl"; "_n_epochs_cg"; "_n_epochs_line_search"; "_old_policy"; "mdp_info"; "next_action"; "policy"]
  [("_V", Mushroom); ("_agent_backend", Primitive); ("_agent_preprocessors", Mushroom); ("_cg_damping", Mushroom); ("_cg_residual_tol", Mushroom); ("_core_preprocessors", Mushroom); ("_critic_fit_params", Pickle); ("_ent_coeff", Mushroom); ("_env_backend", Primitive); ("_info", Mushroom); ("_iter", Primitive); ("_lambda", Mushroom); ("_logger", NoneM); ("_max_kl", Mushroom); ("_n_epochs_cg", Mushroom); ("_n_epochs_line_search", Mushroom); ("_old_policy", Mushroom); ("mdp_info", Mushroom); ("next_action", NoneM); ("policy", Mushroom)]
  [].
(** approximators/table.py:6 *)
Definition k_Table : klass := K "Table"
  ["table"]
  [("table", Numpy)]
  [].
(** approximators/parametric/torch_approximator.py:10 *)
Definition k_TorchApproximator : klass := K "TorchApproximator"
  ["_batch_size"; "_dropout"; "_last_loss"; "_loss"; "_n_fit_targets"; "_optimizer"; "_quiet"; "_reinitialize"; "network"]
  [("_batch_size", Primitive); ("_dropout", Primitive); ("_last_loss", NoneM); ("_loss", Pickle); ("_n_fit_targets", Primitive); ("_optimizer", Torch); ("_quiet", Primitive); ("_reinitialize", Primitive); ("network", Torch)]
  [].
(** core/_impl/torch_dataset.py:7 *)
Definition k_TorchDataset : klass := K "TorchDataset"
  ["_absorbing"; "_actions"; "_last"; "_len"; "_mask"; "_next_states"; "_policy_next_states"; "_policy_states"; "_rewards"; "_states"]
  [("_absorbing", Torch); ("_action_type", Primitive); ("_actions", Torch); ("_device", Primitive); ("_last", Torch); ("_len", Primitive); ("_next_states", Torch); ("_policy_next_states", Numpy); ("_policy_states", Numpy); ("_rewards", Torch); ("_state_type", Primitive); ("_states", Torch)]
  [].
(** policy/torch_policy.py:15 *)
Definition k_TorchPolicy : klass := K "TorchPolicy"
  ["policy_state_shape"]
  [("policy_state_shape", Primitive)]
  [].
(** algorithms/value/td/true_online_sarsa_lambda.py:10 *)
Definition k_TrueOnlineSARSALambda : klass := K "TrueOnlineSARSALambda"
  ["Q"; "_agent_backend"; "_agent_preprocessors"; "_alpha"; "_core_preprocessors"; "_env_backend"; "_info"; "_lambda"; "_q_old"; "e"; "mdp_info"; "next_action"; "policy"]
  [("Q", Mushroom); ("_agent_backend", Primitive); ("_agent_preprocessors", Mushroom); ("_alpha", Mushroom); ("_core_preprocessors", Mushroom); ("_env_backend", Primitive); ("_info", Mushroom); ("_lambda", Mushroom); ("_logger", NoneM); ("_q_old", Numpy); ("e", Numpy); ("mdp_info", Mushroom); ("next_action", NoneM); ("policy", Mushroom)]
  [].
(** rl_utils/variance_parameters.py:97 *)
Definition k_VarianceDecreasingParameter : klass := K "VarianceDecreasingParameter"
  ["_exponential"; "_initial_value"; "_max_value"; "_min_value"; "_n_updates"; "_parameter_value"; "_tol"; "_weights_var"; "_x"; "_x2"]
  [("_exponential", Primitive); ("_initial_value", Primitive); ("_max_value", Primitive); ("_min_value", Primitive); ("_n_updates", Mushroom); ("_parameter_value", Mushroom); ("_tol", Primitive); ("_weights_var", Mushroom); ("_x", Mushroom); ("_x2", Mushroom)]
  [].
(** rl_utils/variance_parameters.py:84 *)
Definition k_VarianceIncreasingParameter : klass := K "VarianceIncreasingParameter"
  ["_exponential"; "_initial_value"; "_max_value"; "_min_value"; "_n_updates"; "_parameter_value"; "_tol"; "_weights_var"; "_x"; "_x2"]
  [("_exponential", Primitive); ("_initial_value", Primitive); ("_max_value", Primitive); ("_min_value", Primitive); ("_n_updates", Mushroom); ("_parameter_value", Mushroom); ("_tol", Primitive); ("_weights_var", Mushroom); ("_x", Mushroom); ("_x2", Mushroom)]
  [].
(** rl_utils/variance_parameters.py:7 *)
Definition k_VarianceParameter : klass := K "VarianceParameter"
  ["_initial_value"; "_max_value"; "_min_value"; "_n_updates"; "_parameter_value"; "_weights_var"; "_x"; "_x2"]
  [("_exponential", Primitive); ("_initial_value", Primitive); ("_max_value", Primitive); ("_min_value", Primitive); ("_n_updates", Mushroom); ("_parameter_value", Mushroom); ("_tol", Primitive); ("_weights_var", Mushroom); ("_x", Mushroom); ("_x2", Mushroom)]
  [].
(** policy/vector_policy.py:7 *)
Definition k_VectorPolicy : klass := K "VectorPolicy"
  ["_policy_vector"; "policy_state_shape"]
  [("_policy_vector", Mushroom); ("policy_state_shape", Primitive)]
  [].
(** core/dataset.py:544 *)
Definition k_VectorizedDataset : klass := K "VectorizedDataset"
  ["_array_backend"; "_data"; "_dataset_info"; "_episode_info"; "_info"; "_theta_list"]
  [("_array_backend", Primitive); ("_data", Mushroom); ("_dataset_info", Mushroom); ("_episode_info", Mushroom); ("_info", Mushroom); ("_theta_list", Pickle)]
  [].
(** algorithms/value/td/weighted_q_learning.py:7 *)
Definition k_WeightedQLearning : klass := K "WeightedQLearning"
  ["Q"; "_Q2"; "_agent_backend"; "_agent_preprocessors"; "_alpha"; "_core_preprocessors"; "_env_backend"; "_info"; "_n_updates"; "_precision"; "_sampling"; "_sigma"; "_w1"; "_w2"; "mdp_info"; "next_action"; "policy"]
  [("Q", Mushroom); ("_Q2", Mushroom); ("_agent_backend", Primitive); ("_agent_preprocessors", Mushroom); ("_alpha", Mushroom); ("_core_preprocessors", Mushroom); ("_env_backend", Primitive); ("_info", Mushroom); ("_logger", NoneM); ("_n_updates", Mushroom); ("_precision", Primitive); ("_sampling", Primitive); ("_sigma", Mushroom); ("_w", Primitive); ("_w1", Mushroom); ("_w2", Mushroom); ("mdp_info", Mushroom); ("next_action", NoneM); ("policy", Mushroom)]
  [].
(** rl_utils/variance_parameters.py:200 *)
Definition k_WindowedVarianceIncreasingParameter : klass := K "WindowedVarianceIncreasingParameter"
  ["_exponential"; "_index"; "_initial_value"; "_max_value"; "_min_value"; "_n_updates"; "_parameter_value"; "_samples"; "_tol"; "_weights_var"; "_window"]
  [("_exponential", Primitive); ("_index", Mushroom); ("_initial_value", Primitive); ("_max_value", Primitive); ("_min_value", Primitive); ("_n_updates", Mushroom); ("_parameter_value", Mushroom); ("_samples", Mushroom); ("_tol", Primitive); ("_weights_var", Mushroom); ("_window", Primitive)]
  [].
(** rl_utils/variance_parameters.py:110 *)
Definition k_WindowedVarianceParameter : klass := K "WindowedVarianceParameter"
  ["_index"; "_initial_value"; "_max_value"; "_min_value"; "_n_updates"; "_parameter_value"; "_samples"; "_weights_var"; "_window"]
  [("_exponential", Primitive); ("_index", Mushroom); ("_initial_value", Primitive); ("_max_value", Primitive); ("_min_value", Primitive); ("_n_updates", Mushroom); ("_parameter_value", Mushroom); ("_samples", Mushroom); ("_tol", Primitive); ("_weights_var", Mushroom); ("_window", Primitive)]
  [].
(** algorithms/policy_search/policy_gradient/enac.py:6 *)
Definition k_eNAC : klass := K "eNAC"
  ["J_episode"; "_agent_backend"; "_agent_preprocessors"; "_core_preprocessors"; "_env_backend"; "_info"; "df"; "mdp_info"; "next_action"; "optimizer"; "phi_c"; "policy"; "psi_ext"; "sum_grad_log"; "sum_grad_log_list"]
  [("J_episode", Numpy); ("_agent_backend", Primitive); ("_agent_preprocessors", Mushroom); ("_core_preprocessors", Mushroom); ("_env_backend", Primitive); ("_info", Mushroom); ("_logger", NoneM); ("df", Numpy); ("mdp_info", Mushroom); ("next_action", NoneM); ("optimizer", Mushroom); ("phi_c", Pickle); ("policy", Mushroom); ("psi_ext", Pickle); ("sum_grad_log", Numpy); ("sum_grad_log_list", Pickle)]
  [].
(** algorithms/policy_search/black_box_optimization/eppo.py:8 *)
Definition k_ePPO : klass := K "ePPO"
  ["_agent_backend"; "_agent_preprocessors"; "_batch_size"; "_context_builder"; "_core_preprocessors"; "_deterministic"; "_ent_coeff"; "_env_backend"; "_eps_ppo"; "_info"; "_n_epochs_policy"; "_optimizer"; "distribution"; "next_action"; "policy"]
  [("_agent_backend", Primitive); ("_agent_preprocessors", Mushroom); ("_batch_size", Mushroom); ("_context_builder", Mushroom); ("_core_preprocessors", Mushroom); ("_deterministic", Primitive); ("_ent_coeff", Mushroom); ("_env_backend", Primitive); ("_eps_ppo", Mushroom); ("_info", Mushroom); ("_logger", NoneM); ("_n_epochs_policy", Mushroom); ("_optimizer", Torch); ("distribution", Mushroom); ("mdp_info", Mushroom); ("next_action", NoneM); ("policy", Mushroom)]
  [].

(** All of them. *)
Definition classes : list klass :=
  [k_A2C; k_AbstractDQN; k_AbstractGaussianPolicy; k_AbstractGaussianTorchDistribution; k_AccumulatingTrace; k_ActionRegressor;
   k_AdamOptimizer; k_AdaptiveOptimizer; k_Agent; k_AgentInfo; k_AveragedDQN; k_BatchTD;
   k_BlackBoxOptimization; k_Boltzmann; k_BoltzmannTorchPolicy; k_BoostedFQI; k_Box; k_CMAC;
   k_COPDAC_Q; k_CategoricalDQN; k_CholeskyGaussianTorchDistribution; k_ClippedGaussianPolicy; k_ConstrainedREPS; k_ContextBuilder;
   k_DDPG; k_DMP; k_DQN; k_Dataset; k_DatasetInfo; k_DecayParameter;
   k_DeepAC; k_DeterministicPolicy; k_DiagonalGaussianPolicy; k_DiagonalGaussianTorchDistribution; k_Discrete; k_Distribution;
   k_DoubleDQN; k_DoubleFQI; k_DoubleQLearning; k_DuelingDQN; k_Ensemble; k_EnsembleTable;
   k_EpsGreedy; k_ExpectedSARSA; k_ExtraInfo; k_FQI; k_GPOMDP; k_GaussianCholeskyDistribution;
   k_GaussianDiagonalDistribution; k_GaussianDistribution; k_GaussianPolicy; k_GaussianTorchPolicy; k_GenericRegressor; k_LSPI;
   k_LinearApproximator; k_LinearParameter; k_ListDataset; k_MDPInfo; k_MORE; k_MaxminDQN;
   k_MaxminQLearning; k_Mellowmax; k_MellowmaxParameter; k_MinMaxPreprocessor; k_NoisyDQN; k_NumpyDataset;
   k_NumpyTorchApproximator; k_OnPolicyDeepAC; k_Optimizer; k_OrnsteinUhlenbeckPolicy; k_PGPE; k_PPO;
   k_PPO_BPTT; k_Parameter; k_ParametricPolicy; k_Policy; k_PolicyGradient; k_Preprocessor;
   k_PrioritizedReplayMemory; k_ProMP; k_QLambda; k_QLearning; k_QRegressor; k_QuantileDQN;
   k_REINFORCE; k_REPS; k_RLearning; k_RQLearning; k_RWR; k_Rainbow;
   k_RecurrentGaussianTorchPolicy; k_Regressor; k_ReplacingTrace; k_ReplayMemory; k_RunningAveragedWindow; k_RunningExpWeightedAverage;
   k_RunningStandardization; k_SAC; k_SACPolicy; k_SARSA; k_SARSALambda; k_SARSALambdaContinuous;
   k_SGDOptimizer; k_SequenceReplayMemory; k_SpeedyQLearning; k_StandardizationPreprocessor; k_StateLogStdGaussianPolicy; k_StateStdGaussianPolicy;
   k_StochasticAC; k_StochasticAC_AVG; k_SumTree; k_TD; k_TD3; k_TDPolicy;
   k_TRPO; k_Table; k_TorchApproximator; k_TorchDataset; k_TorchPolicy; k_TrueOnlineSARSALambda;
   k_VarianceDecreasingParameter; k_VarianceIncreasingParameter; k_VarianceParameter; k_VectorPolicy; k_VectorizedDataset; k_WeightedQLearning;
   k_WindowedVarianceIncreasingParameter; k_WindowedVarianceParameter; k_eNAC; k_ePPO].

(** What a loaded object still has (C95). *)
From Coq Require Import List Arith Lia Bool String.
From Verif Require Import Common SaveModel.
Import ListNotations.
Local Open Scope string_scope.

(** The attributes that some method reads and no load restores. *)
Definition missing : list (string * string) :=
  [("AdamOptimizer", "_eps"); ("DatasetInfo", "device"); ("DeepAC", "_parameters");
   ("ExtraInfo", "_array_backend"); ("ExtraInfo", "_device"); ("ExtraInfo", "_n_envs");
   ("ListDataset", "_mask"); ("MORE", "phi_linear_"); ("MORE", "phi_quadratic_");
   ("MORE", "regressor_linear"); ("MORE", "regressor_quadratic");
   ("PPO_BPTT", "_truncation_length"); ("RecurrentGaussianTorchPolicy", "_log_std_max");
   ("RecurrentGaussianTorchPolicy", "_log_std_min"); ("Regressor", "_loss_filename");
   ("TorchDataset", "_mask")].

(** The attributes recomputed by _post_load. *)
Definition recomputed : list (string * string) :=
  [("A2C", "_parameters"); ("AbstractDQN", "_fit"); ("AveragedDQN", "_fit"); ("Box", "_shape");
   ("DDPG", "_actor_approximator"); ("DDPG", "_parameters"); ("DQN", "_fit");
   ("DoubleDQN", "_fit"); ("DuelingDQN", "_fit"); ("MaxminDQN", "_fit"); ("NoisyDQN", "_fit");
   ("ReplayMemory", "_dataset"); ("ReplayMemory", "_full"); ("ReplayMemory", "_idx");
   ("SAC", "_parameters"); ("SequenceReplayMemory", "_dataset"); ("SequenceReplayMemory", "_full");
   ("SequenceReplayMemory", "_idx"); ("SumTree", "dataset"); ("TD3", "_actor_approximator");
   ("TD3", "_parameters")].

(** The attributes that are None after a load; next_action is so in every agent. *)
Definition forgotten : list (string * string) :=
  [("Boltzmann", "_approximator"); ("EpsGreedy", "_approximator"); ("Mellowmax", "_approximator");
   ("NumpyTorchApproximator", "_last_loss"); ("PPO", "_logger"); ("Regressor", "_logger");
   ("TDPolicy", "_approximator"); ("TRPO", "_logger"); ("TorchApproximator", "_last_loss")].

Definition eqp (p q : string * string) : bool := String.eqb (fst p) (fst q) && String.eqb (snd p) (snd q).
Lemma eqp_in p l : existsb (eqp p) l = true <-> In p l.
Proof.
  rewrite existsb_exists. split.
  - intros [q [I E]]. unfold eqp in E. apply andb_prop in E as [A B].
    apply String.eqb_eq in A, B. destruct p, q; simpl in *; subst; auto.
  - intros I. exists p; split; auto. unfold eqp. rewrite !String.eqb_refl; reflexivity.
Qed.
Lemma mem_in a l : mem a l = true <-> In a l.
Proof.
  unfold mem. rewrite existsb_exists. split.
  - intros [b [I E]]. apply String.eqb_eq in E; subst; auto.
  - intros I. exists a; split; auto. apply String.eqb_refl.
Qed.

(** The decision on the table: every attribute read is in one of the cases. *)
Definition lossless (m : meth) : bool := match m with NoneM => false | Opt _ => false | _ => true end.
Definition case_ok (k : klass) (a : string) : bool :=
  if existsb (eqp (k_name k, a)) missing then
    negb (mem a (k_post k)) && match meth_of a (k_saved k) with None => true | Some _ => false end
  else if existsb (eqp (k_name k, a)) recomputed then mem a (k_post k)
  else negb (mem a (k_post k)) &&
    match meth_of a (k_saved k) with
    | None => false
    | Some m => if String.eqb a "next_action" || existsb (eqp (k_name k, a)) forgotten
                then match m with NoneM | Opt Mushroom => true | _ => false end
                else lossless m
    end.
Lemma table_ok : forallb (fun k => forallb (case_ok k) (k_reads k)) classes = true.
Proof. vm_compute. reflexivity. Qed.
Lemma case_of k a : In k classes -> In a (k_reads k) -> case_ok k a = true.
Proof.
  intros Ik Ia. pose proof table_ok as T. rewrite forallb_forall in T.
  specialize (T k Ik). rewrite forallb_forall in T. exact (T a Ia).
Qed.
Lemma not_in_eqp p l : ~ In p l -> existsb (eqp p) l = false.
Proof. intros N. destruct (existsb (eqp p) l) eqn:E; auto. apply eqp_in in E. contradiction. Qed.

(** A loaded object has every attribute that its methods read, except the missing ones. *)
Theorem loaded_attributes_exist :
  forall V (vnone : V) post full (o : attrs V) k a,
    In k classes -> In a (k_reads k) -> ~ In (k_name k, a) missing ->
    exists v, loaded vnone post full k o a = Some v.
Proof.
  intros V vnone post full o k a Ik Ia N. pose proof (case_of k a Ik Ia) as C.
  unfold case_ok in C. rewrite (not_in_eqp _ _ N) in C.
  unfold loaded. destruct (mem a (k_post k)); [eexists; reflexivity|].
  destruct (existsb (eqp (k_name k, a)) recomputed); [discriminate|].
  cbn [negb andb] in C. destruct (meth_of a (k_saved k)); [eexists; reflexivity|discriminate].
Qed.

(** And it has the value it had when it was saved, whether or not the save was a full one,
    except for the recomputed ones, the forgotten ones and the next action. *)
Theorem loaded_values :
  forall V (vnone : V) post full (o : attrs V) k a v,
    In k classes -> In a (k_reads k) ->
    ~ In (k_name k, a) missing -> ~ In (k_name k, a) recomputed -> ~ In (k_name k, a) forgotten ->
    a <> "next_action" -> o a = Some v ->
    loaded vnone post full k o a = Some v.
Proof.
  intros V vnone post full o k a v Ik Ia N1 N2 N3 N4 Ov. pose proof (case_of k a Ik Ia) as C.
  unfold case_ok in C. rewrite (not_in_eqp _ _ N1), (not_in_eqp _ _ N2), (not_in_eqp _ _ N3) in C.
  apply String.eqb_neq in N4. rewrite N4 in C. unfold loaded.
  destruct (mem a (k_post k)); [discriminate|]. cbn [negb andb] in C.
  destruct (meth_of a (k_saved k)) as [m|]; [|discriminate]. rewrite Ov.
  destruct m; try discriminate; reflexivity.
Qed.

(** The next action, the loggers, the last loss and the approximator of a TD policy (which
    the agent sets again: C94) are None. *)
Theorem loaded_forgotten :
  forall V (vnone : V) post full (o : attrs V) k a,
    In k classes -> In a (k_reads k) -> In (k_name k, a) forgotten \/ a = "next_action" ->
    loaded vnone post full k o a = Some vnone.
Proof.
  intros V vnone post full o k a Ik Ia F. pose proof (case_of k a Ik Ia) as C.
  assert (M : existsb (eqp (k_name k, a)) missing = false).
  { apply not_in_eqp. intros M. destruct F as [F| ->].
    - assert (Z : forallb (fun p => negb (existsb (eqp p) missing)) forgotten = true) by (vm_compute; reflexivity).
      rewrite forallb_forall in Z. specialize (Z _ F). apply eqp_in in M. rewrite M in Z. discriminate.
    - apply (in_map snd) in M. vm_compute in M.
      repeat (destruct M as [M|M]; [discriminate|]). exact M. }
  assert (R : existsb (eqp (k_name k, a)) recomputed = false).
  { apply not_in_eqp. intros R. destruct F as [F| ->].
    - assert (Z : forallb (fun p => negb (existsb (eqp p) recomputed)) forgotten = true) by (vm_compute; reflexivity).
      rewrite forallb_forall in Z. specialize (Z _ F). apply eqp_in in R. rewrite R in Z. discriminate.
    - apply (in_map snd) in R. vm_compute in R.
      repeat (destruct R as [R|R]; [discriminate|]). exact R. }
  unfold case_ok in C. rewrite M, R in C. unfold loaded.
  destruct (mem a (k_post k)); [discriminate|]. cbn [negb andb] in C.
  destruct (meth_of a (k_saved k)) as [m|]; [|discriminate].
  assert (B : (a =? "next_action") || existsb (eqp (k_name k, a)) forgotten = true).
  { destruct F as [F| ->]; [|reflexivity]. apply eqp_in in F. rewrite F. apply orb_true_r. }
  rewrite B in C. destruct m as [| | | | | | |m]; try discriminate; [reflexivity|].
  destruct m; try discriminate; reflexivity.
Qed.

(** A class all of whose read attributes come back. *)
Definition restored (k : klass) : Prop :=
  forall a, In a (k_reads k) ->
    ~ In (k_name k, a) missing /\ ~ In (k_name k, a) recomputed /\ ~ In (k_name k, a) forgotten /\ a <> "next_action".

(** For such a class, any method, that is, any function of the attributes it reads, gives
    after the load what it would have given before the save. *)
Theorem loaded_methods_agree :
  forall V B (vnone : V) post full (o : attrs V) k (method : attrs V -> B),
    In k classes -> restored k ->
    (forall a, In a (k_reads k) -> o a <> None) ->
    (forall o1 o2, (forall a, In a (k_reads k) -> o1 a = o2 a) -> method o1 = method o2) ->
    method (loaded vnone post full k o) = method o.
Proof.
  intros V B vnone post full o k method Ik Rk Full Dep. apply Dep. intros a Ia.
  destruct (o a) as [v|] eqn:Oa; [|destruct (Full a Ia Oa)].
  destruct (Rk a Ia) as (N1 & N2 & N3 & N4).
  apply loaded_values; auto.
Qed.

(** A missing attribute is missing from the loaded object whatever object was saved, so the
    methods that read it raise AttributeError; all of them are read by some method of their
    class. *)
Theorem missing_attributes_refuted :
  forall c a, In (c, a) missing ->
    exists k, In k classes /\ k_name k = c /\ In a (k_reads k) /\
      forall V (vnone : V) post full (o : attrs V), loaded vnone post full k o a = None.
Proof.
  intros c a I.
  assert (Z : forallb (fun p => existsb (fun k => String.eqb (k_name k) (fst p) && mem (snd p) (k_reads k))
                                        classes) missing = true) by (vm_compute; reflexivity).
  rewrite forallb_forall in Z. specialize (Z _ I). apply existsb_exists in Z as [k [Ik E]].
  apply andb_prop in E as [E1 E2]. apply String.eqb_eq in E1. apply mem_in in E2. simpl in E1, E2.
  exists k. split; [exact Ik|]. split; [exact E1|]. split; [exact E2|].
  intros V vnone post full o. pose proof (case_of k a Ik E2) as C. unfold case_ok in C.
  assert (M : existsb (eqp (k_name k, a)) missing = true) by (apply eqp_in; rewrite E1; exact I).
  rewrite M in C. apply andb_prop in C as [C1 C2]. unfold loaded.
  destruct (mem a (k_post k)); [discriminate|]. destruct (meth_of a (k_saved k)); [discriminate|reflexivity].
Qed.

(** The classes that are restored completely. *)
Definition restoredb (k : klass) : bool :=
  forallb (fun a => negb (existsb (eqp (k_name k, a)) missing) && negb (existsb (eqp (k_name k, a)) recomputed)
                    && negb (existsb (eqp (k_name k, a)) forgotten) && negb (String.eqb a "next_action")) (k_reads k).
Lemma restoredb_ok k : restoredb k = true -> restored k.
Proof.
  intros H a Ia. unfold restoredb in H. rewrite forallb_forall in H. specialize (H a Ia).
  repeat (apply andb_prop in H as [H ?]). repeat split.
  - intros M. apply eqp_in in M. rewrite M in H. discriminate.
  - intros M. apply eqp_in in M. rewrite M in H2. discriminate.
  - intros M. apply eqp_in in M. rewrite M in H1. discriminate.
  - intros ->. discriminate.
Qed.

Definition restored_names : list string :=
  ["AbstractGaussianPolicy"; "AbstractGaussianTorchDistribution"; "AccumulatingTrace";
   "ActionRegressor"; "AdaptiveOptimizer"; "AgentInfo"; "BoltzmannTorchPolicy"; "CMAC";
   "CholeskyGaussianTorchDistribution"; "ClippedGaussianPolicy"; "ContextBuilder"; "DMP";
   "Dataset"; "DecayParameter"; "DeterministicPolicy"; "DiagonalGaussianPolicy";
   "DiagonalGaussianTorchDistribution"; "Discrete"; "Distribution"; "Ensemble"; "EnsembleTable";
   "GaussianCholeskyDistribution"; "GaussianDiagonalDistribution"; "GaussianDistribution";
   "GaussianPolicy"; "GaussianTorchPolicy"; "GenericRegressor"; "LinearApproximator";
   "LinearParameter"; "MDPInfo"; "MellowmaxParameter"; "MinMaxPreprocessor"; "NumpyDataset";
   "Optimizer"; "OrnsteinUhlenbeckPolicy"; "Parameter"; "ParametricPolicy"; "Policy";
   "Preprocessor"; "PrioritizedReplayMemory"; "ProMP"; "QRegressor"; "ReplacingTrace";
   "RunningAveragedWindow"; "RunningExpWeightedAverage"; "RunningStandardization"; "SACPolicy";
   "SGDOptimizer"; "StandardizationPreprocessor"; "StateLogStdGaussianPolicy";
   "StateStdGaussianPolicy"; "Table"; "TorchPolicy"; "VarianceDecreasingParameter";
   "VarianceIncreasingParameter"; "VarianceParameter"; "VectorPolicy"; "VectorizedDataset";
   "WindowedVarianceIncreasingParameter"; "WindowedVarianceParameter"].
Theorem restored_classes :
  forall k, In k classes -> In (k_name k) restored_names -> restored k.
Proof.
  intros k Ik In_. apply restoredb_ok.
  assert (Z : forallb (fun k => if mem (k_name k) restored_names then restoredb k else true) classes = true)
    by (vm_compute; reflexivity).
  rewrite forallb_forall in Z. specialize (Z k Ik). apply mem_in in In_. rewrite In_ in Z. exact Z.
Qed.

(** A loaded GaussianPolicy keeps its inverse covariance; a loaded Adam optimizer has its
    learning rate and not its epsilon; a loaded DQN draws its next action afresh. *)
Definition some_object : attrs nat := fun a => if String.eqb a "nothing" then None else Some (String.length a).
Example loaded_gaussian :
  In "_inv_sigma" (k_reads k_GaussianPolicy) /\
  loaded 0 (fun _ => 0) false k_GaussianPolicy some_object "_inv_sigma" = Some 10.
Proof. vm_compute. repeat split; auto 20. Qed.
Example loaded_adam :
  loaded 0 (fun _ => 0) true k_AdamOptimizer some_object "_eps" = None /\
  loaded 0 (fun _ => 0) true k_AdamOptimizer some_object "_lr" = Some 3.
Proof. vm_compute. auto. Qed.
Example loaded_dqn :
  loaded 0 (fun _ => 0) true k_DQN some_object "next_action" = Some 0 /\
  loaded 0 (fun _ => 7) true k_DQN some_object "_fit" = Some 7 /\
  loaded 0 (fun _ => 7) false k_DQN some_object "_batch_size" = Some 11.
Proof. vm_compute. auto. Qed.

Print Assumptions loaded_attributes_exist.
Print Assumptions loaded_values.
Print Assumptions loaded_forgotten.
Print Assumptions loaded_methods_agree.
Print Assumptions missing_attributes_refuted.
Print Assumptions restored_classes.

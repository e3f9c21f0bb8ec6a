(** C01-C06: the interaction loop of [Core]. *)
From Coq Require Import List Arith Lia Bool.
From Verif Require Import Common EpisodeSpec CoreModel CoreSpec CoreProofs.
Import ListNotations.

Section Props.
Context {En Ag Ob Ac Rw Ps Th : Type}.
Variable W : world En Ag Ob Ac Rw Ps Th.
Hypothesis Hhor : horizon W <> Some 0.

Lemma sum_lengths : forall (A B : Type) (f : A -> list B) (l : list A) k,
  Forall (fun x => length (f x) = k) l -> length (concat (map f l)) = k * length l.
Proof.
  induction l; simpl; intros k H; [lia|]. inversion H; subst. rewrite app_length, (IHl _ H3). lia.
Qed.

Lemma sum_counts : forall (l : list (dataset Ob Ac Rw Ps Th)) k,
  Forall (fun x => count_last last (rows x) = k) l -> count_last last (concat (map rows l)) = k * length l.
Proof.
  induction l; simpl; intros k H; [unfold count_last; simpl; lia|]. inversion H; subst.
  rewrite count_last_app, (IHl _ H3). lia.
Qed.

(** C01.  [learn(n_steps=N, n_steps_per_fit=k)]: for every environment, agent and
    earlier state of the core, the call returns (in N iterations), performs N
    environment steps, and calls fit N/k times, each time with exactly k samples. *)
Theorem core_learn_steps_schedule : forall fuel e a l N k, 1 <= k -> N <= fuel ->
  exists r, learn W fuel e a l (Some N) None (Some k) None = Done r /\
    length (samples_of (r_log r)) = N /\
    length (fits_of (r_log r)) = N / k /\
    Forall (fun d => length (rows d) = k) (fits_of (r_log r)).
Proof.
  intros fuel e a l N k Hk Hf.
  destruct (learn_unfold W Hhor e a l (Some N) None (Some k) None (SSteps k) (BSteps N)) as (cap & l2 & C & I & T & _ & U); auto; simpl; auto.
  destruct (loop_steps_terminates W Hhor fuel cap (SSteps k) N None (Between e a) (start e a l2)) as (r & D); auto; simpl; try lia.
  exists r. rewrite U. split; auto.
  pose proof (loop_inv W Hhor fuel cap (SSteps k) (BSteps N) None (Between e a) _ Hk C I) as Q. rewrite D in Q. destruct Q as [Q _].
  assert (TT : tot_st (r_logic r) = N) by (eapply (loop_tot_st W Hhor fuel cap (SSteps k) N None (Between e a) (start e a l2)); eauto; simpl; lia).
  pose proof (i_fits _ _ _ _ _ _ Q) as F. simpl in F.
  assert (L : length (samples_of (r_log r)) = N) by (rewrite <- TT; symmetry; apply Q).
  repeat split; auto.
  rewrite (i_samples _ _ _ _ _ _ Q), app_length, (sum_lengths _ _ rows _ k F) in L.
  pose proof (i_notdue _ _ _ _ _ _ Q) as ND. simpl in ND. rewrite (i_cur_st _ _ _ _ _ _ Q) in ND.
  apply (Nat.div_unique N k _ (length (rows (r_ds r)))); lia.
Qed.

(** C02.  Whatever the move budget and the fit schedule, the datasets given to
    [fit], in order, followed by the samples not fitted yet, are exactly the
    transitions collected; the unfitted rest is shorter than one fit. *)
Theorem core_learn_fits_partition_samples : forall fuel e a l ns ne spf epf r,
  (spf = None \/ exists k, spf = Some k /\ 1 <= k) ->
  (epf = None \/ exists k, epf = Some k /\ 1 <= k) ->
  learn W fuel e a l ns ne spf epf = Done r ->
  samples_of (r_log r) = concat (map rows (fits_of (r_log r))) ++ rows (r_ds r) /\
  (forall k, spf = Some k -> length (rows (r_ds r)) < k) /\
  (forall k, epf = Some k -> count_last last (rows (r_ds r)) < k).
Proof.
  intros fuel e a l ns ne spf epf r Hs He HD.
  assert (exists s b, sched_of spf epf = Some s /\ budget_of ns ne (@None (list Ob)) = Some b /\ sched_pos s /\
     match s with SEps _ => horizon W <> None | _ => True end) as (s & b & S & B & P & Hi).
  { unfold learn in HD. destruct spf as [k|], epf as [k'|]; simpl in HD; try discriminate.
    - destruct ns as [n|], ne as [n'|]; simpl in HD; try discriminate; do 2 eexists; repeat split; simpl; auto;
      destruct Hs as [|(?&E&?)]; congruence || (inversion E; subst; auto).
    - destruct (horizon W) eqn:EH; try discriminate.
      destruct ns as [n'|], ne as [n''|]; simpl in HD; try discriminate; do 2 eexists; repeat split; simpl; auto; try congruence;
      destruct He as [|(?&E&?)]; congruence || (inversion E; subst; auto). }
  destruct (learn_unfold W Hhor e a l ns ne spf epf s b) as (cap & l2 & C & I & T & T2 & U); auto.
  rewrite U in HD.
  pose proof (loop_inv W Hhor fuel cap s b None (Between e a) _ P C I) as Q. rewrite HD in Q. destruct Q as [Q _].
  pose proof (i_notdue _ _ _ _ _ _ Q) as ND. 
  split; [apply Q|]. split; intros k E; subst.
  - destruct epf; simpl in S; [discriminate|]. inversion S; subst. simpl in ND. rewrite <- (i_cur_st _ _ _ _ _ _ Q). auto.
  - destruct spf; simpl in S; [discriminate|]. inversion S; subst. simpl in ND. rewrite <- (i_cur_ep _ _ _ _ _ _ Q). auto.
Qed.

(** C03.  [learn(n_episodes=N, n_episodes_per_fit=k)] with horizon h: the call
    returns (in at most h*N iterations), exactly N episodes are run, nothing is
    left unfinished, fit is called N/k times, each time with exactly k complete
    episodes; for episodic (black-box) agents each fit sees exactly the k
    parameters drawn for its episodes. *)
Theorem core_learn_episode_schedule : forall fuel e a l N k h,
  horizon W = Some h -> 1 <= k -> h * N <= fuel ->
  exists r, learn W fuel e a l None (Some N) None (Some k) = Done r /\
    length (complete last (samples_of (r_log r))) = N /\
    unfinished last (samples_of (r_log r)) = [] /\
    length (fits_of (r_log r)) = N / k /\
    Forall (fun d => length (complete last (rows d)) = k /\ unfinished last (rows d) = [])
           (fits_of (r_log r)) /\
    (is_episodic W = true ->
      Forall (fun d => length (thetas d) = k) (fits_of (r_log r)) /\
      thetas_of (r_log r) = concat (map thetas (fits_of (r_log r))) ++ thetas (r_ds r)).
Proof.
  intros fuel e a l N k h Hh Hk Hf.
  destruct (learn_unfold W Hhor e a l None (Some N) None (Some k) (SEps k) (BEps N)) as (cap & l2 & C & I & T & T2 & U); auto; simpl; try congruence.
  destruct (loop_eps_terminates W Hhor h Hh fuel cap (SEps k) N None (Between e a) (start e a l2)) as (r & D); auto; simpl; try lia.
  exists r. rewrite U. split; auto.
  pose proof (loop_inv W Hhor fuel cap (SEps k) (BEps N) None (Between e a) _ Hk C I) as Q. rewrite D in Q. destruct Q as [Q _].
  destruct (loop_tot_ep W Hhor fuel cap (SEps k) N None (Between e a) (start e a l2) r) as [TE RL]; auto; simpl; try lia.
  pose proof (i_fits _ _ _ _ _ _ Q) as F. simpl in F.
  pose proof (i_last _ _ _ _ _ _ Q) as HL. rewrite RL in HL.
  rewrite count_complete. split; [rewrite <- (i_tot_ep _ _ _ _ _ _ Q); auto|]. split; auto.
  split; [|split].
  - pose proof (i_tot_ep _ _ _ _ _ _ Q) as X. rewrite TE, (i_samples _ _ _ _ _ _ Q), count_last_app, (sum_counts _ k) in X.
    + pose proof (i_notdue _ _ _ _ _ _ Q) as ND. simpl in ND. rewrite (i_cur_ep _ _ _ _ _ _ Q) in ND.
      apply (Nat.div_unique N k _ (count_last last (rows (r_ds r)))); lia.
    + eapply Forall_impl; [|exact F]. simpl. tauto.
  - eapply Forall_impl; [|exact F]. simpl. intros d. rewrite count_complete. tauto.
  - intros HE. split.
    + eapply Forall_impl; [|exact F]. simpl. intros d (_ & _ & X). auto.
    + apply Q; auto.
Qed.

(** C04.  [evaluate(n_steps=N)], from any earlier state [l] of the core logic. *)
Theorem core_evaluate_steps : forall fuel e a l N, N <= fuel ->
  exists r, evaluate W fuel e a l None (Some N) None = Done r /\
    fits_of (r_log r) = [] /\
    rows (r_ds r) = samples_of (r_log r) /\ length (rows (r_ds r)) = N.
Proof.
  intros fuel e a l N Hf.
  destruct (evaluate_unfold W Hhor e a l None (Some N) None (BSteps N)) as (cap & l2 & C & I & T & T2 & U); auto; simpl; auto.
  destruct (loop_steps_terminates W Hhor fuel cap SNever N None (Between e a) (start e a l2)) as (r & D); auto; simpl; try lia.
  exists r. rewrite U. split; auto.
  pose proof (loop_inv W Hhor fuel cap SNever (BSteps N) None (Between e a) _ Logic.I C I) as Q. rewrite D in Q. destruct Q as [Q _].
  assert (TT : tot_st (r_logic r) = N) by (eapply (loop_tot_st W Hhor fuel cap SNever N None (Between e a) (start e a l2)); eauto; simpl; auto; lia).
  pose proof (i_rows_unf _ _ _ _ _ _ Q) as RU. simpl in RU.
  pose proof (i_samples _ _ _ _ _ _ Q) as SA. rewrite RU in SA. simpl in SA.
  repeat split; auto. rewrite <- SA, <- (i_tot_st _ _ _ _ _ _ Q). auto.
Qed.

(** C04.  [evaluate(n_episodes=N)]: exactly N complete episodes, nothing after. *)
Theorem core_evaluate_episodes : forall fuel e a l N h, horizon W = Some h -> h * N <= fuel ->
  exists r, evaluate W fuel e a l None None (Some N) = Done r /\
    fits_of (r_log r) = [] /\
    rows (r_ds r) = samples_of (r_log r) /\
    length (complete last (rows (r_ds r))) = N /\ unfinished last (rows (r_ds r)) = [] /\
    resets_of (r_log r) = repeat None N.
Proof.
  intros fuel e a l N h Hh Hf.
  destruct (evaluate_unfold W Hhor e a l None None (Some N) (BEps N)) as (cap & l2 & C & I & T & T2 & U); auto; simpl; try congruence.
  destruct (loop_eps_terminates W Hhor h Hh fuel cap SNever N None (Between e a) (start e a l2)) as (r & D); auto; simpl; try lia; auto.
  exists r. rewrite U. split; auto.
  pose proof (loop_inv W Hhor fuel cap SNever (BEps N) None (Between e a) _ Logic.I C I) as Q. rewrite D in Q. destruct Q as [Q _].
  destruct (loop_tot_ep W Hhor fuel cap SNever N None (Between e a) (start e a l2) r) as [TE RL]; auto; simpl; try lia; auto.
  pose proof (i_rows_unf _ _ _ _ _ _ Q) as RU. simpl in RU.
  pose proof (i_samples _ _ _ _ _ _ Q) as SA. rewrite RU in SA. simpl in SA.
  pose proof (i_last _ _ _ _ _ _ Q) as HL. rewrite RL in HL.
  repeat split; auto.
  - rewrite <- SA, count_complete, <- (i_tot_ep _ _ _ _ _ _ Q). auto.
  - rewrite <- SA. auto.
  - rewrite (i_resets _ _ _ _ _ _ Q), RL, TE, Nat.add_0_r.
    generalize 0 at 1. clear. induction N; simpl; intros; auto. f_equal. auto.
Qed.

(** C04.  [evaluate(initial_states=is)]: one complete episode per given state, the
    i-th one started by [env.reset(is[i])]. *)
Theorem core_evaluate_initial_states : forall fuel e a l is h, horizon W = Some h -> h * length is <= fuel ->
  exists r, evaluate W fuel e a l (Some is) None None = Done r /\
    fits_of (r_log r) = [] /\
    rows (r_ds r) = samples_of (r_log r) /\
    length (complete last (rows (r_ds r))) = length is /\ unfinished last (rows (r_ds r)) = [] /\
    resets_of (r_log r) = map Some is.
Proof.
  intros fuel e a l is h Hh Hf.
  destruct (evaluate_unfold W Hhor e a l (Some is) None None (BEps (length is))) as (cap & l2 & C & I & T & T2 & U); auto; simpl; try congruence.
  destruct (loop_eps_terminates W Hhor h Hh fuel cap SNever (length is) (Some is) (Between e a) (start e a l2)) as (r & D); auto; simpl; try lia; auto.
  exists r. rewrite U. split; auto.
  pose proof (loop_inv W Hhor fuel cap SNever (BEps (length is)) (Some is) (Between e a) _ Logic.I C I) as Q. rewrite D in Q. destruct Q as [Q _].
  destruct (loop_tot_ep W Hhor fuel cap SNever (length is) (Some is) (Between e a) (start e a l2) r) as [TE RL]; auto; simpl; try lia; auto.
  pose proof (i_rows_unf _ _ _ _ _ _ Q) as RU. simpl in RU.
  pose proof (i_samples _ _ _ _ _ _ Q) as SA. rewrite RU in SA. simpl in SA.
  pose proof (i_last _ _ _ _ _ _ Q) as HL. rewrite RL in HL.
  repeat split; auto.
  - rewrite <- SA, count_complete, <- (i_tot_ep _ _ _ _ _ _ Q). auto.
  - rewrite <- SA. auto.
  - rewrite (i_resets _ _ _ _ _ _ Q), RL, TE, Nat.add_0_r, firstn_all. reflexivity.
Qed.

(** C05.  The events of any finished learn call form an execution of the agent in
    the environment in the sense of [CoreSpec.trace]: resets exactly between
    episodes, chained observations and policy states, [last] iff absorbing or
    horizon reached, actions drawn by the current (possibly just fitted) agent;
    and every complete episode respects the horizon. *)
Theorem core_learn_is_execution : forall fuel e a l ns ne spf epf r,
  (spf = None \/ exists k, spf = Some k /\ 1 <= k) ->
  (epf = None \/ exists k, epf = Some k /\ 1 <= k) ->
  learn W fuel e a l ns ne spf epf = Done r ->
  (exists p, trace W (Between e a) (r_log r) p) /\
  Forall (respects_horizon W) (complete last (samples_of (r_log r))) /\
  (forall h, horizon W = Some h -> length (unfinished last (samples_of (r_log r))) < h).
Proof.
  intros fuel e a l ns ne spf epf r Hs He HD.
  assert (exists s b, sched_of spf epf = Some s /\ budget_of ns ne (@None (list Ob)) = Some b /\ sched_pos s /\
     match s with SEps _ => horizon W <> None | _ => True end) as (s & b & S & B & P & Hi).
  { unfold learn in HD. destruct spf as [k|], epf as [k'|]; simpl in HD; try discriminate.
    - destruct ns as [n|], ne as [n'|]; simpl in HD; try discriminate; do 2 eexists; repeat split; simpl; auto;
      destruct Hs as [|(?&E&?)]; congruence || (inversion E; subst; auto).
    - destruct (horizon W) eqn:EH; try discriminate.
      destruct ns as [n'|], ne as [n''|]; simpl in HD; try discriminate; do 2 eexists; repeat split; simpl; auto; try congruence;
      destruct He as [|(?&E&?)]; congruence || (inversion E; subst; auto). }
  destruct (learn_unfold W Hhor e a l ns ne spf epf s b) as (cap & l2 & C & I & T & T2 & U); auto.
  rewrite U in HD.
  pose proof (loop_inv W Hhor fuel cap s b None (Between e a) _ P C I) as Q. rewrite HD in Q. destruct Q as [Q _].
  split; [eexists; apply Q|]. split; [apply Q|].
  intros h Hh. pose proof (i_last _ _ _ _ _ _ Q) as X. destruct (r_last r) eqn:RL.
  - rewrite X. simpl. destruct h; [congruence|lia].
  - destruct X as [-> _]. apply (i_steps_h _ _ _ _ _ _ Q); auto.
Qed.

(** C05.  Same for evaluate. *)
Theorem core_evaluate_is_execution : forall fuel e a l init ns ne r,
  evaluate W fuel e a l init ns ne = Done r ->
  (exists p, trace W (Between e a) (r_log r) p) /\
  Forall (respects_horizon W) (complete last (samples_of (r_log r))) /\
  (forall h, horizon W = Some h -> length (unfinished last (samples_of (r_log r))) < h).
Proof.
  intros fuel e a l init ns ne r HD.
  assert (exists b, budget_of ns ne init = Some b /\
     match b with BEps _ => horizon W <> None | _ => True end) as (b & B & Hi).
  { unfold evaluate, capacity in HD. destruct (horizon W) eqn:EH;
    destruct ns, ne, init; simpl in HD; try discriminate; eexists; (split; [reflexivity|]); simpl; auto; congruence. }
  destruct (evaluate_unfold W Hhor e a l init ns ne b) as (cap & l2 & C & I & T & T2 & U); auto.
  rewrite U in HD.
  pose proof (loop_inv W Hhor fuel cap SNever b init (Between e a) _ Logic.I C I) as Q. rewrite HD in Q. destruct Q as [Q _].
  split; [eexists; apply Q|]. split; [apply Q|].
  intros h Hh. pose proof (i_last _ _ _ _ _ _ Q) as X. destruct (r_last r) eqn:RL.
  - rewrite X. simpl. destruct h; [congruence|lia].
  - destruct X as [-> _]. apply (i_steps_h _ _ _ _ _ _ Q); auto.
Qed.

(** C06.  No run crashes: in particular the preallocated dataset never overflows.
    The arguments must be accepted by the assertions at the start of learn
    (exactly one budget, exactly one schedule >= 1, finite horizon for episode
    schedules, which the dataset allocation requires). *)
Theorem core_learn_never_overflows : forall fuel e a l ns ne spf epf k,
  1 <= k ->
  (spf = Some k /\ epf = None) \/ (spf = None /\ epf = Some k /\ horizon W <> None) ->
  (exists N, (ns = Some N /\ ne = None) \/ (ns = None /\ ne = Some N)) ->
  learn W fuel e a l ns ne spf epf <> Crash.
Proof.
  intros fuel e a l ns ne spf epf k Hk HS [N HB].
  assert (exists s b, sched_of spf epf = Some s /\ budget_of ns ne (@None (list Ob)) = Some b /\ sched_pos s /\
     match s with SEps _ => horizon W <> None | _ => True end) as (s & b & S & B & P & Hi).
  { destruct HS as [[-> ->]|(-> & -> & ?)], HB as [[-> ->]|[-> ->]]; simpl; do 2 eexists; repeat split; simpl; auto. }
  destruct (learn_unfold W Hhor e a l ns ne spf epf s b) as (cap & l2 & C & I & T & T2 & U); auto.
  rewrite U.
  pose proof (loop_inv W Hhor fuel cap s b None (Between e a) _ P C I) as Q. destruct (loop _ _ _ _ _); congruence || tauto.
Qed.

Theorem core_evaluate_never_overflows : forall fuel e a l init ns ne,
  (exists N, init = None /\ ns = Some N /\ ne = None) \/
  (horizon W <> None /\ exists N, init = None /\ ns = None /\ ne = Some N) \/
  (horizon W <> None /\ exists is, init = Some is /\ ns = None /\ ne = None) ->
  evaluate W fuel e a l init ns ne <> Crash.
Proof.
  intros fuel e a l init ns ne HB.
  assert (exists b, budget_of ns ne init = Some b /\
     match b with BEps _ => horizon W <> None | _ => True end) as (b & B & Hi).
  { destruct HB as [(N & -> & -> & ->)|[(H & N & -> & -> & ->)|(H & is & -> & -> & ->)]]; simpl; eexists; split; eauto; simpl; auto. }
  destruct (evaluate_unfold W Hhor e a l init ns ne b) as (cap & l2 & C & I & T & T2 & U); auto.
  rewrite U.
  pose proof (loop_inv W Hhor fuel cap SNever b init (Between e a) _ Logic.I C I) as Q. destruct (loop _ _ _ _ _); congruence || tauto.
Qed.

(** Extra: evaluation with a mixed budget (steps per fit with an episode budget and
    vice versa) is covered by C02/C05/C06; the episode budget is exact there too. *)
Theorem core_learn_episode_budget_exact : forall fuel e a l N k h,
  horizon W = Some h -> 1 <= k -> h * N <= fuel ->
  exists r, learn W fuel e a l None (Some N) (Some k) None = Done r /\
    length (complete last (samples_of (r_log r))) = N /\
    unfinished last (samples_of (r_log r)) = [] /\
    Forall (fun d => length (rows d) = k) (fits_of (r_log r)).
Proof.
  intros fuel e a l N k h Hh Hk Hf.
  destruct (learn_unfold W Hhor e a l None (Some N) (Some k) None (SSteps k) (BEps N)) as (cap & l2 & C & I & T & T2 & U); auto; simpl; try congruence; auto.
  destruct (loop_eps_terminates W Hhor h Hh fuel cap (SSteps k) N None (Between e a) (start e a l2)) as (r & D); auto; simpl; try lia.
  exists r. rewrite U. split; auto.
  pose proof (loop_inv W Hhor fuel cap (SSteps k) (BEps N) None (Between e a) _ Hk C I) as Q. rewrite D in Q. destruct Q as [Q _].
  destruct (loop_tot_ep W Hhor fuel cap (SSteps k) N None (Between e a) (start e a l2) r) as [TE RL]; auto; simpl; try lia.
  pose proof (i_last _ _ _ _ _ _ Q) as HL. rewrite RL in HL.
  rewrite count_complete. split; [rewrite <- (i_tot_ep _ _ _ _ _ _ Q); auto|]. split; auto.
  apply (i_fits _ _ _ _ _ _ Q).
Qed.

Theorem core_learn_step_budget_episode_fits : forall fuel e a l N k h,
  horizon W = Some h -> 1 <= k -> N <= fuel ->
  exists r, learn W fuel e a l (Some N) None None (Some k) = Done r /\
    length (samples_of (r_log r)) = N /\
    Forall (fun d => length (complete last (rows d)) = k /\ unfinished last (rows d) = [])
           (fits_of (r_log r)) /\
    length (fits_of (r_log r)) = count_last last (samples_of (r_log r)) / k.
Proof.
  intros fuel e a l N k h Hh Hk Hf.
  destruct (learn_unfold W Hhor e a l (Some N) None None (Some k) (SEps k) (BSteps N)) as (cap & l2 & C & I & T & T2 & U); auto; simpl; try congruence.
  destruct (loop_steps_terminates W Hhor fuel cap (SEps k) N None (Between e a) (start e a l2)) as (r & D); auto; simpl; try lia.
  exists r. rewrite U. split; auto.
  pose proof (loop_inv W Hhor fuel cap (SEps k) (BSteps N) None (Between e a) _ Hk C I) as Q. rewrite D in Q. destruct Q as [Q _].
  assert (TT : tot_st (r_logic r) = N) by (eapply (loop_tot_st W Hhor fuel cap (SEps k) N None (Between e a) (start e a l2)); eauto; simpl; auto; lia).
  pose proof (i_fits _ _ _ _ _ _ Q) as F. simpl in F.
  split; [rewrite <- TT; symmetry; apply Q|]. split.
  - eapply Forall_impl; [|exact F]. simpl. intros d. rewrite count_complete. tauto.
  - rewrite (i_samples _ _ _ _ _ _ Q), count_last_app, (sum_counts _ k).
    + pose proof (i_notdue _ _ _ _ _ _ Q) as ND. simpl in ND. rewrite (i_cur_ep _ _ _ _ _ _ Q) in ND.
      apply (Nat.div_unique _ k _ (count_last last (rows (r_ds r)))); lia.
    + eapply Forall_impl; [|exact F]. simpl. tauto.
Qed.

End Props.

(** Non-vacuity: a counter environment that is absorbing at 3, horizon 2 or 5,
    an agent that counts its fits. *)
Definition demo (h : nat) : world nat nat nat nat nat unit nat :=
  mkW nat nat nat nat nat unit nat
    (fun e i => let s := match i with Some o => o | None => 0 end in (s, s))
    (fun e act => (e + 1, e + 1, act, e + 1 =? 3))
    (fun a o => (a, tt, a)) (fun a o p => (a, a, tt)) (fun a o => (a, o)) (fun a => a)
    true (Some h) (fun a d => a + 1).
Definition any_logic : logic := mkL FitEpisodes MoveSteps (Some 9) None (Some 7) (Some 8) 1 2 3 4.

Example demo_learn : match learn (demo 5) 7 0 0 any_logic (Some 7) None (Some 2) None with
  | Done r =>   map last (samples_of (r_log r)) = [false; false; true; false; false; true; false] /\
  map reward (samples_of (r_log r)) = [0; 0; 1; 1; 2; 2; 3] /\ length (fits_of (r_log r)) = 3
  | _ => False end.
Proof. vm_compute. repeat split. Qed.

Example demo_learn_episodes : match learn (demo 2) 10 0 0 any_logic None (Some 5) None (Some 2) with
  | Done r =>   length (fits_of (r_log r)) = 2 /\ map thetas (fits_of (r_log r)) = [[0; 0]; [1; 1]]
  | _ => False end.
Proof. vm_compute. repeat split. Qed.

Example demo_evaluate : match evaluate (demo 5) 15 0 0 any_logic (Some [2; 0; 1]) None None with
  | Done r =>   map state (rows (r_ds r)) = [2; 0; 1; 2; 1; 2]
  | _ => False end.
Proof. vm_compute. repeat split. Qed.

Print Assumptions core_learn_steps_schedule.
Print Assumptions core_learn_fits_partition_samples.
Print Assumptions core_learn_episode_schedule.
Print Assumptions core_evaluate_steps.
Print Assumptions core_evaluate_episodes.
Print Assumptions core_evaluate_initial_states.
Print Assumptions core_learn_is_execution.
Print Assumptions core_evaluate_is_execution.
Print Assumptions core_learn_never_overflows.
Print Assumptions core_evaluate_never_overflows.
Print Assumptions core_learn_episode_budget_exact.
Print Assumptions core_learn_step_budget_episode_fits.

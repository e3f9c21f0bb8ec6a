(** Composition: [Core] (CoreModel.v) driving an agent that learns from a [ReplayMemory]
    (ReplayModel.v), and the agents DDPG (ddpg.py 91-138), TD3 (td3.py 63-102) and SAC
    (sac.py 263-316) as instances, over the learners of SacModel.v and the bootstrapped values of
    DqnModel.v.

    Simplifications: the networks and one call of an optimizer are arbitrary functions; the policy
    with its internal state (exploration noise, random generator) is an arbitrary transition
    function; the indices drawn by [ReplayMemory.get] are an arbitrary function of the number of
    the fit and the number of rows held; batch size and policy_delay constant; no agent
    preprocessors. *)
From Coq Require Import List Arith Lia Bool Reals.
From Verif Require Import Common ReplayModel DqnModel SacModel.
From Verif Require CoreModel.
Import ListNotations.

Section Agent.
Context {En Ob Ac L P : Type}.
(** what a fit does with the batch (number of the fit, number of rows held, rows), and after
    every fit *)
Variable (learn : L -> nat -> nat -> list (sample Ob Ac unit) -> L).
Variable (tick : L -> L).
(** the policy *)
Variable (pol : L -> P -> Ob -> P * Ac).
Variable (pstart : L -> P -> Ob -> P).
Variable (drawn : nat -> nat -> list nat).

(** The memory, the learner, the state of the policy, the number of fits, whether no call has
    raised; and the ghost list of the learners after 0, 1, 2, ... fits. *)
Record ragent := mkRA { r_mem : memory Ob Ac unit; r_learner : L; r_pol : P; r_fits : nat; r_ok : bool; r_hist : list L }.

Definition row_of (x : CoreModel.sample Ob Ac R unit) : sample Ob Ac unit :=
  mkSample (CoreModel.state x) (CoreModel.action x) (CoreModel.reward x) (CoreModel.next_state x)
           (CoreModel.absorbing x) (CoreModel.last x) tt tt.

(** fit: ddpg.py 92-95, sac.py 264-266, abstract_dqn.py 90-93 *)
Definition replay_fit (a : ragent) (d : CoreModel.dataset Ob Ac R unit unit) : ragent :=
  let failed := mkRA (r_mem a) (r_learner a) (r_pol a) (r_fits a) false (r_hist a) in
  let done := fun m s => mkRA m (tick s) (r_pol a) (S (r_fits a)) (r_ok a) (r_hist a ++ [tick s]) in
  match add (r_mem a) (map row_of (CoreModel.rows d)) 1 1 with
  | None => failed
  | Some (m, _) =>
      if initialized m then
        match get m (drawn (r_fits a) (length (m_data m))) with
        | None => failed
        | Some rows => done m (learn (r_learner a) (r_fits a) (size m) rows)
        end
      else done m (r_learner a)
  end.

Definition replay_init (initial_size max_size : nat) (s : L) (p : P) : ragent :=
  mkRA (mem_init initial_size max_size) s p 0 true [s].

Definition replay_draw (a : ragent) (o : Ob) (ps : unit) : ragent * Ac * unit :=
  let (p, u) := pol (r_learner a) (r_pol a) o in
  (mkRA (r_mem a) (r_learner a) p (r_fits a) (r_ok a) (r_hist a), u, tt).
Definition replay_start (a : ragent) (o : Ob) : ragent * unit * unit :=
  (mkRA (r_mem a) (r_learner a) (pstart (r_learner a) (r_pol a) o) (r_fits a) (r_ok a) (r_hist a), tt, tt).

Definition replay_world (ereset : En -> option Ob -> En * Ob) (estep : En -> Ac -> En * Ob * R * bool)
    (hor : option nat) : CoreModel.world En ragent Ob Ac R unit unit :=
  CoreModel.mkW En ragent Ob Ac R unit unit ereset estep replay_start replay_draw
    (fun a o => (a, o)) (fun a => a) false hor replay_fit.
End Agent.

Section Learners.
Context {Ob : Type}.
Notation batch := (list (Ob * list R * R)).
Notation rows := (list (sample Ob (list R) unit)).
Variable (gamma : R).
(** one call of fit of the critics; the value of the critic number [j] *)
Variable (train : list (list R) -> batch -> list (list R)).
Variable (critic : list R -> Ob -> list R -> R).

(** rows with their position in the batch, as training data *)
Definition labelled (target : nat -> sample Ob (list R) unit -> R) (b : rows) : batch :=
  map (fun p => (s_state (snd p), s_action (snd p), target (fst p) (snd p))) (combine (seq 0 (length b)) b).

Section Ddpg.
Context {A : Type}.
Variable (actor : A -> Ob -> list R).
Variable (actor_step : A -> list (list R) -> rows -> A).
Variable (blend : nat -> A -> A -> A).
Variables (delay : nat) (tau : nat -> R).

(** DDPG._next_q (ddpg.py 117-135) *)
Definition ddpg_next_q (t : A * list (list R)) (x : sample Ob (list R) unit) : R :=
  (critic (nth 0 (snd t) []) (s_next x) (actor (fst t) (s_next x)) * (1 - flag (s_absorbing x)))%R.
Definition ddpg_critic_fit (q : list (list R)) (t : A * list (list R)) (b : rows) : list (list R) :=
  train q (labelled (fun _ x => td_target (s_reward x) gamma (ddpg_next_q t x)) b).
Definition ddpg_learn (st : ddpg) (i size : nat) (b : rows) : ddpg :=
  ddpg_fit actor_step ddpg_critic_fit blend delay tau st (true, b).

(** TD3._next_q (td3.py 69-102); [noise i j] is the normal noise for row j of fit i *)
Variable (noise : nat -> nat -> list R).
Variables (noise_clip : R) (low high : list R).
Definition td3_critic_fit (i : nat) (q : list (list R)) (t : A * list (list R)) (b : rows) : list (list R) :=
  train q (labelled (fun j x => td_target (s_reward x) gamma
    (td3_next_q (critic (nth 0 (snd t) []) (s_next x)) (critic (nth 1 (snd t) []) (s_next x))
       (actor (fst t) (s_next x)) (noise i j) noise_clip low high (s_absorbing x))) b).
Definition td3_learn (st : ddpg) (i size : nat) (b : rows) : ddpg :=
  ddpg_fit actor_step (td3_critic_fit i) blend delay tau st (true, b).
End Ddpg.

Section Sac.
Context {Pi : Type}.
(** action and log-probability sampled for the next state of row j of fit i *)
Variable (sampled : Pi -> nat -> nat -> Ob -> list R * R).
Variable (log_probs : Pi -> rows -> list R).
Variable (actor_step : Pi -> R -> list (list R) -> rows -> Pi).
Variable (alpha_step : R -> (R -> R) -> R).
Variables (warmup : nat) (log_form : bool) (target_entropy : R) (tau : nat -> R).

(** SAC._next_q (sac.py 297-316) *)
Definition sac_critic_fit (i : nat) (q : list (list R)) (t : Pi * R * list (list R)) (b : rows) : list (list R) :=
  let '(pi, la, tq) := t in
  train q (labelled (fun j x => let '(a, lp) := sampled pi i j (s_next x) in
    td_target (s_reward x) gamma
      (sac_next_q (critic (nth 0 tq []) (s_next x) a) (critic (nth 1 tq []) (s_next x) a) (exp la) lp (s_absorbing x))) b).
Definition sac_learn (st : sac) (i size : nat) (b : rows) : sac :=
  sac_fit log_probs actor_step alpha_step (sac_critic_fit i) warmup log_form target_entropy tau st (true, size, b).
End Sac.
End Learners.

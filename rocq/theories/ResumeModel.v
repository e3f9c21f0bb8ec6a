(** Saving an agent, loading it and going on training with [Core].

    Cited code: core/serialization.py 39-139 (save_zip, load_zip), core/agent.py 30-69 (attributes
    of an agent; [next_action] is registered with 'none'), algorithms/value/td/td.py 12-26,
    algorithms/value/dqn/abstract_dqn.py 68-81, algorithms/actor_critic/deep_actor_critic/ddpg.py
    77-90, rl_utils/replay_memory.py 39-47 and 162-164 (ReplayMemory: rows, index and flag are
    saved on a full save only; a memory loaded without them is reset), 290-297 and 463-466
    (SumTree: index, flag and priorities are always saved, the rows come back as an empty dataset
    whether or not the save was full, see C21).

    Simplifications: as in CoreSarsaModel.v, CoreReplayModel.v and CorePerModel.v; weights, optimizer
    states, target networks, schedules and the internal state of the policy come back as they were
    (C20, C76, C95, C109); the random generator of the process goes on. *)
From Coq Require Import List Arith Lia Bool Reals.
From Verif Require Import Common ReplayModel SumTreeModel DqnModel CoreDqnModel.
From Verif Require CoreModel CoreSarsaModel CoreReplayModel CorePerModel.
Import ListNotations.

(** SARSA family: [next_action] is lost. *)
Definition reload_sarsa {Ac L : Type} (a : CoreSarsaModel.sagent (Ac:=Ac) (L:=L)) : CoreSarsaModel.sagent (Ac:=Ac) (L:=L) :=
  CoreSarsaModel.mkSA (CoreSarsaModel.s_l a) None (CoreSarsaModel.s_draws a) (CoreSarsaModel.s_ok a).

(** DDPG, TD3, SAC, DQN saved without data (full_save=False, the default): the memory is reset. *)
Definition reload_replay {Ob Ac L P : Type} (a : CoreReplayModel.ragent (Ob:=Ob) (Ac:=Ac) (L:=L) (P:=P)) : CoreReplayModel.ragent (Ob:=Ob) (Ac:=Ac) (L:=L) (P:=P) :=
  CoreReplayModel.mkRA (mem_reset (CoreReplayModel.r_mem a)) (CoreReplayModel.r_learner a) (CoreReplayModel.r_pol a)
    (CoreReplayModel.r_fits a) (CoreReplayModel.r_ok a) (CoreReplayModel.r_hist a).

(** SumTree loaded (both modes): index, flag and priorities over no rows. *)
Definition reload_tree {Ob Ac : Type} (t : stree Ob Ac unit) : stree Ob Ac unit :=
  mkST (mkMem (m_initial (t_mem t)) (m_max (t_mem t)) (m_idx (t_mem t)) (m_full (t_mem t)) []) (t_arr t).
Definition reload_per {Ob Ac Wt : Type} (a : CorePerModel.pagent (Ob:=Ob) (Ac:=Ac) (Wt:=Wt)) : CorePerModel.pagent (Ob:=Ob) (Ac:=Ac) (Wt:=Wt) :=
  CorePerModel.mkPer (reload_tree (CorePerModel.d_tree a)) (CorePerModel.d_w a) (CorePerModel.d_target a)
    (CorePerModel.d_updates a) (CorePerModel.d_drawn a) (CorePerModel.d_ok a).

(** DQN as an agent of CoreReplayModel.v: online weights, target weights, _n_updates
    (abstract_dqn.py 83-101 and 127-132, as in CoreDqnModel.v). *)
Section Dqn.
Context {Ob Ac Wt : Type}.
Variable (predict : Wt -> Ob -> list R) (train : Wt -> list (Ob * Ac * R) -> Wt).
Variable (gamma : R) (clip_reward : bool) (freq : nat).
Record dqn_state := mkDS { q_w : Wt; q_target : Wt; q_updates : nat }.
Definition dqn_learn (s : dqn_state) (i size : nat) (rows : list (sample Ob Ac unit)) : dqn_state :=
  mkDS (train (q_w s) (make_batch predict gamma clip_reward (q_target s) rows)) (q_target s) (q_updates s).
Definition dqn_tick (s : dqn_state) : dqn_state :=
  let u := q_updates s + 1 in
  mkDS (q_w s) (if u mod freq =? 0 then q_w s else q_target s) u.
End Dqn.
Arguments dqn_state : clear implicits.

(** Composition: [Core.learn] (CoreModel.v) driving a DQN agent (abstract_dqn.py 83-101,
    dqn.py 11-16) with a [ReplayMemory] (ReplayModel.v), in an arbitrary environment.

    Simplifications: the network is an arbitrary function [predict] of weights and state, and one
    call of approximator.fit an arbitrary function [train] of weights and batch; the policy is an
    arbitrary function of the weights, the observation and the number of actions drawn so far;
    the indices drawn by [ReplayMemory.get] are an arbitrary function of the number of the fit and
    the number of rows held; batch size constant; the prioritized variant is not part of this
    file (see CorePerModel.v). *)
From Coq Require Import List Arith Lia Bool Reals.
From Verif Require Import Common ReplayModel DqnModel.
From Verif Require CoreModel.
Import ListNotations.

Section Dqn.
Context {En Ob Ac Wt : Type}.
Variable (predict : Wt -> Ob -> list R).
Variable (train : Wt -> list (Ob * Ac * R) -> Wt).
Variable (pol : Wt -> nat -> Ob -> Ac).
Variable (drawn : nat -> nat -> list nat).
Variable (gamma : R) (clip_reward : bool) (freq : nat).

(** Attributes of the agent: memory, online and target weights, _n_updates, number of drawn
    actions, whether no call has raised; and two ghost records: the online weights after
    0, 1, 2, ... fits, and the batches given to approximator.fit with the number of the fit. *)
Record dagent := mkDA {
  a_mem : memory Ob Ac unit; a_w : Wt; a_target : Wt; a_updates : nat; a_drawn : nat; a_ok : bool;
  a_ws : list Wt; a_batches : list (nat * list (Ob * Ac * R)) }.

Definition row_of (x : CoreModel.sample Ob Ac R unit) : sample Ob Ac unit :=
  mkSample (CoreModel.state x) (CoreModel.action x) (CoreModel.reward x) (CoreModel.next_state x)
           (CoreModel.absorbing x) (CoreModel.last x) tt tt.

(** abstract_dqn.py 95-99 *)
Definition clipped (x : R) : R := if clip_reward then clip x (-1) 1 else x.
Definition make_batch (target : Wt) (rows : list (sample Ob Ac unit)) : list (Ob * Ac * R) :=
  let q_next := dqn_next_q (map (fun x => predict target (s_next x)) rows) (map s_absorbing rows) in
  map (fun p => (s_state (fst p), s_action (fst p), clipped (s_reward (fst p)) + gamma * snd p)%R) (combine rows q_next).

(** _fit_standard (abstract_dqn.py 90-101) *)
Definition fit_standard (a : dagent) (d : CoreModel.dataset Ob Ac R unit unit) : dagent :=
  match add (a_mem a) (map row_of (CoreModel.rows d)) 1 1 with
  | None => mkDA (a_mem a) (a_w a) (a_target a) (a_updates a) (a_drawn a) false (a_ws a) (a_batches a)
  | Some (m, _) =>
      if initialized m then
        match get m (drawn (a_updates a) (length (m_data m))) with
        | None => mkDA m (a_w a) (a_target a) (a_updates a) (a_drawn a) false (a_ws a) (a_batches a)
        | Some rows =>
            let b := make_batch (a_target a) rows in
            mkDA m (train (a_w a) b) (a_target a) (a_updates a) (a_drawn a) (a_ok a) (a_ws a) (a_batches a ++ [(a_updates a, b)])
        end
      else mkDA m (a_w a) (a_target a) (a_updates a) (a_drawn a) (a_ok a) (a_ws a) (a_batches a)
  end.

(** fit (abstract_dqn.py 83-88), _update_target (127-132) *)
Definition dqn_agent_fit (a : dagent) (d : CoreModel.dataset Ob Ac R unit unit) : dagent :=
  let a1 := fit_standard a d in
  let u := a_updates a1 + 1 in
  let t := if u mod freq =? 0 then a_w a1 else a_target a1 in
  mkDA (a_mem a1) (a_w a1) t u (a_drawn a1) (a_ok a1) (a_ws a1 ++ [a_w a1]) (a_batches a1).

(** __init__ (abstract_dqn.py 13-68) *)
Definition dqn_agent_init (initial_size max_size : nat) (w : Wt) : dagent :=
  mkDA (mem_init initial_size max_size) w w 0 0 true [w] [].

Definition dqn_draw (a : dagent) (o : Ob) (ps : unit) : dagent * Ac * unit :=
  (mkDA (a_mem a) (a_w a) (a_target a) (a_updates a) (a_drawn a + 1) (a_ok a) (a_ws a) (a_batches a),
   pol (a_w a) (a_drawn a) o, tt).

Definition dqn_world (ereset : En -> option Ob -> En * Ob) (estep : En -> Ac -> En * Ob * R * bool)
    (hor : option nat) : CoreModel.world En dagent Ob Ac R unit unit :=
  CoreModel.mkW En dagent Ob Ac R unit unit ereset estep (fun a _ => (a, tt, tt)) dqn_draw
    (fun a o => (a, o)) (fun a => a) false hor dqn_agent_fit.

End Dqn.

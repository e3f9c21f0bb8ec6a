(** Composition: [Core.learn] (CoreModel.v) driving a [QLearning] agent (TdModel.v) with an
    [EpsGreedy] policy (PolicyModel.v) and a visit-counting learning rate (ParamModel.v) in a
    finite environment.

    Cited code: core/core.py 98-180, algorithms/value/td/td.py 28-32 (fit asserts a single
    sample and calls _update), q_learning.py 18-24 ([self._alpha(state, action)]),
    policy/td_policy.py 82-93.

    Simplifications: the environment is deterministic and always starts in [s0]; epsilon is a
    constant parameter; the random numbers are three infinite sequences, one entry of each per
    call of draw_action (the entries that a call does not use are skipped; since they are
    arbitrary this does not restrict anything). *)
From Coq Require Import List Arith Lia Bool Reals.
From Verif Require Import Common ParamModel PolicyModel TdModel.
From Verif Require CoreModel.
Import ListNotations.

(** The agent: its table, its learning rate, the number of actions drawn, and whether every
    call of fit so far has returned (fit raises for datasets of another length than one and
    when the learning rate is indexed outside of its table). *)
Record qagent := mkQA { q_tab : table; q_rate : param; q_draws : nat; q_ok : bool }.

Section World.
Variable (k : nat) (gamma eps : R) (e : nat -> nat -> R * nat * bool) (s0 : nat) (hor : option nat).
Variable (u : nat -> R) (c r : nat -> nat).

Definition of_core (x : CoreModel.sample nat nat R unit) : sample :=
  {| x_s := CoreModel.state x; x_a := CoreModel.action x; x_r := CoreModel.reward x;
     x_s' := CoreModel.next_state x; x_abs := CoreModel.absorbing x |}.

(** TD.fit and QLearning._update. *)
Definition q_fit (a : qagent) (d : CoreModel.dataset nat nat R unit unit) : qagent :=
  match CoreModel.rows d with
  | [x] =>
      match p_call (q_rate a) (CoreModel.state x * k + CoreModel.action x) with
      | Some (al, rt) => mkQA (ql_update gamma al (q_tab a) (of_core x)) rt (q_draws a) (q_ok a)
      | None => mkQA (q_tab a) (q_rate a) (q_draws a) false
      end
  | _ => mkQA (q_tab a) (q_rate a) (q_draws a) false
  end.

(** EpsGreedy.draw_action. *)
Definition q_draw (a : qagent) (s : nat) (ps : unit) : qagent * nat * unit :=
  let t := q_draws a in
  (mkQA (q_tab a) (q_rate a) (t + 1) (q_ok a), eg_draw (row (q_tab a) s) eps (u t) (c t) (r t), tt).

(** FiniteMDP-like environment: the state is the environment's state. *)
Definition q_world : CoreModel.world nat qagent nat nat R unit unit :=
  CoreModel.mkW nat qagent nat nat R unit unit
    (fun _ i => let s := match i with Some o => o | None => s0 end in (s, s))
    (fun s a => let '(rw, s', ab) := e s a in (s', s', rw, ab))
    (fun a _ => (a, tt, tt))
    q_draw
    (fun a o => (a, o)) (fun a => a)
    false hor q_fit.

End World.

(** Composition: [Core] (CoreModel.v) driving the agents of the SARSA family (TdModel.v).

    Cited code: core/core.py 98-180; core/agent.py 73-103 (draw_action: the action left by the
    algorithm is executed and forgotten, otherwise the policy draws one); algorithms/value/td/
    td.py 28-32 (fit asserts a single sample and calls _update), sarsa.py 15-23, sarsa_lambda.py
    32-47, true_online_sarsa_lambda.py 39-68, sarsa_lambda_continuous.py 34-55 (each draws
    [self.next_action] with draw_action(next_state) before it changes the values, and
    episode_start resets the traces).

    Simplifications: no core preprocessors; a policy is any function of the learner's state, the
    number of draws made so far (its source of randomness) and the observation; the learning
    rate is any function with its own state; lambda is a number; the linear regressors predict
    with a dot product of weights and features of the state-action pair. *)
From Coq Require Import List Arith Lia Bool Reals.
From Verif Require Import Common TdModel.
From Verif Require CoreModel.
Import ListNotations.

Section Agent.
Context {En Ob Ac L : Type}.
Notation csample := (CoreModel.sample Ob Ac R unit).

(** What the methods of the agent use: the policy, the update of the values given the action
    drawn in the next state, and the resetting of the traces. *)
Variable pol : L -> nat -> Ob -> Ac.
Variable upd : L -> csample -> Ac -> L.
Variable begin : L -> L.
Variable env_reset : En -> option Ob -> En * Ob.
Variable env_step : En -> Ac -> En * Ob * R * bool.
Variable hor : option nat.

(** Values and traces, next_action, number of draws of the policy, whether fit never raised. *)
Record sagent := mkSA { s_l : L; s_next : option Ac; s_draws : nat; s_ok : bool }.

(** Agent.draw_action, agent.py 89-103. *)
Definition s_draw (a : sagent) (s : Ob) : sagent * Ac :=
  match s_next a with
  | None => (mkSA (s_l a) None (s_draws a + 1) (s_ok a), pol (s_l a) (s_draws a) s)
  | Some b => (mkSA (s_l a) None (s_draws a) (s_ok a), b)
  end.

(** TD.fit, td.py 28-32, and _update. *)
Definition s_fit (a : sagent) (d : CoreModel.dataset Ob Ac R unit unit) : sagent :=
  match CoreModel.rows d with
  | [x] => let (a1, b) := s_draw a (CoreModel.next_state x) in
           mkSA (upd (s_l a1) x b) (Some b) (s_draws a1) (s_ok a1)
  | _ => mkSA (s_l a) (s_next a) (s_draws a) false
  end.

(** episode_start; core.py 178 sets next_action to None afterwards. *)
Definition s_start (a : sagent) : sagent := mkSA (begin (s_l a)) (s_next a) (s_draws a) (s_ok a).
Definition s_clear (a : sagent) : sagent := mkSA (s_l a) None (s_draws a) (s_ok a).

Definition s_world : CoreModel.world En sagent Ob Ac R unit unit :=
  CoreModel.mkW En sagent Ob Ac R unit unit env_reset env_step
    (fun a _ => (s_start a, tt, tt)) (fun a o _ => let (a', b) := s_draw a o in (a', b, tt))
    (fun a o => (a, o)) s_clear false hor s_fit.
End Agent.

(** ** The four agents *)
Section Agents.
Context {Rt : Type}.
Variable (gamma lam : R) (kind : trace_kind).

(** _update of SARSA, sarsa.py 15-23; the learning rate is called with state and action. *)
Definition sarsa_of (rate : Rt -> nat -> nat -> R * Rt) (l : table * Rt) (x : CoreModel.sample nat nat R unit) (b : nat) : table * Rt :=
  let (al, rt) := rate (snd l) (CoreModel.state x) (CoreModel.action x) in
  (sarsa_update gamma al b (fst l) {| x_s := CoreModel.state x; x_a := CoreModel.action x; x_r := CoreModel.reward x;
                                     x_s' := CoreModel.next_state x; x_abs := CoreModel.absorbing x |}, rt).

(** SARSALambda, sarsa_lambda.py 32-47. *)
Definition sarsa_lambda_of (rate : Rt -> nat -> nat -> R * Rt) (l : table * table * Rt) (x : CoreModel.sample nat nat R unit) (b : nat) : table * table * Rt :=
  let (al, rt) := rate (snd l) (CoreModel.state x) (CoreModel.action x) in
  (sarsa_lambda_update kind gamma al lam b (fst l) {| x_s := CoreModel.state x; x_a := CoreModel.action x; x_r := CoreModel.reward x;
                                                     x_s' := CoreModel.next_state x; x_abs := CoreModel.absorbing x |}, rt).
Definition sarsa_lambda_begin (l : table * table * Rt) : table * table * Rt := (fst (fst l), trace_reset (snd (fst l)), snd l).

(** TrueOnlineSARSALambda, true_online_sarsa_lambda.py 39-68. *)
Context {Ob Ac : Type}.
Variable phi : Ob -> Ac -> list R.
Definition true_online_of (rate : Rt -> Ob -> Ac -> R * Rt) (l : to_state * Rt) (x : CoreModel.sample Ob Ac R unit) (b : Ac) : to_state * Rt :=
  let (al, rt) := rate (snd l) (CoreModel.state x) (CoreModel.action x) in
  (true_online_update gamma al lam (CoreModel.reward x) (CoreModel.absorbing x)
     (phi (CoreModel.state x) (CoreModel.action x)) (phi (CoreModel.next_state x) b) (fst l), rt).
Definition true_online_begin (l : to_state * Rt) : to_state * Rt :=
  ({| o_theta := o_theta (fst l); o_e := map (fun _ => 0%R) (o_theta (fst l)); o_qold := None |}, snd l).

(** SARSALambdaContinuous, sarsa_lambda_continuous.py 34-55. *)
Definition sarsa_cont_of (rate : Rt -> Ob -> Ac -> R * Rt) (l : list R * list R * Rt) (x : CoreModel.sample Ob Ac R unit) (b : Ac) : list R * list R * Rt :=
  let (al, rt) := rate (snd l) (CoreModel.state x) (CoreModel.action x) in
  (sarsa_cont_update gamma al lam (CoreModel.reward x) (CoreModel.absorbing x)
     (phi (CoreModel.state x) (CoreModel.action x)) (phi (CoreModel.next_state x) b) (fst l), rt).
Definition sarsa_cont_begin (l : list R * list R * Rt) : list R * list R * Rt := (fst (fst l), map (fun _ => 0%R) (fst (fst l)), snd l).
End Agents.

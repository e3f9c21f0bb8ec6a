(** Composition: [Core] (CoreModel.v) driving PPO and A2C (PpoModel.v).

    Cited code: core/core.py 98-180; core/agent.py 80-103 (draw_action applies the agent
    preprocessors of the agent to the state, then samples from the policy; next_action is
    never set by these agents); algorithms/actor_critic/deep_actor_critic/ppo.py 73-107 and
    a2c.py 59-75 (fit), deep_actor_critic.py 6-20.

    Simplifications: no core preprocessors; the policy is any function of its weights, the
    number of draws made so far (its source of randomness) and the state it sees; the optimizer
    step is any function of weights and loss (PpoModel.v), with no state of its own; schedules of
    epsilon and of the entropy coefficient and shuffles are functions of the number of the
    fit; a fit that raises or produces NaN leaves the agent as it is and is recorded in
    [c_ok] (in Python the NaN ends up in the weights). *)
From Coq Require Import List Arith Lia Bool Reals.
From Verif Require Import Common PpoModel.
From Verif Require CoreModel.
Import ListNotations.

Section Agent.
Context {En X Ac W Pp Cr : Type}.
Notation ag := (@agent W Pp Cr).
Notation csample := (CoreModel.sample X Ac R unit).
Variable call : Pp -> X -> X.
Variable pol : W -> nat -> X -> Ac.
(** fit of the algorithm: number of the fit, agent, dataset *)
Variable upd : nat -> ag -> list (@trans X Ac) -> option ag.
Variable env_reset : En -> option X -> En * X.
Variable env_step : En -> Ac -> En * X * R * bool.
Variable hor : option nat.

(** Agent, number of draws, number of fits, whether no fit failed. *)
Record cagent := mkCA { c_ag : ag; c_draws : nat; c_fits : nat; c_ok : bool }.

(** Agent.draw_action, agent.py 89-103. *)
Definition c_draw (a : cagent) (o : X) : cagent * Ac :=
  (mkCA (c_ag a) (c_draws a + 1) (c_fits a) (c_ok a), pol (a_w (c_ag a)) (c_draws a) (acting_state call (c_ag a) o)).

(** dataset.parse (ppo.py 74, a2c.py 60), one row *)
Definition c_read (x : csample) : @trans X Ac :=
  {| t_s := CoreModel.state x; t_a := CoreModel.action x; t_r := CoreModel.reward x; t_ns := CoreModel.next_state x;
     t_abs := CoreModel.absorbing x; t_last := CoreModel.last x |}.

(** fit *)
Definition c_fit (a : cagent) (d : CoreModel.dataset X Ac R unit unit) : cagent :=
  match upd (c_fits a) (c_ag a) (map c_read (CoreModel.rows d)) with
  | Some g => mkCA g (c_draws a) (c_fits a + 1) (c_ok a)
  | None => mkCA (c_ag a) (c_draws a) (c_fits a + 1) false
  end.

Definition c_world : CoreModel.world En cagent X Ac R unit unit :=
  CoreModel.mkW En cagent X Ac R unit unit env_reset env_step
    (fun a _ => (a, tt, tt)) (fun a o _ => let (a', b) := c_draw a o in (a', b, tt))
    (fun a o => (a, o)) (fun a => a) false hor c_fit.
End Agent.

Section Algorithms.
Context {W X Ac Pp Cr : Type}.
Variables (logp : W -> X -> Ac -> R) (ent : W -> list X -> R) (opt : W -> (W -> R) -> W).
Variables (call : Pp -> X -> X) (pupd : Pp -> list X -> Pp) (val : Cr -> X -> R) (cfit : Cr -> list X -> list R -> Cr).
Variables (gamma lam : R).

(** PPO.fit number [f]; [perms f n] are the shuffles of its epochs for [n] rows *)
Definition ppo_upd (eps cs : nat -> nat -> R) (bs : nat) (d : @prow X Ac) (perms : nat -> nat -> list (list nat))
    (f : nat) (ag : @agent W Pp Cr) (ds : list (@trans X Ac)) : option agent :=
  ppo_fit logp ent opt call pupd val cfit gamma lam (eps f) (cs f) bs d (perms f (length ds)) ag ds.

(** A2C.fit number [f] *)
Definition a2c_upd (cs : nat -> R) (f : nat) (ag : @agent W Pp Cr) (ds : list (@trans X Ac)) : option agent :=
  a2c_fit logp ent opt val cfit gamma (cs f) ag ds.
End Algorithms.

(** Composition: [VectorCore] (VecLearnModel.v) driving PPO and A2C (PpoModel.v, CorePpoModel.v).

    Cited code: core/agent.py 80-103 (draw_action on a batch of states, one per environment);
    policy/torch_policy.py 38-43 (a batch of actions, one independent draw per row);
    algorithms/actor_critic/deep_actor_critic/ppo.py 73-107, a2c.py 59-75 (fit).
    The simplifications are those of CorePpoModel.v and VecLearnModel.v; the draws are numbered,
    also those for environments that do not take part in the step. *)
From Coq Require Import List Arith Reals.
From Verif Require Import Common PpoModel CorePpoModel VecLearnModel.
From Verif Require CoreModel.
Import ListNotations.

Section VecPpo.
Context {E X Ac W Pp Cr : Type}.
Notation cag := (@cagent W Pp Cr).
Variable n : nat.
Variable hor : option nat.
Variable garb : nat -> nat -> nat -> bool.
Variable e_reset : E -> E * X.
Variable e_step : E -> Ac -> E * X * R * bool.
Variable call : Pp -> X -> X.
Variable pol : W -> nat -> X -> Ac.
Variable upd : nat -> @agent W Pp Cr -> list (@trans X Ac) -> option (@agent W Pp Cr).

(** Agent.draw_action, agent.py 89-103, with one state per environment. *)
Definition v_draw (a : cag) (xs : list X) : cag * list Ac :=
  (mkCA (c_ag a) (c_draws a + length xs) (c_fits a) (c_ok a),
   map (fun p => pol (a_w (c_ag a)) (c_draws a + fst p) (acting_state call (c_ag a) (snd p))) (combine (seq 0 (length xs)) xs)).

(** fit on the flattened dataset *)
Definition v_fit (a : cag) (d : list (CoreModel.sample X Ac R unit)) : cag := c_fit upd a (CoreModel.mkD d []).

Definition vec_learn := xlearn n hor garb e_reset e_step v_draw v_fit.
End VecPpo.

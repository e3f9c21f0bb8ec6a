(** Composition: [Core] (CoreModel.v) driving the policy-gradient agents (PgModel.v).

    Cited code: core/core.py 98-180; core/agent.py 73-103 (draw_action samples from the policy,
    next_action is never set by these agents); algorithms/policy_search/policy_gradient/
    policy_gradient.py 34-71 (fit parses the dataset with the weights of the policy, then
    [theta_new = optimizer(theta_old, grad)] and set_weights), 123-141 (_parse).

    Simplifications: no core preprocessors; a policy is any function of its weights, the number
    of draws made so far (its source of randomness) and the observation; the optimizer is any
    function with its own state; an exception raised by fit leaves the policy as it is and is
    recorded in [p_ok] (in Python it also ends the call of learn). *)
From Coq Require Import List Arith Lia Bool Reals.
From Verif Require Import Common PgModel.
From Verif Require CoreModel.
Import ListNotations.

Section Agent.
Context {En Ob Ac S G Os : Type}.
Notation csample := (CoreModel.sample Ob Ac R unit).
Variable gamma : R.
Variable al : algo S G.
Variable dlog : vec -> Ob -> Ac -> vec.
Variable phi : Ob -> list R.
Variable pol : vec -> nat -> Ob -> Ac.
Variable opt : Os -> vec -> G -> Os * vec.
Variable env_reset : En -> option Ob -> En * Ob.
Variable env_step : En -> Ac -> En * Ob * R * bool.
Variable hor : option nat.

(** Weights of the policy, attributes of the algorithm, state of the optimizer, number of draws
    of the policy, whether fit never raised. *)
Record pagent := mkPA { p_w : vec; p_s : S; p_o : Os; p_draws : nat; p_ok : bool }.

(** Agent.draw_action, agent.py 89-103. *)
Definition p_draw (a : pagent) (o : Ob) : pagent * Ac :=
  (mkPA (p_w a) (p_s a) (p_o a) (p_draws a + 1) (p_ok a), pol (p_w a) (p_draws a) o).

(** What the algorithm reads from a row: _parse 123-141 and policy.diff_log with the weights at
    the time of the fit. *)
Definition p_read (w : vec) (x : csample) : sample :=
  {| score := dlog w (CoreModel.state x) (CoreModel.action x); rew := CoreModel.reward x;
     phi_c := phi (CoreModel.state x); lst := CoreModel.last x |}.

(** PolicyGradient.fit 34-54 and _update_parameters 56-71. *)
Definition p_fit (a : pagent) (d : CoreModel.dataset Ob Ac R unit unit) : pagent :=
  match pg_fit gamma al (p_s a) (map (p_read (p_w a)) (CoreModel.rows d)) with
  | (s, Some g) => let (o, w) := opt (p_o a) (p_w a) g in mkPA w s o (p_draws a) (p_ok a)
  | (s, None) => mkPA (p_w a) s (p_o a) (p_draws a) false
  end.

Definition p_world : CoreModel.world En pagent Ob Ac R unit unit :=
  CoreModel.mkW En pagent Ob Ac R unit unit env_reset env_step
    (fun a _ => (a, tt, tt)) (fun a o _ => let (a', b) := p_draw a o in (a', b, tt))
    (fun a o => (a, o)) (fun a => a) false hor p_fit.
End Agent.

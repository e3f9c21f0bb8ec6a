(** Composition: [Core.learn] (CoreModel.v) driving a [QLearning] agent with an [EpsGreedy] policy
    (CoreTdModel.v) in a [FiniteMDP] (FmdpModel.v).

    Cited code: core/core.py 98-180, environments/finite_mdp.py 42-66, and the code cited in
    CoreTdModel.v.

    Simplifications: the random numbers of the environment are given by the functions [b] (state
    drawn by the i-th call that draws, when it is reset) and [w] (state drawn by the i-th call
    that draws, when it is a step from the given state with the given action); the library's
    one-element arrays for states and actions are plain numbers. *)
From Coq Require Import List Arith Lia Bool Reals.
From Verif Require Import Common ParamModel PolicyModel TdModel CoreTdModel FmdpModel.
From Verif Require CoreModel.
Import ListNotations.

(** Q-learning in any environment with finitely many states and actions. *)
Definition g_world {En : Type} (k : nat) (gamma eps : R) (hor : option nat) (u : nat -> R) (c r : nat -> nat)
    (ereset : En -> option nat -> En * nat) (estep : En -> nat -> En * nat * R * bool) : CoreModel.world En qagent nat nat R unit unit :=
  CoreModel.mkW En qagent nat nat R unit unit
    ereset estep
    (fun a _ => (a, tt, tt))
    (q_draw eps u c r)
    (fun a o => (a, o)) (fun a => a)
    false hor (q_fit k gamma).

(** The environment: its state, the number of draws, and whether no call has raised. *)
Record fenv := mkF { f_s : nat; f_clock : nat; f_ok : bool }.

(** FiniteMDP.reset (finite_mdp.py 42-53). *)
Definition f_reset (b : nat -> nat) (en : fenv) (i : option nat) : fenv * nat :=
  match i with
  | Some o => (mkF o (f_clock en) (f_ok en), o)
  | None => (mkF (b (f_clock en)) (f_clock en + 1) (f_ok en), b (f_clock en))
  end.
(** FiniteMDP.step (finite_mdp.py 55-66). *)
Definition f_step (n k : nat) (p rw : nat -> nat -> nat -> R) (w : nat -> nat -> nat -> nat) (en : fenv) (a : nat) : fenv * nat * R * bool :=
  match fmdp_step n k p rw (f_s en) a (w (f_clock en) (f_s en) a) with
  | Some (s', x, ab) => (mkF s' (f_clock en + 1) (f_ok en), s', x, ab)
  | None => (mkF (f_s en) (f_clock en) false, f_s en, 0%R, true)
  end.

Definition f_world (n k : nat) (p rw : nat -> nat -> nat -> R) (gamma eps : R) (hor : option nat)
    (u : nat -> R) (c r : nat -> nat) (b : nat -> nat) (w : nat -> nat -> nat -> nat) : CoreModel.world fenv qagent nat nat R unit unit :=
  g_world k gamma eps hor u c r (f_reset b) (f_step n k p rw w).

(** Composition: [VectorCore.learn] (VecLearnModel.v) driving agents with a replay memory: those of
    CoreReplayModel.v (DDPG, TD3, SAC and DQN have their fit) and Rainbow (RainbowModel.v).

    Cited code: core/vectorized_core.py 42-138; ddpg.py 92-115, sac.py 264-295, abstract_dqn.py
    83-101, rainbow.py 122-166 (fit); core/agent.py 68-104 (draw_action on the batch of states).

    Simplifications: those of the three models; the action of a batch of states is an arbitrary
    function with one action per environment. *)
From Coq Require Import List Arith Bool Reals.
From Verif Require Import Common ReplayModel SumTreeModel VecCoreModel VecLearnModel.
From Verif Require CoreModel CoreReplayModel RainbowModel.
Import ListNotations.

Section Replay.
Context {E X A L P : Type}.
Notation ragent := (@CoreReplayModel.ragent X A L P).
Variable n : nat.
Variable hor : option nat.
Variable garb : nat -> nat -> nat -> bool.
Variable e_reset : E -> E * X.
Variable e_step : E -> A -> E * X * R * bool.
Variable (learn : L -> nat -> nat -> list (sample X A unit) -> L) (tick : L -> L).
Variable (vpol : L -> P -> list X -> P * list A).
Variable (drawn : nat -> nat -> list nat).

Definition vr_draw (a : ragent) (xs : list X) : ragent * list A :=
  let (p, us) := vpol (CoreReplayModel.r_learner a) (CoreReplayModel.r_pol a) xs in
  (CoreReplayModel.mkRA (CoreReplayModel.r_mem a) (CoreReplayModel.r_learner a) p (CoreReplayModel.r_fits a) (CoreReplayModel.r_ok a) (CoreReplayModel.r_hist a), us).
(** fit on the flattened dataset *)
Definition vr_fit (a : ragent) (d : list (CoreModel.sample X A R unit)) : ragent :=
  CoreReplayModel.replay_fit learn tick drawn a (CoreModel.mkD d []).
Definition vr_learn := xlearn n hor garb e_reset e_step vr_draw vr_fit.
End Replay.

Section Rainbow.
Context {E X A Wt : Type}.
Notation ragent := (@RainbowModel.ragent X A Wt).
Variable n : nat.
Variable hor : option nat.
Variable garb : nat -> nat -> nat -> bool.
Variable e_reset : E -> E * X.
Variable e_step : E -> A -> E * X * R * bool.
Variable (qval : Wt -> X -> list R) (dist : Wt -> X -> nat -> list R) (dista : Wt -> X -> A -> list R).
Variable (train : Wt -> list (X * A * list R) -> list R -> Wt).
Variable (vpol : Wt -> nat -> list X -> list A).
Variable (unif : nat -> nat -> R) (coin : nat -> nat -> nat -> bool) (beta : nat -> R).
Variable (gamma : R) (clip_reward : bool) (freq bs ini : nat) (eps alpha : R).
Variable (nst na : nat) (vmin vmax aeps : R).

Definition vb_draw (a : ragent) (xs : list X) : ragent * list A :=
  (RainbowModel.mkRa (RainbowModel.r_tree a) (RainbowModel.r_w a) (RainbowModel.r_target a) (RainbowModel.r_updates a) (RainbowModel.r_drawn a + 1) (RainbowModel.r_ok a),
   vpol (RainbowModel.r_w a) (RainbowModel.r_drawn a) xs).
Definition vb_fit (a : ragent) (d : list (CoreModel.sample X A R unit)) : ragent :=
  RainbowModel.rb_fit qval dist dista train unif coin beta gamma clip_reward freq bs ini eps alpha nst na vmin vmax aeps a (CoreModel.mkD d []).
Definition vb_learn := xlearn n hor garb e_reset e_step vb_draw vb_fit.
End Rainbow.

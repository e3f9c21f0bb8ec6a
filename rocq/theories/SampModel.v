(** A world for [Core] (file CoreModel.v) in which the environment and the policy draw from random
    generators.

    Each of the two generators is a tape of independent draws, whose head is removed by every use:
    one entry of the environment's tape by [reset] and by [step], one entry of the policy's by
    [draw_action].  The entries are turned into an initial state, an outcome or an action by
    arbitrary functions [init], [out] and [pol]; the memory of the agent is of any type, and what
    [fit] does with it is an arbitrary function of the rows it gets (the random numbers of a
    fit, if any, are part of that memory).

    Simplifications: the environment is fully observed and the agent has no core preprocessors;
    numpy's single global generator, which the environments and the numpy policies share, is
    represented by two, and the numbers it yields are taken to be independent draws from a
    finite distribution.  [de] and [da] stand for a draw from an empty tape; the theorems use
    tapes that are long enough. *)
From Coq Require Import List Bool Arith Reals.
From Verif Require Import Common.
From Verif Require CoreModel.
Import ListNotations.

Definition pop {A} (d : A) (t : list A) : A * list A :=
  match t with [] => (d, []) | x :: t' => (x, t') end.

Section World.
Context {St Ac A0 Oe Oa : Type}.
Variables (de : Oe) (da : Oa).
Variable init : Oe -> St.
Variable out : St -> Ac -> Oe -> St * R * bool.
Variable pol : A0 -> St -> Oa -> Ac.
Notation row := (CoreModel.sample St Ac R unit).
Variable fit0 : A0 -> list row -> A0.
Variable h : nat.                         (* horizon h + 1 *)

(** Environment.reset (environment.py 143-154): the state given, or one drawn *)
Definition s_reset (e : St * list Oe) (i : option St) : (St * list Oe) * St :=
  match i with
  | Some s => ((s, snd e), s)
  | None => let (w, te) := pop de (snd e) in ((init w, te), init w)
  end.

(** Environment.step (environment.py 156-169) *)
Definition s_step (e : St * list Oe) (a : Ac) : (St * list Oe) * St * R * bool :=
  let (w, te) := pop de (snd e) in
  let '(s', r, ab) := out (fst e) a w in ((s', te), s', r, ab).

(** Agent.draw_action (agent.py 80-104) *)
Definition s_draw (a : A0 * list Oa) (s : St) (p : unit) : (A0 * list Oa) * Ac * unit :=
  let (w, ta) := pop da (snd a) in ((fst a, ta), pol (fst a) s w, tt).

Definition s_fit (a : A0 * list Oa) (d : CoreModel.dataset St Ac R unit unit) : A0 * list Oa :=
  (fit0 (fst a) (CoreModel.rows d), snd a).

Definition s_world : CoreModel.world (St * list Oe) (A0 * list Oa) St Ac R unit unit :=
  CoreModel.mkW (St * list Oe) (A0 * list Oa) St Ac R unit unit s_reset s_step
    (fun a _ => (a, tt, tt)) s_draw (fun a o => (a, o)) (fun a => a) false (Some (S h)) s_fit.
End World.

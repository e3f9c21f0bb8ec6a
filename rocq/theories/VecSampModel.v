(** [VectorCore.evaluate] (core/vectorized_core.py 71-98, 100-138) with values, and environments and
    a policy that draw from random generators.

    Every environment has a generator of its own: a tape of independent draws, one entry of which is
    used by [reset] and by [step] (as in SampModel.v).  The policy is asked once for the whole batch
    of states and uses one entry of its tape for every row of the batch, also for the environments
    that do not take part in the step (vectorized_core.py 145-150).

    Simplifications: those of VecLearnModel.v and SampModel.v; evaluate without [initial_states] and
    not quiet, the policy's [episode_start] without effect. *)
From Coq Require Import List Arith Bool Reals.
From Verif Require Import Common VecCoreModel VecLearnModel SampModel.
From Verif Require CoreModel.
Import ListNotations.

Section Evaluate.
Context {E X A Ag : Type}.
Notation vsample := (CoreModel.sample X A R unit).
Variable n : nat.
Variable hor : option nat.
Variable garb : nat -> nat -> nat -> bool.
Variable e_reset : E -> E * X.
Variable e_step : E -> A -> E * X * R * bool.
Variable draw : Ag -> list X -> Ag * list A.
Variable fitf : Ag -> list vsample -> Ag.

(** vectorized_core.py 71-98 *)
Definition xevaluate (fuel : nat) (l : CoreModel.logic) (es : list (E * X)) (a : Ag) (ns ne : option nat) : xoutcome :=
  match vcapacity (W_of n hor garb []) ns ne, CoreModel.initialize_run (CoreModel.initialize_evaluate l) ns ne (@None (list nat)) with
  | Some cap, Some l2 => xloop n hor garb e_reset e_step draw fitf fuel cap (mkX (vstart (W_of n hor garb []) cap l2) es a [] [])
  | _, _ => XCrash
  end.

(** The dataset returned: [dataset.flatten()] (vectorized_core.py 133-138, dataset.py 590-632) *)
Definition xdataset (o : @xoutcome E X A Ag) : option (list vsample) :=
  match o with
  | XDone s => read_all (x_tab s) (fst (flatten (W_of n hor garb []) (v_ds (x_r s)) None))
  | _ => None
  end.
End Evaluate.

Section World.
Context {St Ac A0 Oe Oa : Type}.
Variables (de : Oe) (da : Oa).
Variable init : Oe -> St.
Variable out : St -> Ac -> Oe -> St * R * bool.
Variable pol : A0 -> St -> Oa -> Ac.
Notation row := (CoreModel.sample St Ac R unit).
Variable fit0 : A0 -> list row -> A0.

Definition n_reset (e : St * list Oe) : (St * list Oe) * St := s_reset de init e None.
Definition n_step (e : St * list Oe) (a : Ac) : (St * list Oe) * St * R * bool := s_step de out e a.

(** Agent.draw_action on a batch of states (agent.py 80-104) *)
Fixpoint draw_all (g : A0) (ta : list Oa) (xs : list St) : list Oa * list Ac :=
  match xs with
  | [] => (ta, [])
  | x :: xs' => let (w, ta1) := pop da ta in let (ta2, acts) := draw_all g ta1 xs' in (ta2, pol g x w :: acts)
  end.
Definition n_draw (a : A0 * list Oa) (xs : list St) : (A0 * list Oa) * list Ac :=
  let (ta, acts) := draw_all (fst a) (snd a) xs in ((fst a, ta), acts).
Definition n_fit (a : A0 * list Oa) (d : list row) : A0 * list Oa := (fit0 (fst a) d, snd a).

(** A core just built: environments with their tapes, nothing observed that matters. *)
Definition envs_of (ss : list (St * St)) (tes : list (list Oe)) : list ((St * list Oe) * St) :=
  map (fun p => ((fst (fst p), snd p), snd (fst p))) (combine ss tes).
End World.

(** Specification of a run of [Core]: which event sequences are executions of
    the agent in the environment.  Written as a small transition system that
    knows nothing about counters, schedules or datasets. *)
From Coq Require Import List Arith Bool.
From Verif Require Import CoreModel EpisodeSpec.
Import ListNotations.

Section Spec.
Context {En Ag Ob Ac Rw Ps Th : Type}.
Variable W : world En Ag Ob Ac Rw Ps Th.

(** Between episodes, or inside an episode at observation [o], policy state [ps],
    after [n] steps. *)
Inductive phase :=
| Between (e : En) (a : Ag)
| Inside (e : En) (a : Ag) (o : Ob) (ps : Ps) (n : nat).

Inductive estep : phase -> event Ob Ac Rw Ps Th -> phase -> Prop :=
| es_reset : forall e a i e' raw a1 a2 ps th o,
    env_reset W e i = (e', raw) ->
    ep_start W a raw = (a1, ps, th) ->
    prep W a1 raw = (a2, o) ->
    estep (Between e a) (EvReset i o ps th) (Inside e' (clear_next W a2) o ps 0)
| es_sample : forall e a o ps n x a1 e' raw a2,
    state x = o -> pstate x = ps ->
    draw W a o ps = (a1, action x, pnext x) ->
    env_step W e (action x) = (e', raw, reward x, absorbing x) ->
    prep W a1 raw = (a2, next_state x) ->
    (last x = true <-> absorbing x = true \/ (exists h, horizon W = Some h /\ h <= n + 1)) ->
    estep (Inside e a o ps n) (EvSample x)
          (if last x then Between e' a2 else Inside e' a2 (next_state x) (pnext x) (n + 1))
| es_fit_between : forall e a d, estep (Between e a) (EvFit d) (Between e (fit W a d))
| es_fit_inside : forall e a o ps n d,
    estep (Inside e a o ps n) (EvFit d) (Inside e (fit W a d) o ps n).

Inductive trace (p : phase) : list (event Ob Ac Rw Ps Th) -> phase -> Prop :=
| tr_nil : trace p [] p
| tr_snoc : forall log q ev q', trace p log q -> estep q ev q' -> trace p (log ++ [ev]) q'.

(** An episode respects the horizon: at most [h] samples, and if it is finished
    without reaching [h], it ended in an absorbing state. *)
Definition respects_horizon (e : list (sample Ob Ac Rw Ps)) : Prop :=
  match horizon W with
  | Some h => length e <= h /\
      (length e < h -> match rev e with x :: _ => absorbing x = true | [] => False end)
  | None => match rev e with x :: _ => absorbing x = true | [] => False end
  end.

End Spec.
Arguments phase : clear implicits.

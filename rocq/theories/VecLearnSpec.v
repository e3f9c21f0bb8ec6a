(** What a user of VectorCore expects of a training run, in terms of its events: environments are
    reset, take steps together, and the agent is fitted. *)
From Coq Require Import List Arith Bool Reals.
From Verif Require Import VecLearnModel.
From Verif Require CoreModel.
Import ListNotations.

Section Spec.
Context {E X A Ag : Type}.
Notation vsample := (CoreModel.sample X A R unit).
Notation event := (xevent X A).
Variable n : nat.
Variable hor : option nat.
Variable e_reset : E -> E * X.
Variable e_step : E -> A -> E * X * R * bool.
Variable draw : Ag -> list X -> Ag * list A.
Variable fitf : Ag -> list vsample -> Ag.

(** Environments with the observation each shows, and the agent. *)
Definition conf := (list (E * X) * Ag)%type.

(** One event: a reset touches the environments it names; in a step the agent is asked once, with
    the observations shown, and each environment that takes part makes the step of its own action,
    the transition recorded being exactly that; a fit changes the agent only. *)
Inductive happens : conf -> event -> conf -> Prop :=
| h_reset : forall m es es' a, length es = n -> length es' = n ->
    (forall j e o, nth_error es j = Some (e, o) ->
       nth_error es' j = Some (if nth j m false then e_reset e else (e, o))) ->
    happens (es, a) (XReset m) (es', a)
| h_step : forall row es es' a a' acts, length es = n -> length es' = n -> length row = n ->
    draw a (map snd es) = (a', acts) ->
    (forall j e o, nth_error es j = Some (e, o) ->
       match nth j row None with
       | None => nth_error es' j = Some (e, o)
       | Some x => CoreModel.state x = o /\ nth_error acts j = Some (CoreModel.action x) /\
                   exists e', e_step e (CoreModel.action x) = (e', CoreModel.next_state x, CoreModel.reward x, CoreModel.absorbing x) /\
                              nth_error es' j = Some (e', CoreModel.next_state x)
       end) ->
    happens (es, a) (XStep row) (es', a')
| h_fit : forall d es a, happens (es, a) (XFit d) (es, fitf a d).

Inductive history : conf -> list event -> conf -> Prop :=
| hi_nil : forall c, history c [] c
| hi_snoc : forall c l c1 ev c2, history c l c1 -> happens c1 ev c2 -> history c (l ++ [ev]) c2.

(** The life of environment [j]: [None] between episodes, [Some a] with [a] steps made in the
    episode in progress.  Only an environment between episodes is reset; one with an episode in
    progress takes part in every step and the others do not; an episode ends exactly at an
    absorbing state or with its horizon-th step. *)
Fixpoint lives (j : nat) (p : option nat) (l : list event) (q : option nat) : Prop :=
  match l with
  | [] => p = q
  | XReset m :: l' => if nth j m false then p = None /\ lives j (Some 0) l' q else lives j p l' q
  | XStep row :: l' =>
      match nth j row None with
      | None => p = None /\ lives j None l' q
      | Some x => exists a, p = Some a /\
                  (CoreModel.last x = true <-> CoreModel.absorbing x = true \/ exists h, hor = Some h /\ h <= a + 1) /\
                  lives j (if CoreModel.last x then None else Some (a + 1)) l' q
      end
  | XFit _ :: l' => lives j p l' q
  end.

Definition rows_of (l : list event) : list (list (option vsample)) :=
  flat_map (fun e => match e with XStep r => [r] | _ => [] end) l.
Definition xfits_of (l : list event) : list (list vsample) :=
  flat_map (fun e => match e with XFit d => [d] | _ => [] end) l.

(** The transitions of environment [j]. *)
Definition of_env (j : nat) (l : list event) : list vsample :=
  flat_map (fun r => match nth j r None with Some x => [x] | None => [] end) (rows_of l).

(** A sequence of transitions whose last one is declared to end its episode. *)
Fixpoint closed (xs : list vsample) : list vsample :=
  match xs with
  | [] => []
  | [x] => [with_last x true]
  | x :: xs' => x :: closed xs'
  end.

(** The transitions of all environments, one environment after the other. *)
Definition by_env (l : list event) : list vsample := flat_map (fun j => closed (of_env j l)) (seq 0 n).

(** Every fit gets the transitions made since the one before, environment by environment, each
    environment's part declared to end with its last transition. *)
Definition fits_by_env (l : list event) : Prop :=
  forall u d v, l = u ++ XFit d :: v ->
  exists u0 w, u = u0 ++ w /\ (u0 = [] \/ exists u1 d1, u0 = u1 ++ [XFit d1]) /\ xfits_of w = [] /\ d = by_env w.
End Spec.

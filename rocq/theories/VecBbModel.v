(** Composition: [VectorCore.learn] (VecLearnModel.v) driving a [BlackBoxOptimization] agent.

    Cited code: algorithms/policy_search/black_box_optimization/black_box_optimization.py 58-103
    (episode_start_vectorized, fit, set_deterministic), context_builder.py 4-13,
    policy/vector_policy.py 22-35 and 47-74 (draw_action, set_weights, get_weights),
    core/vectorized_core.py 106-131 and 177-202, core/dataset.py 557-560, 563-583, 634-645 (theta lists).

    [VectorCore._reset] calls episode_start_vectorized after reset_all with the mask of the
    environments that were reset and the buffer of observations, and the next thing that happens
    is draw_action on that buffer.  VecLearnModel has no such call; here every observation carries
    a mark that says whether it was made by a reset, so that the mask is known when the actions
    are drawn, and the two calls are made there.  A call of episode_start_vectorized with an empty
    mask changes nothing for a policy without a state.

    Simplifications: those of VecLearnModel; the policy is a VectorPolicy of the right size from
    the beginning (the agent makes it at the first call; VpolModel.v is about its size); the
    context builder works row by row; the dataset's list of parameters is kept with the agent;
    an exception clears [b_ok] and the model goes on. *)
From Coq Require Import List Arith Bool Reals.
From Verif Require Import Common VecCoreModel VecLearnModel.
From Verif Require CoreModel.
Import ListNotations.

Section VecBb.
Context {E X A D Th C : Type}.
Notation vsample := (CoreModel.sample (bool * X) A R unit).
Variable n : nat.
Variable hor : option nat.
Variable garb : nat -> nat -> nat -> bool.
Variable e_reset : E -> E * X.
Variable e_step : E -> A -> E * X * R * bool.
(** Whether the episode information given by the environment is a mapping, as episode_start_vectorized
    needs for [**episode_info]: the environments of the library (MultiprocessEnvironment.reset_all,
    multiprocess_environment.py 95-111; IsaacEnv) give a list of mappings.
    The context builder, [None] for the default one, which returns None; the deterministic flag;
    distribution.sample (with the number of the draw) and distribution.mean on an array of
    contexts; the policy with given weights (with the number of the draw); _update. *)
Variable maps : bool.
Variable bld : option (X -> C).
Variable det : bool.
Variable sample : D -> nat -> C -> Th.
Variable mean : D -> list C -> list Th.
Variable pol : Th -> nat -> X -> A.
Variable w0 : Th.
Variable upd : D -> list vsample -> list Th -> D.

Definition t_reset (e : E) : E * (bool * X) := let (e', o) := e_reset e in (e', (true, o)).
Definition t_step (e : E) (a : A) : E * (bool * X) * R * bool := let '(e', o, r, ab) := e_step e a in (e', (false, o), r, ab).
Definition tag (es : list (E * X)) : list (E * (bool * X)) := map (fun p => (fst p, (false, snd p))) es.

(** Distribution, weights of the policies, lists of parameters of the dataset, number of samples
    and of actions drawn, whether nothing was raised. *)
Record bagent := mkBA { b_dist : D; b_w : list Th; b_th : list (list Th); b_draws : nat; b_acts : nat; b_ok : bool }.

(** Boolean indexing, and assignment to a boolean index. *)
Definition masked {Y} (m : list bool) (l : list Y) : list Y := map snd (filter fst (combine m l)).
Fixpoint put {Y} (m : list bool) (new base : list Y) : list Y :=
  match m, base with
  | true :: m', b :: base' => match new with x :: new' => x :: put m' new' base' | [] => b :: put m' [] base' end
  | false :: m', b :: base' => b :: put m' new base'
  | _, _ => base
  end.

(** black_box_optimization.py 65-82; None for an exception: [**] of a list; indexing the None of the
    default builder; indexing the array of the chosen contexts with the whole mask *)
Definition bb_theta (a : bagent) (flags : list bool) (obs : list X) : option (list Th) :=
  if existsb (fun b => b) flags then
    if negb maps then None else
    match bld with
    | None => None
    | Some c =>
        let cs := masked flags (map c obs) in
        if det then if length cs =? length flags then Some (put flags (mean (b_dist a) cs) (b_w a)) else None
        else Some (put flags (map (fun p => sample (b_dist a) (fst p) (snd p)) (combine (seq (b_draws a) (length cs)) cs)) (b_w a))
    end
  else Some (b_w a).

(** The rest of episode_start_vectorized and append_theta_vectorized (dataset.py 557-560). *)
Definition bb_start (a : bagent) (flags : list bool) (obs : list X) : bagent :=
  match bb_theta a flags obs with
  | None => mkBA (b_dist a) (b_w a) (b_th a) (b_draws a) (b_acts a) false
  | Some th =>
      mkBA (b_dist a) th
        (map (fun p => if fst p : bool then snd (snd p) ++ [fst (snd p)] else snd (snd p)) (combine flags (combine th (b_th a))))
        (b_draws a + length (filter (fun b => b) flags)) (b_acts a) (b_ok a)
  end.

(** VectorPolicy.draw_action (vector_policy.py 22-35) *)
Definition bb_draw (a : bagent) (xs : list (bool * X)) : bagent * list A :=
  let a1 := bb_start a (map fst xs) (map snd xs) in
  (mkBA (b_dist a1) (b_w a1) (b_th a1) (b_draws a1) (b_acts a1 + length xs) (b_ok a1),
   map (fun p => pol (nth (fst p) (b_w a1) w0) (b_acts a1 + fst p) (snd p)) (combine (seq 0 (length xs)) (map snd xs))).

(** fit (88-100); the list of parameters is that of the flattened dataset (dataset.py 634-640), and
    dataset.clear empties it (583) *)
Definition bb_fit (a : bagent) (d : list vsample) : bagent :=
  mkBA (upd (b_dist a) d (concat (b_th a))) (b_w a) (repeat [] n) (b_draws a) (b_acts a) (b_ok a).

(** learn starts with a new dataset. *)
Definition vbb_learn (fuel : nat) (l : CoreModel.logic) (es : list (E * X)) (a : bagent) (ns ne spf epf : option nat) :=
  xlearn n hor garb t_reset t_step bb_draw bb_fit fuel l (tag es)
    (mkBA (b_dist a) (b_w a) (repeat [] n) (b_draws a) (b_acts a) (b_ok a)) ns ne spf epf.
End VecBb.
Arguments bagent : clear implicits.

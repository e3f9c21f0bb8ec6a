(** The black-box optimisation agent
    (/repo/mushroom_rl/algorithms/policy_search/black_box_optimization/black_box_optimization.py)
    running in a Core (CoreModel.v).

    The distribution, the policy, the context builder and the update rule are arbitrary; [G] is
    the state of the random generators.  Every action carries, as an annotation that the
    environment does not see, the policy weights it was drawn with and the context of the
    episode.  A distribution without context has a constant context builder. *)
From Coq Require Import List Arith Lia Bool Reals.
From Verif Require Import Common EpisodeSpec CoreModel DatasetModel.
Import ListNotations.

Section Bbo.
Context {En D Th P G Cx Ob A Ps Q : Type}.
Variable dmean : D -> Cx -> Th.                      (* distribution.mean *)
Variable dsample : D -> Cx -> G -> G * Th.           (* distribution.sample *)
Variable build : Ob -> Cx.                           (* the context builder *)
Variable preset : P -> P * Ps.                       (* policy.reset *)
Variable pdraw : Th -> P -> G -> Ob -> Ps -> P * G * A * Ps.   (* policy.draw_action with given weights *)
Variable upd : D -> list R -> list Th -> list Cx -> D.  (* _update *)
Variable gamma : R.
Variable ereset : En -> option Ob -> En * Ob.
Variable estep : En -> A -> En * Ob * R * bool.
Variable pre : Q -> Ob -> Q * Ob.                    (* core preprocessors *)
Variable hor : option nat.

(** Attributes (30-38); [b_cx] is the context of the current episode (a local in the code). *)
Record bagent := { b_dist : D; b_det : bool; b_w : Th; b_pol : P; b_gen : G; b_pre : Q; b_cx : Cx }.

(** episode_start (41-55), flat policy *)
Definition bbo_start (a : bagent) (o : Ob) : bagent * Ps * Th :=
  let cx := build o in
  let '(g, th) := if b_det a then (b_gen a, dmean (b_dist a) cx) else dsample (b_dist a) cx (b_gen a) in
  let '(p, ps) := preset (b_pol a) in
  ({| b_dist := b_dist a; b_det := b_det a; b_w := th; b_pol := p; b_gen := g; b_pre := b_pre a; b_cx := cx |}, ps, th).
(** Agent.draw_action (agent.py 76-102) *)
Definition bbo_draw (a : bagent) (o : Ob) (ps : Ps) : bagent * (A * (Th * Cx)) * Ps :=
  let '(p, g, act, ps') := pdraw (b_w a) (b_pol a) (b_gen a) o ps in
  ({| b_dist := b_dist a; b_det := b_det a; b_w := b_w a; b_pol := p; b_gen := g; b_pre := b_pre a; b_cx := b_cx a |}, (act, (b_w a, b_cx a)), ps').
Definition bbo_pre (a : bagent) (o : Ob) : bagent * Ob :=
  let '(q, o') := pre (b_pre a) o in
  ({| b_dist := b_dist a; b_det := b_det a; b_w := b_w a; b_pol := b_pol a; b_gen := b_gen a; b_pre := q; b_cx := b_cx a |}, o').
(** fit (86-98): returns, parameters and contexts of the episodes of the dataset *)
Definition as_row (x : sample Ob (A * (Th * Cx)) R Ps) : row Ob A :=
  mkRow (state x) (fst (action x)) (reward x) (next_state x) (absorbing x) (last x).
Definition fit_returns (d : dataset Ob (A * (Th * Cx)) R Ps Th) : list R := compute_J gamma (map as_row (CoreModel.rows d)).
Definition fit_contexts (d : dataset Ob (A * (Th * Cx)) R Ps Th) : list Cx := map build (get_init_states (map as_row (CoreModel.rows d))).
Definition bbo_fit (a : bagent) (d : dataset Ob (A * (Th * Cx)) R Ps Th) : bagent :=
  {| b_dist := upd (b_dist a) (fit_returns d) (thetas d) (fit_contexts d);
     b_det := b_det a; b_w := b_w a; b_pol := b_pol a; b_gen := b_gen a; b_pre := b_pre a; b_cx := b_cx a |}.

Definition bbo_world : world En bagent Ob (A * (Th * Cx)) R Ps Th :=
  mkW _ _ _ _ _ _ _ ereset (fun e a => estep e (fst a)) bbo_start bbo_draw bbo_pre (fun a => a) true hor bbo_fit.

(** episode_start_vectorized (57-84): the parameters of the starting environments.  The context
    builder of an agent without context returns None (context_builder.py 12-13), which cannot be
    indexed; the result [None] is the exception.  [builder] is [None] exactly for the base class. *)
Definition start_vectorized_context (builder : option (list Ob -> list Cx)) (obs : list Ob) (start : list bool) : option (option (list Cx)) :=
  if existsb (fun b => b) start then
    match builder with
    | None => None
    | Some f => if length (f obs) =? length start
                then Some (Some (map fst (filter snd (combine (f obs) start)))) else None
    end
  else Some None.
(** The deterministic branch indexes the already selected contexts with the mask again: an
    IndexError when the number of selected contexts is not the length of the mask. *)
Definition start_vectorized_mean (dist : D) (builder : option (list Ob -> list Cx)) (obs : list Ob) (start : list bool) : option (list Th) :=
  match start_vectorized_context builder obs start with
  | Some (Some cs) => if length cs =? length start then Some (map (dmean dist) (map fst (filter snd (combine cs start)))) else None
  | Some None => Some []
  | None => None
  end.
End Bbo.

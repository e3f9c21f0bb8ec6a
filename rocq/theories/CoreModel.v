(** Model of [Core] and [CoreLogic]
    (/repo/mushroom_rl/core/core.py, /repo/mushroom_rl/core/_impl/core_logic.py).

    The environment, the agent (its policy, its random state, its preprocessors)
    are arbitrary functions over arbitrary state types.  Rendering, recording,
    progress bars, step/episode info dictionaries and user callbacks are left out.
    Python exceptions are explicit outcomes. *)
From Coq Require Import List Arith Lia Bool.
From Verif Require Import Common.
Import ListNotations.

(** One transition (the tuple built at core.py 166). *)
Record sample (Ob Ac Rw Ps : Type) := mkS {
  state : Ob; action : Ac; reward : Rw; next_state : Ob;
  absorbing : bool; last : bool; pstate : Ps; pnext : Ps }.
Arguments mkS {Ob Ac Rw Ps}. Arguments state {Ob Ac Rw Ps}. Arguments action {Ob Ac Rw Ps}.
Arguments reward {Ob Ac Rw Ps}. Arguments next_state {Ob Ac Rw Ps}. Arguments absorbing {Ob Ac Rw Ps}.
Arguments last {Ob Ac Rw Ps}. Arguments pstate {Ob Ac Rw Ps}. Arguments pnext {Ob Ac Rw Ps}.

(** A dataset: its rows and the list of episode parameters (core/dataset.py 107-109). *)
Record dataset (Ob Ac Rw Ps Th : Type) := mkD { rows : list (sample Ob Ac Rw Ps); thetas : list Th }.
Arguments mkD {Ob Ac Rw Ps Th}. Arguments rows {Ob Ac Rw Ps Th}. Arguments thetas {Ob Ac Rw Ps Th}.

(** The world a Core runs in: mushroom_rl/core/environment.py reset/step and
    mushroom_rl/core/agent.py episode_start/draw_action/fit, core preprocessors
    (agent.core_preprocessors, update then call, core.py 204-208).
    [En]/[Ag] are the complete internal states, including random generators. *)
Record world (En Ag Ob Ac Rw Ps Th : Type) := mkW {
  env_reset : En -> option Ob -> En * Ob;
  env_step : En -> Ac -> En * Ob * Rw * bool;
  ep_start : Ag -> Ob -> Ag * Ps * Th;
  draw : Ag -> Ob -> Ps -> Ag * Ac * Ps;
  prep : Ag -> Ob -> Ag * Ob;
  clear_next : Ag -> Ag;            (* agent.next_action = None *)
  is_episodic : bool;               (* agent.info.is_episodic *)
  horizon : option nat;             (* env.info.horizon, None = infinite *)
  fit : Ag -> dataset Ob Ac Rw Ps Th -> Ag }.
Arguments env_reset {En Ag Ob Ac Rw Ps Th}. Arguments env_step {En Ag Ob Ac Rw Ps Th}.
Arguments ep_start {En Ag Ob Ac Rw Ps Th}. Arguments draw {En Ag Ob Ac Rw Ps Th}.
Arguments prep {En Ag Ob Ac Rw Ps Th}. Arguments clear_next {En Ag Ob Ac Rw Ps Th}.
Arguments is_episodic {En Ag Ob Ac Rw Ps Th}. Arguments horizon {En Ag Ob Ac Rw Ps Th}.
Arguments fit {En Ag Ob Ac Rw Ps Th}.

Inductive fit_mode := FitSteps | FitEpisodes | FitNever.
Inductive move_mode := MoveSteps | MoveEpisodes.

(** CoreLogic attributes (core_logic.py 5-20); the two bound methods
    [fit_required]/[move_required] are represented by modes. *)
Record logic := mkL {
  fit_req : fit_mode; move_req : move_mode;
  n_steps : option nat; n_episodes : option nat;
  n_steps_per_fit : option nat; n_episodes_per_fit : option nat;
  tot_ep : nat; tot_st : nat; cur_ep : nat; cur_st : nat }.

(** core_logic.py 22-32 *)
Definition initialize_learn (l : logic) (spf epf : option nat) : option logic :=
  match spf, epf with
  | Some _, None => Some (mkL FitSteps (move_req l) (n_steps l) (n_episodes l) spf epf
                              (tot_ep l) (tot_st l) (cur_ep l) (cur_st l))
  | None, Some _ => Some (mkL FitEpisodes (move_req l) (n_steps l) (n_episodes l) spf epf
                              (tot_ep l) (tot_st l) (cur_ep l) (cur_st l))
  | _, _ => None
  end.

(** core_logic.py 34-35 *)
Definition initialize_evaluate (l : logic) : logic :=
  mkL FitNever (move_req l) (n_steps l) (n_episodes l) (n_steps_per_fit l) (n_episodes_per_fit l)
      (tot_ep l) (tot_st l) (cur_ep l) (cur_st l).

(** core_logic.py 37-56, 82-86 *)
Definition initialize_run {Ob : Type} (l : logic) (ns ne : option nat) (init : option (list Ob)) : option logic :=
  match ne, ns, init with
  | Some _, None, None | None, Some _, None | None, None, Some _ =>
      let ne' := match init with Some is => Some (length is) | None => ne end in
      Some (mkL (fit_req l) (match ns with Some _ => MoveSteps | None => MoveEpisodes end)
                ns ne' (n_steps_per_fit l) (n_episodes_per_fit l) 0 0 0 0)
  | _, _, _ => None
  end.

(** core_logic.py 58-62; outer [None] is an IndexError. *)
Definition get_initial_state {Ob : Type} (l : logic) (init : option (list Ob)) : option (option Ob) :=
  match init with
  | None => Some None
  | Some is =>
      if (match n_episodes l with Some n => tot_ep l =? n | None => false end) then Some None
      else match nth_error is (tot_ep l) with Some o => Some (Some o) | None => None end
  end.

(** core_logic.py 64-72 *)
Definition after_step (l : logic) (lst : bool) : logic :=
  let d := if lst then 1 else 0 in
  mkL (fit_req l) (move_req l) (n_steps l) (n_episodes l) (n_steps_per_fit l) (n_episodes_per_fit l)
      (tot_ep l + d) (tot_st l + 1) (cur_ep l + d) (cur_st l + 1).

(** core_logic.py 74-76 *)
Definition after_fit (l : logic) : logic :=
  mkL (fit_req l) (move_req l) (n_steps l) (n_episodes l) (n_steps_per_fit l) (n_episodes_per_fit l)
      (tot_ep l) (tot_st l) 0 0.

(** core_logic.py 88-98; comparing with Python's None raises, here [None]. *)
Definition move_required (l : logic) : option bool :=
  match move_req l with
  | MoveSteps => match n_steps l with Some n => Some (tot_st l <? n) | None => None end
  | MoveEpisodes => match n_episodes l with Some n => Some (tot_ep l <? n) | None => None end
  end.

Definition fit_required (l : logic) : option bool :=
  match fit_req l with
  | FitNever => Some false
  | FitSteps => match n_steps_per_fit l with Some k => Some (k <=? cur_st l) | None => None end
  | FitEpisodes => match n_episodes_per_fit l with Some k => Some (k <=? cur_ep l) | None => None end
  end.

Section Events.
Variables Ob Ac Rw Ps Th : Type.

(** Observable events of a run, in order. *)
Inductive event :=
| EvReset (init : option Ob) (o : Ob) (p : Ps) (th : Th)   (* env.reset(init) + episode_start *)
| EvSample (x : sample Ob Ac Rw Ps)                                    (* one environment step *)
| EvFit (d : dataset Ob Ac Rw Ps Th).                                     (* agent.fit(d) *)

(** Projections of the event log. *)
Definition samples_of (log : list event) : list (sample Ob Ac Rw Ps) :=
  flat_map (fun ev => match ev with EvSample x => [x] | _ => [] end) log.
Definition fits_of (log : list event) : list (dataset Ob Ac Rw Ps Th) :=
  flat_map (fun ev => match ev with EvFit d => [d] | _ => [] end) log.
Definition resets_of (log : list event) : list (option Ob) :=
  flat_map (fun ev => match ev with EvReset i _ _ _ => [i] | _ => [] end) log.
Definition thetas_of (log : list event) : list Th :=
  flat_map (fun ev => match ev with EvReset _ _ _ th => [th] | _ => [] end) log.

End Events.
Arguments EvReset {Ob Ac Rw Ps Th}. Arguments EvSample {Ob Ac Rw Ps Th}. Arguments EvFit {Ob Ac Rw Ps Th}.
Arguments samples_of {Ob Ac Rw Ps Th}. Arguments fits_of {Ob Ac Rw Ps Th}.
Arguments resets_of {Ob Ac Rw Ps Th}. Arguments thetas_of {Ob Ac Rw Ps Th}.

Section Core.
Context {En Ag Ob Ac Rw Ps Th : Type}.
Variable W : world En Ag Ob Ac Rw Ps Th.
Notation sample := (sample Ob Ac Rw Ps).
Notation dataset := (dataset Ob Ac Rw Ps Th).
Notation event := (event Ob Ac Rw Ps Th).

(** State of [_run]: core.py attributes _state, _policy_state, _current_theta,
    _episode_steps, the local [last], the dataset and the (ghost) event log. *)
Record run := mkR {
  r_env : En; r_ag : Ag; r_logic : logic;
  r_obs : option Ob; r_ps : option Ps; r_steps : nat;
  r_last : bool; r_ds : dataset; r_log : list event }.

Inductive outcome := Done (r : run) | Crash | OutOfFuel.

(** Dataset.__init__ capacity (core/dataset.py 78-89): outer None = failed assert. *)
Definition capacity (ns ne : option nat) : option nat :=
  match ns, ne with
  | Some n, None => Some n
  | None, Some n => match horizon W with Some h => Some (h * n) | None => None end
  | _, _ => None
  end.

(** core.py 168-180 [_reset] followed by dataset.append_theta (core.py 103-105). *)
Definition do_reset (init : option (list Ob)) (r : run) : option run :=
  match get_initial_state (r_logic r) init with
  | None => None
  | Some i0 =>
      let '(e, raw) := env_reset W (r_env r) i0 in
      let '(a1, ps, th) := ep_start W (r_ag r) raw in
      let '(a2, o) := prep W a1 raw in
      let a3 := clear_next W a2 in
      let ds := if is_episodic W then mkD (rows (r_ds r)) (thetas (r_ds r) ++ [th]) else r_ds r in
      Some (mkR e a3 (r_logic r) (Some o) (Some ps) 0 (r_last r) ds
                (r_log r ++ [EvReset i0 o ps th]))
  end.

(** core.py 135-166 [_step]. *)
Definition do_step (r : run) : option (run * sample) :=
  match r_obs r, r_ps r with
  | Some o, Some ps =>
      let '(a1, act, pns) := draw W (r_ag r) o ps in
      let '(e, raw, rw, ab) := env_step W (r_env r) act in
      let steps := r_steps r + 1 in
      let lst := (match horizon W with Some h => h <=? steps | None => false end) || ab in
      let '(a2, o') := prep W a1 raw in
      let x := mkS o act rw o' ab lst ps pns in
      Some (mkR e a2 (r_logic r) (Some o') (Some pns) steps (r_last r) (r_ds r)
                (r_log r ++ [EvSample x]), x)
  | _, _ => None
  end.

(** One iteration of the while loop (core.py 102-123). [cap] is the number of
    rows allocated by the dataset; writing beyond is an IndexError. *)
Definition iterate (cap : nat) (init : option (list Ob)) (r0 : run) : option run :=
  r1 <- (if r_last r0 then do_reset init r0 else Some r0) ;;
  rx <- do_step r1 ;;
  let (r2, x) := (rx : run * sample) in
  let l := after_step (r_logic r2) (last x) in
  if length (rows (r_ds r2)) <? cap then
    let ds := mkD (rows (r_ds r2) ++ [x]) (thetas (r_ds r2)) in
    match fit_required l with
    | None => None
    | Some true =>
        Some (mkR (r_env r2) (fit W (r_ag r2) ds) (after_fit l) (r_obs r2) (r_ps r2) (r_steps r2)
                  (last x) (mkD [] []) (r_log r2 ++ [EvFit ds]))
    | Some false =>
        Some (mkR (r_env r2) (r_ag r2) l (r_obs r2) (r_ps r2) (r_steps r2)
                  (last x) ds (r_log r2))
    end
  else None.

Fixpoint loop (fuel : nat) (cap : nat) (init : option (list Ob)) (r : run) : outcome :=
  match move_required (r_logic r) with
  | None => Crash
  | Some false => Done r
  | Some true =>
      match fuel with
      | O => OutOfFuel
      | S f => match iterate cap init r with
               | None => Crash
               | Some r' => loop f cap init r'
               end
      end
  end.

Definition start (e : En) (a : Ag) (l : logic) : run :=
  mkR e a l None None 0 true (mkD [] []) [].

(** Core.learn (core.py 42-68, 98-133). *)
Definition learn (fuel : nat) (e : En) (a : Ag) (l : logic)
           (ns ne spf epf : option nat) : outcome :=
  match initialize_learn l spf epf with
  | None => Crash
  | Some l1 =>
      match capacity spf epf with
      | None => Crash
      | Some cap =>
          match initialize_run l1 ns ne (@None (list Ob)) with
          | None => Crash
          | Some l2 => loop fuel cap None (start e a l2)
          end
      end
  end.

(** Core.evaluate (core.py 70-96, 98-133). *)
Definition evaluate (fuel : nat) (e : En) (a : Ag) (l : logic)
           (init : option (list Ob)) (ns ne : option nat) : outcome :=
  let l1 := initialize_evaluate l in
  let ne_ds := match init with Some is => Some (length is) | None => ne end in
  match capacity ns ne_ds with
  | None => Crash
  | Some cap =>
      match initialize_run l1 ns ne init with
      | None => Crash
      | Some l2 => loop fuel cap init (start e a l2)
      end
  end.


End Core.

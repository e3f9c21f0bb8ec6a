(** The observations and policy states of a VectorCore run (core/vectorized_core.py 100-231) with
    the environments' buffer of MultiprocessEnvironment (core/multiprocess_environment.py 92-136),
    the core preprocessors of the agent, and MinMaxPreprocessor on a batch
    (rl_utils/preprocessors.py 130-141).

    The schedule (masks, last flags, fits) is that of VecCoreModel.  In one run the replies of
    the environments are a function of the iteration, the environment and the action: arbitrary
    oracles [rst] and [stp]; so are the agent's draws and the initial policy states.  The list of
    core preprocessors with its statistics is a function [prep] on the value passed through it:
    an array with one entry per environment, or the pair that reset_all returns; [None] is an
    exception.  Simplified: rewards, parameters theta and rendering are left out; unpacking an
    array with two entries into (state, episode_info) is taken to be an error. *)
From Coq Require Import List Arith Lia Bool Reals.
From Verif Require Import Common CoreModel VecCoreModel UtilModel.
Import ListNotations.
Local Open Scope list_scope.
Local Open Scope nat_scope.

Section VecVal.
Context {X I T A P : Type}.
Variable W : vworld.
Notation n := (n_envs W).

(** The observation and information returned by the reset of environment j at iteration t. *)
Variable rst : nat -> nat -> X.
Variable rinfo : nat -> nat -> I.
(** The information of an environment that is not reset (multiprocess_environment.py 106-107). *)
Variable noinfo : I.
(** The observation returned by the step of environment j at iteration t. *)
Variable stp : nat -> nat -> A -> X.
(** agent.draw_action: actions and next policy states. *)
Variable draw : nat -> list X -> option (list T) -> list A * option (list T).
(** agent.episode_start_vectorized: policy states. *)
Variable start : nat -> list X -> list I -> list bool -> option (list T).

Inductive val := VArr (l : list X) | VPair (l : list X) (i : list I).
(** _preprocess (vectorized_core.py 216-231) *)
Variable prep : P -> val -> option (P * val).

(** The buffer [_states] of the environments, [_state], [_policy_state] of the core, the
    preprocessors. *)
Record vals := { s_buf : list X; s_state : list X; s_pol : option (list T); s_prep : P }.

(** reset_all (multiprocess_environment.py 92-109) *)
Definition reset_all (t : nat) (mask : list bool) (buf : list X) : list X * list I :=
  (map (fun p => if fst (snd p) : bool then rst t (fst p) else snd (snd p)) (combine (seq 0 n) (combine mask buf)),
   map (fun p => if snd p : bool then rinfo t (fst p) else noinfo) (combine (seq 0 n) mask)).

(** step_all (multiprocess_environment.py 111-131) *)
Definition step_all (t : nat) (mask : list bool) (act : list A) (buf : list X) : list X :=
  map (fun p => match nth_error act (fst p) with
                | Some a => if fst (snd p) : bool then stp t (fst p) a else snd (snd p)
                | None => snd (snd p)
                end)
      (combine (seq 0 n) (combine mask buf)).

(** [pol[mask] = new[mask]] *)
Definition mix (mask : list bool) (new old : list T) : list T :=
  map (fun p => if fst p : bool then fst (snd p) else snd (snd p)) (combine mask (combine new old)).

(** _reset (vectorized_core.py 177-205) *)
Definition val_reset (t : nat) (rmask : list bool) (s : vals) : option vals :=
  let (buf, infos) := reset_all t rmask (s_buf s) in
  match prep (s_prep s) (VPair buf infos) with
  | Some (p1, VPair st1 inf1) =>
      let new := start t st1 inf1 rmask in
      let pol := match s_pol s, new with
                 | None, _ => new
                 | _, None => new
                 | Some old, Some nw => if vany rmask then Some (mix rmask nw old) else Some old
                 end in
      match prep p1 (VArr st1) with
      | Some (p2, VArr st2) => Some {| s_buf := buf; s_state := st2; s_pol := pol; s_prep := p2 |}
      | _ => None
      end
  | _ => None
  end.

(** A row of the dataset: the iteration, whether _reset was called before it and for which
    environments, the mask, the last flags, and the per-environment values. *)
Record row := { w_t : nat; w_round : bool; w_reset : list bool; w_mask : list bool; w_last : list bool;
                w_state : list X; w_act : list A; w_next : list X;
                w_pol : option (list T); w_polnext : option (list T) }.

(** _step (vectorized_core.py 140-175) *)
Definition val_step (t : nat) (round : bool) (rmask mask last : list bool) (s : vals) : option (vals * row) :=
  let (act, pn) := draw t (s_state s) (s_pol s) in
  let buf := step_all t mask act (s_buf s) in
  match prep (s_prep s) (VArr buf) with
  | Some (p, VArr nx) =>
      Some ({| s_buf := buf; s_state := nx; s_pol := pn; s_prep := p |},
            {| w_t := t; w_round := round; w_reset := rmask; w_mask := mask; w_last := last;
               w_state := s_state s; w_act := act; w_next := nx; w_pol := s_pol s; w_polnext := pn |})
  | _ => None
  end.

(** One iteration of _run (vectorized_core.py 106-131) *)
Definition xiterate (cap : nat) (r : vrun) (s : vals) : option (vrun * vals * row) :=
  r1 <- vreset W r ;;
  let round := vany (v_last r) in
  let rmask := if round then vand (v_last r) (v_mask r1) else repeat false n in
  s1 <- (if round then val_reset (v_t r) rmask s else Some s) ;;
  sw <- val_step (v_t r) round rmask (v_mask r1) (v_last (vstep W r1)) s1 ;;
  r' <- viterate W cap r ;;
  Some (r', fst sw, snd sw).

(** The rows of a run and the preprocessors after it; the flag tells that it ended with an
    exception. *)
Fixpoint xloop (fuel cap : nat) (r : vrun) (s : vals) : list row * P * bool :=
  match move_required (vl (v_log r)) with
  | None => ([], s_prep s, true)
  | Some false => ([], s_prep s, false)
  | Some true =>
      match fuel with
      | O => ([], s_prep s, false)
      | S f => match xiterate cap r s with
               | None => ([], s_prep s, true)
               | Some (r', s', w) => let '(ws, p, e) := xloop f cap r' s' in (w :: ws, p, e)
               end
      end
  end.

(** A run after initialize_run; the buffer holds what np.empty gave. *)
Definition xrun (fuel cap : nat) (l : logic) (buf : list X) (p : P) : list row * P * bool :=
  xloop fuel cap (vstart W cap l) {| s_buf := buf; s_state := buf; s_pol := None; s_prep := p |}.

End VecVal.
Arguments val : clear implicits.

(** MinMaxPreprocessor.__call__ (preprocessors.py 130-141) on an array of observations, one per
    row: _obs_mask indexes the first axis; [None] is the IndexError. *)
Definition mm_scale (p : minmax) (o : list R) : list R :=
  map (fun q => ((fst q - fst (snd q)) / snd (snd q))%R) (combine o (combine (mm_mean p) (mm_delta p))).
Definition mm_call_batch (c : R) (p : minmax) (sts : list rstd) (obs : list (list R)) : option (list (list R)) :=
  let base := if mm_run p
              then map (fun o => map (fun q => std_call c (fst q) (snd q)) (combine sts o)) obs
              else obs in
  if forallb (fun i => i <? length obs) (mm_mask p)
  then Some (fold_left (fun o i => setnth o i (mm_scale p (nth i obs []))) (mm_mask p) base)
  else None.

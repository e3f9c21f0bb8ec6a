(** The target smoothing noise of TD3 under scheduled parameters
    (/repo/mushroom_rl/algorithms/actor_critic/deep_actor_critic/td3.py 46-47, 86-87, ddpg.py 97-103,
    /repo/mushroom_rl/rl_utils/parameters.py 7-11).

    Parameters are objects: [heap] holds them, and the agent keeps one reference for the standard
    deviation and one for the clip, which to_parameter lets coincide.  [z] are the standard normal
    draws behind np.random.normal(scale=...), one per coordinate of the batch of actions. *)
From Coq Require Import List Arith Lia Reals Bool.
From Verif Require Import Common ParamModel DqnModel.
Import ListNotations.

Definition heap := list param.
(** a call of the parameter behind a reference; the object keeps its new count *)
Definition call_ref (h : heap) (r : nat) : option (R * heap) :=
  p <- nth_error h r ;; x <- p_call p 0 ;; h' <- upd h r (snd x) ;; Some (fst x, h').
(** get_value of the parameter behind a reference *)
Definition get_ref (h : heap) (r : nat) : option R := p <- nth_error h r ;; p_get p 0.

(** td3.py 86-87: eps, then its clip between -self._noise_clip() and self._noise_clip.get_value() *)
Definition smooth (std clp : nat) (h : heap) (z : list R) : option (list R * heap) :=
  s <- call_ref h std ;; lo <- call_ref (snd s) clp ;; hi <- get_ref (snd lo) clp ;;
  Some (map (fun x => clip (fst s * x) (- fst lo) hi) z, snd lo).

(** A sequence of fits: the noise is drawn only when the replay memory is initialized (ddpg.py 99) *)
Fixpoint noise_run (std clp : nat) (h : heap) (fits : list (bool * list R)) : option (list (list R) * heap) :=
  match fits with
  | [] => Some ([], h)
  | (ready, z) :: t =>
    if ready then x <- smooth std clp h z ;; y <- noise_run std clp (snd x) t ;; Some (fst x :: fst y, snd y)
    else noise_run std clp h t
  end.

(** What the user passes for a parameter: a number (to_parameter, parameters.py 7-11), a
    LinearParameter or a DecayParameter, each with one entry *)
Inductive sched := Const (v : R) | Lin (v th : R) (n : nat) | Dec (v e : R) (mn mx : option R).
Definition build (s : sched) : option param :=
  match s with
  | Const v => Some (param_init v None None 1)
  | Lin v th n => linear_init v th n 1
  | Dec v e mn mx => Some (decay_init v e mn mx 1)
  end.

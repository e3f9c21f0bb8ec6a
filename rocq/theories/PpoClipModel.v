(** The clipping range of PPO under a scheduled eps_ppo
    (/repo/mushroom_rl/algorithms/actor_critic/deep_actor_critic/ppo.py 96-101, ppo_bptt.py 153-160,
    /repo/mushroom_rl/algorithms/policy_search/black_box_optimization/eppo.py 56-63,
    /repo/mushroom_rl/utils/minibatches.py 4-43).

    Only what reads and advances the parameter is kept; the number of epochs and the batch size are
    numbers.  PpoModel.v has the loss these bounds go into. *)
From Coq Require Import List Arith Lia Reals Bool.
From Verif Require Import Common ParamModel UtilModel Td3NoiseModel.
Import ListNotations.

(** One minibatch: the bounds 1 - self._eps_ppo() and 1 + self._eps_ppo.get_value() (ppo.py 101) *)
Definition clip_range (p : param) : option ((R * R) * param) :=
  lo <- p_call p 0 ;; hi <- p_get (snd lo) 0 ;; Some ((1 - fst lo, 1 + hi)%R, snd lo).

(** for _ in range(n) *)
Fixpoint times {A S : Type} (n : nat) (f : S -> option (A * S)) (s : S) : option (list A * S) :=
  match n with
  | 0 => Some ([], s)
  | S m => x <- f s ;; y <- times m f (snd x) ;; Some (fst x :: fst y, snd y)
  end.

(** The epochs of _update_policy on a dataset of [size] rows (ppo.py 96-98) *)
Definition epoch_ranges (bs size : nat) (p : param) : option (list (R * R) * param) := times (minibatch_number size bs) clip_range p.
Definition fit_ranges (epochs bs size : nat) (p : param) : option (list (list (R * R)) * param) := times epochs (epoch_ranges bs size) p.

(** The fits of a run, given the sizes of their datasets *)
Fixpoint run_ranges (epochs bs : nat) (sizes : list nat) (p : param) : option (list (list (list (R * R))) * param) :=
  match sizes with
  | [] => Some ([], p)
  | size :: t => x <- fit_ranges epochs bs size p ;; y <- run_ranges epochs bs t (snd x) ;; Some (fst x :: fst y, snd y)
  end.

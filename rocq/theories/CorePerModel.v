(** Composition: [Core.learn] (CoreModel.v) driving a DQN agent with a [PrioritizedReplayMemory]
    (SumTreeModel.v).

    Cited code: algorithms/value/dqn/abstract_dqn.py 83-88 and 103-132 (fit, _fit_prioritized,
    _update_target), dqn.py 11-16 (_next_q), rl_utils/replay_memory.py 469-599.

    Simplifications: as in CoreDqnModel.v; one call of approximator.fit is an arbitrary function
    [train] of weights, batch and sample weights; the value of a state-action pair is an
    arbitrary function [qa] of the weights; the uniform numbers and the coin flips of the
    retrieval are arbitrary functions of the number of the fit; reading a slot that was never
    written (the arrays of the dataset are not initialised there) leaves the agent as it is
    and is recorded in [d_ok]. *)
From Coq Require Import List Arith Lia Bool Reals.
From Verif Require Import Common ReplayModel SumTreeModel DqnModel CoreDqnModel.
From Verif Require CoreModel.
Import ListNotations.

Section Per.
Context {En Ob Ac Wt : Type}.
Variable (predict : Wt -> Ob -> list R) (qa : Wt -> Ob -> Ac -> R).
Variable (train : Wt -> list (Ob * Ac * R) -> list R -> Wt).
Variable (pol : Wt -> nat -> Ob -> Ac).
Variable (unif : nat -> nat -> R) (coin : nat -> nat -> nat -> bool) (beta : nat -> R).
Variable (gamma : R) (clip_reward : bool) (freq bs ini : nat) (eps alpha : R).
Notation stree := (stree Ob Ac unit).
Notation row := (sample Ob Ac unit).

(** Memory, online and target weights, number of fits (_n_updates), number of drawn actions,
    whether no call raised or read a slot never written. *)
Record pagent := mkPer { d_tree : stree; d_w : Wt; d_target : Wt; d_updates : nat; d_drawn : nat; d_ok : bool }.

(** The draws of PrioritizedReplayMemory.get (replay_memory.py 535-551): leaf, priority, slot *)
Definition per_draw (f : nat) (t : stree) (i : nat) : option (nat * R * nat) :=
  get_ind t (coin f i) ((INR i + unif f i) * (total_p t / INR bs))%R.

(** get: the draws with their rows; None when a slot was never written *)
Definition per_get (f : nat) (t : stree) : option (list (nat * R * row)) :=
  fold_right (fun i acc => d <- per_draw f t i ;; x <- nth_error (m_data (t_mem t)) (snd d) ;; l <- acc ;; Some ((fst d, x) :: l))
             (Some []) (seq 0 bs).

(** _fit_prioritized (abstract_dqn.py 103-120) *)
Definition fit_prioritized (a : pagent) (d : CoreModel.dataset Ob Ac R unit unit) : pagent :=
  let p := max_priority ini (d_tree a) in
  match st_add (d_tree a) (map row_of (CoreModel.rows d)) (repeat p (length (CoreModel.rows d))) 1 1 with
  | None => mkPer (d_tree a) (d_w a) (d_target a) (d_updates a) (d_drawn a) false
  | Some (t, _) =>
      if ini <? st_size t then
        match per_get (d_updates a) t with
        | None => mkPer t (d_w a) (d_target a) (d_updates a) (d_drawn a) false
        | Some g =>
            let b := make_batch predict gamma clip_reward (d_target a) (map snd g) in
            let w := is_weights (st_size t) (total_p t) (beta (d_updates a)) (map (fun q => snd (fst q)) g) in
            let err := map (fun q => snd q - qa (d_w a) (fst (fst q)) (snd (fst q)))%R b in
            match update (t_arr t) (map (fun q => fst (fst q)) g) (map (get_priority eps alpha) err) with
            | None => mkPer t (d_w a) (d_target a) (d_updates a) (d_drawn a) false
            | Some arr => mkPer (mkST (t_mem t) arr) (train (d_w a) b w) (d_target a) (d_updates a) (d_drawn a) (d_ok a)
            end
        end
      else mkPer t (d_w a) (d_target a) (d_updates a) (d_drawn a) (d_ok a)
  end.

(** fit (abstract_dqn.py 83-88) *)
Definition per_fit (a : pagent) (d : CoreModel.dataset Ob Ac R unit unit) : pagent :=
  let a1 := fit_prioritized a d in
  let u := d_updates a1 + 1 in
  mkPer (d_tree a1) (d_w a1) (if u mod freq =? 0 then d_w a1 else d_target a1) u (d_drawn a1) (d_ok a1).

Definition per_init (max_size : nat) (w : Wt) : pagent := mkPer (st_init max_size) w w 0 0 true.

Definition per_action (a : pagent) (o : Ob) (ps : unit) : pagent * Ac * unit :=
  (mkPer (d_tree a) (d_w a) (d_target a) (d_updates a) (d_drawn a + 1) (d_ok a), pol (d_w a) (d_drawn a) o, tt).

Definition per_world (ereset : En -> option Ob -> En * Ob) (estep : En -> Ac -> En * Ob * R * bool)
    (hor : option nat) : CoreModel.world En pagent Ob Ac R unit unit :=
  CoreModel.mkW En pagent Ob Ac R unit unit ereset estep (fun a _ => (a, tt, tt)) per_action
    (fun a o => (a, o)) (fun a => a) false hor per_fit.
End Per.

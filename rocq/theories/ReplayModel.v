(** Model of [ReplayMemory] (/repo/mushroom_rl/rl_utils/replay_memory.py 8-164).

    Simplifications: states, actions and policy states are abstract types;
    rewards and gamma are real numbers; the backing [Dataset] of [max_size]
    preallocated rows (core/dataset.py 77-127, core/_impl/numpy_dataset.py 6-133)
    is the list of its written rows, with an explicit failure when a row beyond
    the allocation would be written. *)
From Coq Require Import List Arith Lia Reals Bool.
From Verif Require Import Common.
Import ListNotations.

Section Replay.
Variables St Ac Ps : Type.

(** One row of a dataset (numpy_dataset.py 13-26). *)
Record sample := mkSample {
  s_state : St; s_action : Ac; s_reward : R; s_next : St;
  s_absorbing : bool; s_last : bool;
  s_ps : Ps; s_pns : Ps }.

(** Attributes of ReplayMemory (replay_memory.py 26-37). *)
Record memory := mkMem {
  m_initial : nat; m_max : nat; m_idx : nat; m_full : bool; m_data : list sample }.

(** __init__ + reset (replay_memory.py 26-37, 129-137). *)
Definition mem_init (initial_size max_size : nat) : memory :=
  mkMem initial_size max_size 0 false [].

Definition mem_reset (m : memory) : memory :=
  mkMem (m_initial m) (m_max m) 0 false [].

(** NumpyDataset.append into [cap] preallocated rows (numpy_dataset.py 113-133). *)
Definition ds_append (cap : nat) (d : list sample) (x : sample) : option (list sample) :=
  if length d <? cap then Some (d ++ [x]) else None.

(** The branch that stores one transition (replay_memory.py 82-107):
    overwrite the row [_idx] when full, append otherwise, then advance. *)
Definition store (m : memory) (x : sample) : option memory :=
  d <- (if m_full m then upd (m_data m) (m_idx m) x
        else ds_append (m_max m) (m_data m) x) ;;
  let idx := m_idx m + 1 in
  Some (if idx =? m_max m
        then mkMem (m_initial m) (m_max m) 0 true d
        else mkMem (m_initial m) (m_max m) idx (m_full m) d).

(** Inner [while j < n_steps_return - 1] (replay_memory.py 73-79).
    [k] = number of inner iterations left = n-1-j.  [rew] is the (aliased)
    reward array that is updated in place.  The result carries the new reward
    array and [Some i'] when the loop was left by [break] with [i := i'],
    [None] when the [else] clause is executed. *)
Fixpoint inner (lasts : list bool) (g : R) (i j k : nat) (rew : list R)
  : option (list R * option nat) :=
  match k with
  | O => Some (rew, None)
  | S k' =>
      l <- nth_error lasts (i + j) ;;
      if (l : bool) then Some (rew, Some (i + j + 1))
      else
        let j' := j + 1 in
        ri <- nth_error rew i ;;
        rj <- nth_error rew (i + j') ;;
        rew' <- upd rew i (ri + g ^ j' * rj)%R ;;
        inner lasts g i j' k' rew'
  end.

(** The stored row: state/action/policy state of sample [i], accumulated
    reward of index [i], next state and flags of sample [i+j]
    (replay_memory.py 97-100). *)
Definition mk_row (ds : list sample) (rew : list R) (i j : nat) : option sample :=
  a <- nth_error ds i ;;
  r <- nth_error rew i ;;
  b <- nth_error ds (i + j) ;;
  Some (mkSample (s_state a) (s_action a) r (s_next b) (s_absorbing b) (s_last b)
                 (s_ps a) (s_pns b)).

(** Outer [while i < len(dataset) - n_steps_return + 1] (replay_memory.py 71-109).
    [fuel] bounds the number of iterations; running out is [None]. *)
Fixpoint add_loop (fuel : nat) (ds : list sample) (n : nat) (g : R)
         (i : nat) (rew : list R) (m : memory) : option (memory * list R) :=
  match fuel with
  | O => None
  | S f =>
      if i + n <? length ds + 1 then
        b <- inner (map s_last ds) g i 0 (n - 1) rew ;;
        match b with
        | (rew', Some i') => add_loop f ds n g i' rew' m
        | (rew', None) =>
            x <- mk_row ds rew' i (n - 1) ;;
            m' <- store m x ;;
            add_loop f ds n g (i + 1) rew' m'
        end
      else Some (m, rew)
  end.

(** ReplayMemory.add (replay_memory.py 49-109).  Returns the new memory and the
    content of the caller's reward array after the call ([dataset.parse] hands
    out views of the caller's arrays, core/dataset.py 370-382 and
    core/array_backend.py, arrays_to_numpy).  [None]: assertion or index error. *)
Definition add (m : memory) (ds : list sample) (n : nat) (g : R)
  : option (memory * list R) :=
  if 0 <? n then add_loop (length ds + 2) ds n g 0 (map s_reward ds) m
  else None.

(** ReplayMemory.get (replay_memory.py 111-127): rows at the drawn indices.
    [idxs] is the outcome of [randint(0, len(dataset), (n,))]. *)
Definition get (m : memory) (idxs : list nat) : option (list sample) :=
  fold_right (fun i acc => x <- nth_error (m_data m) i ;; l <- acc ;; Some (x :: l))
             (Some []) idxs.

(** size, initialized (replay_memory.py 140-156). *)
Definition size (m : memory) : nat := if m_full m then m_max m else m_idx m.
Definition initialized (m : memory) : bool := m_initial m <? size m.

(** A history of add calls, each with its own n and gamma. *)
Fixpoint add_all (m : memory) (calls : list (list sample * nat * R)) : option memory :=
  match calls with
  | [] => Some m
  | (ds, n, g) :: t => r <- add m ds n g ;; add_all (fst r) t
  end.

(** A history mixing add and reset calls. *)
Inductive op := OpAdd (ds : list sample) (n : nat) (g : R) | OpReset.

Fixpoint run_ops (m : memory) (ops : list op) : option memory :=
  match ops with
  | [] => Some m
  | OpAdd ds n g :: t => r <- add m ds n g ;; run_ops (fst r) t
  | OpReset :: t => run_ops (mem_reset m) t
  end.

End Replay.

Arguments mkSample {St Ac Ps}.
Arguments s_state {St Ac Ps}. Arguments s_action {St Ac Ps}. Arguments s_reward {St Ac Ps}.
Arguments s_next {St Ac Ps}. Arguments s_absorbing {St Ac Ps}. Arguments s_last {St Ac Ps}.
Arguments s_ps {St Ac Ps}. Arguments s_pns {St Ac Ps}.
Arguments mkMem {St Ac Ps}. Arguments m_initial {St Ac Ps}. Arguments m_max {St Ac Ps}.
Arguments m_idx {St Ac Ps}. Arguments m_full {St Ac Ps}. Arguments m_data {St Ac Ps}.
Arguments mem_init {St Ac Ps}. Arguments mem_reset {St Ac Ps}. Arguments ds_append {St Ac Ps}.
Arguments store {St Ac Ps}. Arguments mk_row {St Ac Ps}. Arguments add_loop {St Ac Ps}.
Arguments add {St Ac Ps}. Arguments get {St Ac Ps}. Arguments size {St Ac Ps}.
Arguments initialized {St Ac Ps}. Arguments add_all {St Ac Ps}. Arguments run_ops {St Ac Ps}.

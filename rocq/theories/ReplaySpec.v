(** Specification of a replay memory, independent of the implementation:
    the list of n-step transitions of a dataset, and the bounded FIFO. *)
From Coq Require Import List Arith Reals Bool.
From Verif Require Import Common ReplayModel.
Import ListNotations.

Section Spec.
Variables St Ac Ps : Type.
Notation sample := (sample St Ac Ps).

(** No episode ends strictly before the final element of the [n]-window at [i]. *)
Definition window_ok (ds : list sample) (n i : nat) : bool :=
  forallb (fun x => negb (s_last x)) (slice i (i + (n - 1)) ds).

(** Discounted sum of the rewards of the [n]-window at [i]. *)
Definition nstep_return (ds : list sample) (n : nat) (g : R) (i : nat) (d : sample) : R :=
  rsum (map (fun j => g ^ j * s_reward (nth (i + j) ds d))%R (seq 0 n)).

(** The n-step transition at [i] ([d] is a don't-care default). *)
Definition nstep_sample (ds : list sample) (n : nat) (g : R) (d : sample) (i : nat) : sample :=
  let a := nth i ds d in
  let b := nth (i + (n - 1)) ds d in
  mkSample (s_state a) (s_action a) (nstep_return ds n g i d)
           (s_next b) (s_absorbing b) (s_last b) (s_ps a) (s_pns b).

(** All n-step transitions of a dataset, in time order. *)
Definition nstep_samples (ds : list sample) (n : nat) (g : R) : list sample :=
  match ds with
  | [] => []
  | d :: _ => map (nstep_sample ds n g d)
                  (filter (window_ok ds n) (seq 0 (length ds + 1 - n)))
  end.

(** Everything ever offered to the memory by a history of add calls. *)
Definition offered (calls : list (list sample * nat * R)) : list sample :=
  flat_map (fun c => nstep_samples (fst (fst c)) (snd (fst c)) (snd c)) calls.

(** Everything offered since the last reset. *)
Fixpoint spec_ops (hist : list sample) (ops : list (op St Ac Ps)) : list sample :=
  match ops with
  | [] => hist
  | OpAdd _ _ _ ds n g :: t => spec_ops (hist ++ nstep_samples ds n g) t
  | OpReset _ _ _ :: t => spec_ops [] t
  end.

(** Content of a memory in the order of insertion, oldest first. *)
Definition chronological (m : memory St Ac Ps) : list sample :=
  if m_full m then skipn (m_idx m) (m_data m) ++ firstn (m_idx m) (m_data m)
  else m_data m.

End Spec.
Arguments window_ok {St Ac Ps}. Arguments nstep_return {St Ac Ps}.
Arguments nstep_sample {St Ac Ps}. Arguments nstep_samples {St Ac Ps}.
Arguments offered {St Ac Ps}. Arguments spec_ops {St Ac Ps}. Arguments chronological {St Ac Ps}.

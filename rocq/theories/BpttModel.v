(** PPO_BPTT._transform_to_sequences,
    mushroom_rl/algorithms/actor_critic/deep_actor_critic/ppo_bptt.py 97-150.
    The arrays states_old, states, actions and next_states are cut in the same way: [xs]
    stands for any of them, [ps] for the policy states or next policy states. *)
From Coq Require Import List Arith ZArith Lia Bool.
From Verif Require Import Common.
Import ListNotations.

(** Python slice [l[a:b]] with a possibly negative start and [b] in range. *)
Definition pyslice {A} (a : Z) (b : nat) (l : list A) : list A :=
  let a' := if Z.ltb a 0 then Z.to_nat (Z.max 0 (a + Z.of_nat (length l))) else Z.to_nat a in
  slice a' b l.

(** [torch.where(l)[0][-1]]: position of the last true entry; [None] when there is none *)
Fixpoint last_true (l : list bool) : option nat :=
  match l with
  | [] => None
  | b :: t => match last_true t with Some k => Some (S k) | None => if b then Some 0 else None end
  end.

Section Rows.
Context {A P : Type} (L : nat) (last absorbing : list bool) (xs : list A) (ps : list P) (zero : A).

(** lines 111-118: where the sequence of sample [i] begins *)
Definition begin_seq (i : nat) : nat :=
  let b := i + 1 - L in
  let la := map (fun p => orb (fst p) (snd p))
              (combine (pyslice (Z.of_nat b - 1) i last) (pyslice (Z.of_nat b - 1) i absorbing)) in
  match last_true la with Some k => b + k | None => b end.

(** lines 120-147: padded sequence, policy state and length of row [i]; [None] is an
    IndexError *)
Definition row (i : nat) : option (list A * P * nat) :=
  let b := begin_seq i in
  let seq_ := slice b (i + 1) xs in
  match nth_error ps b with
  | None => None
  | Some h => Some (seq_ ++ repeat zero (L - length seq_), h, length seq_)
  end.
End Rows.

(** Specification of finite MDPs and grids. *)
From Coq Require Import List Arith Lia Reals Bool ZArith.
From Verif Require Import Common.
Import ListNotations.

(** A vector over [0..n-1] is a probability distribution. *)
Definition distribution (n : nat) (v : nat -> R) : Prop :=
  (forall j, j < n -> (0 <= v j)%R) /\ rsum (map v (seq 0 n)) = 1%R /\ (forall j, n <= j -> v j = 0%R).

(** Neighbouring cells in the direction of an action: up, down, left, right. *)
Definition moves_to (s : nat * nat) (a : nat) (s' : nat * nat) : Prop :=
  match a with
  | 0 => fst s = S (fst s') /\ snd s' = snd s
  | 1 => fst s' = S (fst s) /\ snd s' = snd s
  | 2 => fst s' = fst s /\ snd s = S (snd s')
  | _ => fst s' = fst s /\ snd s' = S (snd s)
  end.

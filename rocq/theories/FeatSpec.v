(** Specification of tilings, bases and grids. *)
From Coq Require Import List Arith Lia Reals Bool.
From Verif Require Import Common.
Import ListNotations.

(** The number of combinations of choices. *)
Definition prod (ns : list nat) : nat := fold_right Nat.mul 1 ns.

(** A point inside a half-open box. *)
Definition inside (rs : list (R * R)) (x : list R) : Prop :=
  length x = length rs /\ forall i, i < length rs -> (fst (nth i rs (0, 0)%R) <= nth i x 0 < snd (nth i rs (0, 0)%R))%R.

(** Component [k] of [N] equal cells of an interval. *)
Definition in_cell (r : R * R) (N k : nat) (x : R) : Prop :=
  (fst r + INR k * ((snd r - fst r) / INR N) <= x < fst r + (INR k + 1) * ((snd r - fst r) / INR N))%R.

(** Monomial. *)
Definition monomial (e : list nat) (x : list R) : R :=
  fold_right Rmult 1%R (map (fun i => nth i x 0 ^ nth i e 0%nat)%R (seq 0 (length e))).

Definition degree (e : list nat) : nat := fold_right plus 0 e.

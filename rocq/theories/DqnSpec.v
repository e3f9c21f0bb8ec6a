(** Specifications for distributional targets and target networks. *)
From Coq Require Import List Arith Reals Permutation.
From Verif Require Import Common.
Import ListNotations.

(** Bounded value *)
Definition clamp (lo hi x : R) : R := if Rlt_dec x lo then lo else if Rlt_dec hi x then hi else x.

(** The i-th of n equally spaced atoms of [vmin, vmax] *)
Definition atom (n : nat) (vmin vmax : R) (i : nat) : R := (vmin + INR i * ((vmax - vmin) / INR (n - 1)))%R.

(** Triangular weight of the atom z for the target y at spacing d (Bellemare et al., eq. 7) *)
Definition tri (d y z : R) : R := Rmax 0 (1 - Rabs (y - z) / d).

(** sum over i < n *)
Definition sum (n : nat) (f : nat -> R) : R := rsum (map f (seq 0 n)).

Definition is_max (l : list R) (x : R) : Prop := In x l /\ forall y, In y l -> (y <= x)%R.
Definition is_min (l : list R) (x : R) : Prop := In x l /\ forall y, In y l -> (x <= y)%R.

(** Weights of the online network after k fits; k = 0 are the initial ones *)
Definition snapshot {W} (w0 : W) (ws : list W) (k : nat) : W := nth k (w0 :: ws) w0.

(** Weight of the j-th of the given soft updates in the final target *)
Fixpoint decay (taus : list R) : R := match taus with [] => 1%R | t :: r => ((1 - t) * decay r)%R end.

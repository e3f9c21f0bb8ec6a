(** Specification of the value-based policies. *)
From Coq Require Import List Arith Lia Reals Bool.
From Verif Require Import Common.
Import ListNotations.

(** A finite probability distribution. *)
Definition distribution (p : list R) : Prop := (forall x, In x p -> 0 <= x)%R /\ rsum p = 1%R.

(** Action [a] maximises [q]. *)
Definition maximal (q : list R) (a : nat) : Prop :=
  a < length q /\ forall b, b < length q -> (nth b q 0 <= nth a q 0)%R.

(** Softmax written directly. *)
Definition softmax (q : list R) (beta : R) (a : nat) : R :=
  (exp (beta * nth a q 0) / rsum (map (fun x => exp (beta * x)) q))%R.

(** Fraction of the [n] equally likely outcomes for which [g] gives [a]. *)
Definition fraction (n : nat) (g : nat -> nat) (a : nat) : R :=
  (INR (count_occ Nat.eq_dec (map g (seq 0 n)) a) / INR n)%R.

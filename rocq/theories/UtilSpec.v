(** Specification of running statistics, preprocessors, minibatches and angles. *)
From Coq Require Import List Arith Lia Reals Bool.
From Verif Require Import Common.
Import ListNotations.

(** Mean and sum of squared deviations of data. *)
Definition avg (l : list R) : R := (rsum l / INR (length l))%R.
Definition sq_dev (l : list R) : R := rsum (map (fun x => (x - avg l) ^ 2)%R l).

(** Two angles are the same direction. *)
Definition same_angle (a b : R) : Prop := exists k : Z, (a = b + IZR k * (2 * PI))%R.

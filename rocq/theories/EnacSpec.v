(** Vocabulary for C120. *)
From Coq Require Import List Arith Reals.
From Verif Require Import Common PgModel PgSpec Mat.
Import ListNotations.
Local Open Scope R_scope.

(** [P] is the Moore-Penrose inverse of the [n] x [m] matrix [A]. *)
Definition penrose (n m : nat) (A P : mat) : Prop :=
  (forall i j, (i < n)%nat -> (j < m)%nat -> mm n (mm m A P) A i j = A i j) /\
  (forall i j, (i < m)%nat -> (j < n)%nat -> mm m (mm n P A) P i j = P i j) /\
  (forall i j, (i < n)%nat -> (j < n)%nat -> mm m A P i j = mm m A P j i) /\
  (forall i j, (i < m)%nat -> (j < m)%nat -> mm n P A i j = mm n P A j i).

(** What a linear model with coefficients [w] for the [d] policy weights and [v] for the [c]
    critic features predicts for the return of an episode. *)
Definition predicted (gamma : R) (d c : nat) (w v : vec) (e : list sample) : R :=
  dot d (discounted_score gamma e) w + sm c (fun j => nth j (match e with [] => [] | x :: _ => phi_c x end) 0 * v j).

Definition squared_error (gamma : R) (d c : nat) (eps : list (list sample)) (w v : vec) : R :=
  rsum (map (fun e => (return_ gamma e - predicted gamma d c w v e) ^ 2) eps).

(** [w] with some [v] is the least squares fit of the returns, the smallest one if there are
    several. *)
Definition least_squares (gamma : R) (d c : nat) (eps : list (list sample)) (w : vec) : Prop :=
  exists v, forall w' v', squared_error gamma d c eps w v <= squared_error gamma d c eps w' v' /\
    (squared_error gamma d c eps w' v' = squared_error gamma d c eps w v -> dot d w w + dot c v v <= dot d w' w' + dot c v' v').

(** The episodes determine the coefficients. *)
Definition identified (gamma : R) (d c : nat) (eps : list (list sample)) : Prop :=
  forall w v, (forall e, In e eps -> predicted gamma d c w v e = 0) -> forall j, (j < d)%nat -> w j = 0.

(** Mean and covariance over a list of episodes. *)
Definition average (eps : list (list sample)) (f : list sample -> R) : R := rsum (map f eps) / INR (length eps).
Definition covariance (eps : list (list sample)) (f g : list sample -> R) : R :=
  average eps (fun e => (f e - average eps f) * (g e - average eps g)).

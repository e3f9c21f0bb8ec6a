(** Optimal values, independently of the solvers: suprema of discounted returns. *)
From Coq Require Import List Arith Reals.
From Verif Require Import Common.
Import ListNotations.

(** Transition rows are sub-distributions (the rows of absorbing states are zero). *)
Definition transitions (n m : nat) (p : nat -> nat -> nat -> R) : Prop :=
  forall s a, s < n -> a < m -> (forall j, j < n -> (0 <= p s a j)%R) /\ (rsum (map (p s a) (seq 0 n)) <= 1)%R.

(** Expected discounted return of the first T steps from s when action rules t s is
    chosen at time t in state s. *)
Fixpoint return_ (n : nat) (p r : nat -> nat -> nat -> R) (gamma : R) (rules : nat -> nat -> nat) (T s : nat) : R :=
  match T with
  | 0 => 0%R
  | S T' => rsum (map (fun j => p s (rules 0%nat s) j * (r s (rules 0%nat s) j + gamma * return_ n p r gamma (fun t => rules (S t)) T' j))%R (seq 0 n))
  end.

(** V is optimal: no (time-dependent) choice of actions has a larger long-run return and
    some stationary policy attains it. *)
Definition optimal_value (n m : nat) (p r : nat -> nat -> nat -> R) (gamma : R) (V : nat -> R) : Prop :=
  (forall rules s, (forall t s, s < n -> rules t s < m) -> s < n ->
     forall d, (0 < d)%R -> exists T0, forall T, T0 <= T -> (return_ n p r gamma rules T s <= V s + d)%R) /\
  (exists pol, (forall s, s < n -> pol s < m) /\ forall s, s < n ->
     forall d, (0 < d)%R -> exists T0, forall T, T0 <= T -> (V s - d <= return_ n p r gamma (fun _ => pol) T s)%R).

(** V is the long-run return of the stationary policy. *)
Definition policy_value (n : nat) (p r : nat -> nat -> nat -> R) (gamma : R) (pol : nat -> nat) (V : nat -> R) : Prop :=
  forall s, s < n -> forall d, (0 < d)%R -> exists T0, forall T, T0 <= T -> (Rabs (return_ n p r gamma (fun _ => pol) T s - V s) <= d)%R.

(** The linear solver is exact on the systems with a strictly dominant diagonal. *)
Definition exact_solver (n : nat) (solve : (nat -> nat -> R) -> (nat -> R) -> list R) : Prop :=
  forall A b c, (0 <= c < 1)%R ->
    (forall s, s < n -> (rsum (map (fun j => Rabs ((if Nat.eqb s j then 1 else 0) - A s j)) (seq 0 n)) <= c)%R) ->
    length (solve A b) = n /\ forall s, s < n -> rsum (map (fun j => A s j * nth j (solve A b) 0)%R (seq 0 n)) = b s.

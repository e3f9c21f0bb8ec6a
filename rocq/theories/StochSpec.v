(** Finite stochastic environments, their optimal values, and what it means that a sequence of
    transitions was sampled from one. *)
From Coq Require Import List Arith Lia Bool Reals.
From Verif Require Import Common TdModel TdSpec ConvProps.
Import ListNotations.
Local Open Scope R_scope.

(** One possible reaction to an action: probability, reward, next state, absorbing flag. *)
Record outcome := mkO { o_p : R; o_r : R; o_s : nat; o_abs : bool }.
Definition senv := nat -> nat -> list outcome.
Definition o_dflt : outcome := mkO 0 0 0 true.

(** The probabilities are a distribution; the environment stays in [lv] until it absorbs. *)
Definition senv_ok (lv : list nat) (k : nat) (e : senv) : Prop := forall s a, In s lv -> (a < k)%nat ->
  (forall o, In o (e s a) -> 0 <= o_p o /\ (o_abs o = false -> In (o_s o) lv)) /\
  rsum (map o_p (e s a)) = 1.

(** The optimality equations. *)
Definition s_optimal (lv : list nat) (k : nat) (gamma : R) (e : senv) (q : nat -> nat -> R) : Prop :=
  exists v : nat -> R, (forall s, In s lv -> is_max k (q s) (v s)) /\
    forall s a, In s lv -> (a < k)%nat ->
      q s a = rsum (map (fun o => o_p o * (o_r o + gamma * (if o_abs o then 0 else v (o_s o)))) (e s a)).

(** The values of a fixed policy. *)
Definition s_policy_values (lv : list nat) (k : nat) (gamma : R) (e : senv) (pi : nat -> list R) (q : nat -> nat -> R) : Prop :=
  forall s a, In s lv -> (a < k)%nat ->
    q s a = rsum (map (fun o => o_p o * (o_r o + gamma * (if o_abs o then 0
      else rsum (map (fun b => nth b (pi (o_s o)) 0 * q (o_s o) b) (seq 0 k))))) (e s a)).

(** A plan says what to do next for every outcome met; its expected discounted return. *)
Inductive plan := Stop | Do (a : nat) (continue : nat -> plan).
Fixpoint eret (gamma : R) (e : senv) (p : plan) (s : nat) : R :=
  match p with
  | Stop => 0
  | Do a cont => rsum (map (fun j => let o := nth j (e s a) o_dflt in
      o_p o * (o_r o + (if o_abs o then 0 else gamma * eret gamma e (cont j) (o_s o)))) (seq 0 (length (e s a))))
  end.
(** All branches end after exactly [m] actions, all of them below [k]. *)
Fixpoint plan_ok (k m : nat) (p : plan) : Prop :=
  match p, m with
  | Stop, O => True
  | Do a cont, S m' => (a < k)%nat /\ forall j, plan_ok k m' (cont j)
  | _, _ => False
  end.

(** Transition [x] is the outcome number [j] of its state and action. *)
Definition is_outcome (lv : list nat) (k : nat) (e : senv) (x : sample) (j : nat) : Prop :=
  In (x_s x) lv /\ (x_a x < k)%nat /\ (j < length (e (x_s x) (x_a x)))%nat /\
  let o := nth j (e (x_s x) (x_a x)) o_dflt in x_r x = o_r o /\ x_s' x = o_s o /\ x_abs x = o_abs o.

(** How often, before time [t], the pair was visited with outcome [j]. *)
Fixpoint met_outcome (xs : nat -> sample) (w : nat -> nat) (s a j t : nat) : nat :=
  match t with
  | O => O
  | S t' => ((if pair_eqb (x_s (xs t'), x_a (xs t')) (s, a) && Nat.eqb (w t') j then 1 else 0) + met_outcome xs w s a j t')%nat
  end.

(** Law of large numbers: the share of the visits of a pair that have outcome [j] tends to the
    probability of [j]. *)
Definition sampled_fairly (lv : list nat) (k : nat) (e : senv) (xs : nat -> sample) (w : nat -> nat) : Prop :=
  forall s a j, In s lv -> (a < k)%nat -> (j < length (e s a))%nat ->
    forall eps, 0 < eps -> exists N, forall t, (N <= t)%nat ->
      Rabs (INR (met_outcome xs w s a j t) / INR (visits xs s a t) - o_p (nth j (e s a) o_dflt)) < eps.

(** The share of outcome [j] among the visits of a pair, each visit weighted by the learning rate
    used for it and by what the later learning rates leave of it. *)
Fixpoint weighted_share (al : nat -> R) (xs : nat -> sample) (w : nat -> nat) (s a j t : nat) : R :=
  match t with
  | O => 0
  | S t' =>
      let before := weighted_share al xs w s a j t' in
      if pair_eqb (x_s (xs t'), x_a (xs t')) (s, a)
      then (1 - al t') * before + al t' * (if Nat.eqb (w t') j then 1 else 0) else before
  end.
Definition weighted_fairly (lv : list nat) (k : nat) (e : senv) (al : nat -> R) (xs : nat -> sample) (w : nat -> nat) : Prop :=
  forall s a j, In s lv -> (a < k)%nat -> (j < length (e s a))%nat ->
    forall eps, 0 < eps -> exists N, forall t, (N <= t)%nat ->
      Rabs (weighted_share al xs w s a j t - o_p (nth j (e s a) o_dflt)) < eps.

(** The learning rate used for the n-th visit of a pair is 1/n. *)
Definition averaging (al : nat -> R) (xs : nat -> sample) : Prop :=
  forall t, al t = / INR (S (visits xs (x_s (xs t)) (x_a (xs t)) t)).

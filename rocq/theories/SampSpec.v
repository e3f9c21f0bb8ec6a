(** Vocabulary for C118: the distribution of the episodes of a policy in a finite stochastic
    environment, as sequences of transitions. *)
From Coq Require Import List Bool Arith Reals.
From Verif Require Import Common PgExpSpec.
From Verif Require CoreModel.
Import ListNotations.
Local Open Scope R_scope.

Section Spec.
Context {St Ac A0 : Type}.
Variable acts : list Ac.
(** Outcomes of an action: probability, next state, reward, absorbing flag. *)
Variable kern : St -> Ac -> list (R * St * R * bool).
(** Initial states with their probabilities. *)
Variable starts : list (R * St).
(** Probability that the agent in this state of mind gives to an action. *)
Variable pi : A0 -> St -> Ac -> R.
Notation row := (CoreModel.sample St Ac R unit).

(** The episodes from a state, at most [h + 1] steps long, with their probabilities. *)
Fixpoint paths (g : A0) (h : nat) (s : St) : list (R * list row) :=
  flat_map (fun a => flat_map (fun k =>
    let '(p, s', r, ab) := k in
    match h with
    | O => [(pi g s a * p, [CoreModel.mkS s a r s' ab true tt tt])]
    | S h' => if ab : bool then [(pi g s a * p, [CoreModel.mkS s a r s' ab true tt tt])]
              else map (fun we => (pi g s a * p * fst we, CoreModel.mkS s a r s' ab false tt tt :: snd we)) (paths g h' s')
    end) (kern s a)) acts.

Definition epis (g : A0) (h : nat) : list (R * list row) :=
  flat_map (fun ws => map (fun we => (fst ws * fst we, snd we)) (paths g h (snd ws))) starts.

(** The value of a state when at most [h + 1] steps remain, by backward induction. *)
Fixpoint value (gamma : R) (g : A0) (h : nat) (s : St) : R :=
  rsum (map (fun a => pi g s a * rsum (map (fun k => let '(p, s', r, ab) := k in
    p * (r + match h with O => 0 | S h' => if ab : bool then 0 else gamma * value gamma g h' s' end)) (kern s a))) acts).

(** Expected return of an episode. *)
Definition expected_return (gamma : R) (h : nat) (g : A0) : R := mean starts (value gamma g h).

(** Discounted return of an episode. *)
Fixpoint gain (gamma : R) (e : list row) : R :=
  match e with [] => 0 | x :: e' => CoreModel.reward x + gamma * gain gamma e' end.

(** Variance of the return of an episode. *)
Definition return_variance (gamma : R) (h : nat) (g : A0) : R :=
  mean (epis g h) (fun e => (gain gamma e - expected_return gamma h g) ^ 2).

(** A learner that [m] times sees [k] independent episodes of the policy it has at that moment;
    expectation of a quantity [F] of the result. *)
Fixpoint on_policy (fit0 : A0 -> list row -> A0) (k h m : nat) (F : A0 -> R) (g : A0) : R :=
  match m with
  | O => F g
  | S m' => mean (batches k (epis g h)) (fun b => on_policy fit0 k h m' F (fit0 g (concat b)))
  end.
End Spec.

(** Two independent tapes of random draws. *)
Definition tapes {A B} (ne na : nat) (mue : list (R * A)) (mua : list (R * B)) (f : list A -> list B -> R) : R :=
  mean (batches ne mue) (fun te => mean (batches na mua) (fun ta => f te ta)).

(** Arithmetic mean of a list. *)
Definition average (l : list R) : R := rsum l / INR (length l).

(** Probability of an event. *)
Definition prob {A} (l : list (R * A)) (P : A -> bool) : R := mean l (fun x => if P x then 1 else 0).

(** Vocabulary for C106: episodes of a finite stochastic environment and their distribution
    under a policy. *)
From Coq Require Import List Arith Reals Bool.
From Verif Require Import Common PgModel PgSpec.
Import ListNotations.
Local Open Scope R_scope.

(** Expectation over a weighted list. *)
Definition mean {A} (l : list (R * A)) (f : A -> R) : R := rsum (map (fun x => fst x * f (snd x)) l).

(** [n] independent draws. *)
Fixpoint batches {A} (n : nat) (l : list (R * A)) : list (R * list A) :=
  match n with
  | O => [(1, [])]
  | S n' => flat_map (fun we => map (fun wb => (fst we * fst wb, snd we :: snd wb)) (batches n' l)) l
  end.

(** The weights with component [i] replaced. *)
Definition with_comp (th : vec) (i : nat) (t : R) : vec := fun j => if (j =? i)%nat then t else th j.

Section Spec.
Context {St Ac : Type}.
Variable acts : list Ac.
(** Outcomes of an action: probability, next state, reward, absorbing flag. *)
Variable kern : St -> Ac -> list (R * St * R * bool).
(** Probability the policy with these weights gives to an action, and its [diff_log]. *)
Variable pi : vec -> St -> Ac -> R.
Variable dlog : vec -> St -> Ac -> vec.
(** Initial states with their probabilities. *)
Variable starts : list (R * St).

(** State, action, reward and last flag of a step. *)
Definition visit : Type := (St * Ac * R * bool)%type.

(** The episodes from a state with their probabilities when the horizon is [h + 1] steps. *)
Fixpoint runs (th : vec) (h : nat) (s : St) : list (R * list visit) :=
  flat_map (fun a => flat_map (fun k =>
    let '(p, s', r, ab) := k in
    match h with
    | O => [(pi th s a * p, [(s, a, r, true)])]
    | S h' => if ab : bool then [(pi th s a * p, [(s, a, r, true)])]
              else map (fun we => (pi th s a * p * fst we, (s, a, r, false) :: snd we)) (runs th h' s')
    end) (kern s a)) acts.

Definition episodes (th : vec) (h : nat) : list (R * list visit) :=
  flat_map (fun ws => map (fun we => (fst ws * fst we, snd we)) (runs th h (snd ws))) starts.

(** What a policy-gradient agent with weights [th] reads from an episode. *)
Definition seen (th : vec) (e : list visit) : list sample :=
  map (fun v => let '(s, a, r, l) := v in {| score := dlog th s a; rew := r; phi_c := [1]; lst := l |}) e.

(** Discounted return of an episode. *)
Fixpoint disc (gamma : R) (e : list visit) : R :=
  match e with [] => 0 | (_, _, r, _) :: e' => r + gamma * disc gamma e' end.

(** Expected return of the policy with weights [th]. *)
Definition objective (gamma : R) (h : nat) (th : vec) : R := mean (episodes th h) (disc gamma).
End Spec.

(** Vocabulary for C40. *)
From Coq Require Import List Arith Lia Reals Bool.
From Verif Require Import Common PgModel.
Import ListNotations.
Local Open Scope R_scope.

(** Discounted return of an episode. *)
Definition return_ (gamma : R) (e : list sample) : R :=
  rsum (map (fun t => gamma ^ t * nth t (map rew e) 0) (seq 0 (length e))).
(** Component [i] of the score of a whole episode, and of its first [t + 1] steps. *)
Definition score_of (e : list sample) (i : nat) : R := rsum (map (fun x => score x i) e).
Definition score_upto (e : list sample) (t i : nat) : R := score_of (firstn (S t) e) i.
Definition reward_at (gamma : R) (e : list sample) (t : nat) : R := gamma ^ t * nth t (map rew e) 0.

(** Variance-minimising baseline: 0 when the scores vanish. *)
Definition quotient (num den : R) : R := if Req_EM_T den 0 then 0 else num / den.

(** REINFORCE with the componentwise optimal baseline. *)
Definition reinforce_baseline (gamma : R) (eps : list (list sample)) (i : nat) : R :=
  quotient (rsum (map (fun e => score_of e i ^ 2 * return_ gamma e) eps)) (rsum (map (fun e => score_of e i ^ 2) eps)).
Definition reinforce_gradient (gamma : R) (eps : list (list sample)) (i : nat) : R :=
  rsum (map (fun e => score_of e i * (return_ gamma e - reinforce_baseline gamma eps i)) eps) / INR (length eps).

(** GPOMDP: step-wise scores and baselines.  The baseline of step [t] averages over all
    trajectories [trajs] that have a step [t]. *)
Definition gpomdp_baseline (gamma : R) (trajs : list (list sample)) (t i : nat) : R :=
  let long := filter (fun e => t <? length e)%nat trajs in
  quotient (rsum (map (fun e => score_upto e t i ^ 2 * reward_at gamma e t) long)) (rsum (map (fun e => score_upto e t i ^ 2) long)).
Definition gpomdp_gradient (gamma : R) (eps trajs : list (list sample)) (i : nat) : R :=
  rsum (map (fun e => rsum (map (fun t => score_upto e t i * (reward_at gamma e t - gpomdp_baseline gamma trajs t i)) (seq 0 (length e)))) eps) / INR (length eps).

(** eNAC: discounted score of an episode. *)
Definition discounted_score (gamma : R) (e : list sample) (i : nat) : R :=
  rsum (map (fun t => gamma ^ t * nth t (map (fun x => score x i) e) 0) (seq 0 (length e))).

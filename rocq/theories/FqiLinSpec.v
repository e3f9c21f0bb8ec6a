(** What FQI on a partition of the states should compute, without reference to the model. *)
From Coq Require Import List Arith Reals.
From Verif Require Import Common BatchModel DqnSpec Mat.
Import ListNotations.
Local Open Scope R_scope.

Section Spec.
Context {X : Type}.
(** [cell x] is the part of the state space, out of [p], that [x] lies in *)
Variables (p nA : nat) (cell : X -> nat) (gamma : R).

(** The features are the indicators of the parts: a table, or one tiling *)
Definition one_hot (phi : X -> vec) : Prop :=
  forall x, (cell x < p)%nat /\ phi x (cell x) = 1 /\ forall j, (j < p)%nat -> j <> cell x -> phi x j = 0.

(** The samples of the dataset with the action [a] in the part [c] *)
Definition here (D : list (bsample X)) (c a : nat) : list (bsample X) :=
  filter (fun x => andb (Nat.eqb (cell (b_s x)) c) (Nat.eqb (b_a x) a)) D.

(** One-step look-ahead of a sample with the action values [Q] *)
Definition backup (Q : nat -> nat -> R) (x : bsample X) (y : R) : Prop :=
  (b_abs x = true -> y = b_r x) /\
  (b_abs x = false -> exists v, is_max (map (Q (cell (b_s' x))) (seq 0 nA)) v /\ y = b_r x + gamma * v).

Definition mean (ys : list R) : R := rsum ys / INR (length ys).

(** [Q] solves the Bellman optimality equation of the empirical decision process of the dataset:
    rewards and transitions of a pair are the empirical ones; a pair never seen is worth 0 if the
    action was seen elsewhere, and what the weights [w] said before if it was never seen. *)
Definition empirical (D : list (bsample X)) (w : nat -> vec) (Q : nat -> nat -> R) : Prop :=
  forall c a, (c < p)%nat -> (a < nA)%nat ->
    (here D c a <> [] -> exists ys, Forall2 (backup Q) (here D c a) ys /\ Q c a = mean ys) /\
    (here D c a = [] -> (exists x, In x D /\ b_a x = a) -> Q c a = 0) /\
    ((forall x, In x D -> b_a x <> a) -> Q c a = w a c).
End Spec.

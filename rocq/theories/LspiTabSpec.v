(** What LSPI on a partition of the states should compute. *)
From Coq Require Import List Arith Reals.
From Verif Require Import Common BatchModel DqnSpec FqiLinSpec Mat.
Import ListNotations.
Local Open Scope R_scope.

Section Spec.
Context {X : Type}.
Variables (p nA : nat) (cell : X -> nat) (gamma : R).

(** The features of a state, as a list: the indicators of the [p] parts *)
Definition one_hot_list (phi : X -> list R) : Prop :=
  forall x, (cell x < p)%nat /\ phi x = map (fun j => if Nat.eqb j (cell x) then 1 else 0) (seq 0 p).

(** One-step look-ahead of a sample.  LSPI does not stop at an absorbing sample: it goes on with the
    action 0 in the absorbing state. *)
Definition lspi_backup (Q : nat -> nat -> R) (x : bsample X) (y : R) : Prop :=
  (b_abs x = true -> y = b_r x + gamma * Q (cell (b_s' x)) 0%nat) /\
  (b_abs x = false -> exists v, is_max (map (Q (cell (b_s' x))) (seq 0 nA)) v /\ y = b_r x + gamma * v).

Definition lspi_optimal (D : list (bsample X)) (Q : nat -> nat -> R) : Prop :=
  forall c a, (c < p)%nat -> (a < nA)%nat -> exists ys, Forall2 (lspi_backup Q) (here cell D c a) ys /\ Q c a = mean ys.

(** Every action was tried in every part *)
Definition covers (D : list (bsample X)) : Prop :=
  (forall x, In x D -> (b_a x < nA)%nat) /\ forall c a, (c < p)%nat -> (a < nA)%nat -> exists x, In x D /\ cell (b_s x) = c /\ b_a x = a.
End Spec.

(** numpy.linalg.solve: solves the systems with a regular matrix of dimension [d] *)
Definition regular (d : nat) (A : mat) : Prop :=
  forall v : vec, (forall j, (j < d)%nat -> sm d (fun k => A j k * v k) = 0) -> forall k, (k < d)%nat -> v k = 0.
Definition solves (d : nat) (solve : mat -> vec -> vec) : Prop :=
  forall A b, regular d A -> forall j, (j < d)%nat -> sm d (fun k => A j k * solve A b k) = b j.

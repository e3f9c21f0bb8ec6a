(** What the theorems about ConstrainedREPS assume of scipy.optimize.minimize and of numpy.linalg. *)
From Coq Require Import List Bool Arith Lia Reals Lra.
From Verif Require Import Common Mat GaussModel ConRepsModel.
Import ListNotations.
Local Open Scope R_scope.

(** [x] is a local minimum of [f] over the numbers not below [lb] *)
Definition local_min1 (lb : R) (f : R -> R) (x : R) : Prop :=
  lb <= x /\ exists d, 0 < d /\ forall y, lb <= y -> Rabs (y - x) < d -> f x <= f y.
Definition local_min2 (lb : R) (f : R -> R -> R) (x y : R) : Prop :=
  lb <= x /\ lb <= y /\ exists d, 0 < d /\ forall x' y', lb <= x' -> lb <= y' -> Rabs (x' - x) < d -> Rabs (y' - y) < d -> f x y <= f x' y'.

(** Symmetric positive definite matrices, triangular matrices, equality of the entries *)
Definition meq (n : nat) (X Y : mat) : Prop := forall i j, (i < n)%nat -> (j < n)%nat -> X i j = Y i j.
Definition pd (n : nat) (X : mat) : Prop :=
  (forall i j, (i < n)%nat -> (j < n)%nat -> X i j = X j i) /\
  forall u, (exists i, (i < n)%nat /\ u i <> 0) -> 0 < dot n u (mv n X u).
Definition lower (n : nat) (L : mat) : Prop :=
  (forall i j, (i < n)%nat -> (j < n)%nat -> (i < j)%nat -> L i j = 0) /\ forall i, (i < n)%nat -> 0 < L i i.
(** numpy.linalg on a positive definite matrix: inv is the inverse, cholesky a lower triangular factor
    with positive diagonal, and the logarithm of the determinant is twice the sum of the logarithms of
    the diagonal of any such factor *)
Record linalg_ok (n : nat) (A : linalg) : Prop := mkLAok {
  ok_inv : forall X, pd n X -> meq n (mm n X (la_inv A X)) eye;
  ok_chol : forall X, pd n X -> lower n (la_chol A X) /\ meq n (mm n (la_chol A X) (mt (la_chol A X))) X;
  ok_slogdet : forall X L, lower n L -> meq n (mm n L (mt L)) X -> la_slogdet A X = 2 * sm n (fun k => ln (L k k)) }.

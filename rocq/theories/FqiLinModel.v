(** FQI with the linear regressor, one model per action
    (mushroom_rl/algorithms/value/batch_td/fqi.py, approximators/_implementations/action_regressor.py,
    approximators/parametric/linear.py).  The loop of FQI is [BatchModel.fqi_fit]. *)
From Coq Require Import List Arith Reals.
From Verif Require Import Common TdModel DqnModel BatchModel Mat.
Import ListNotations.
Local Open Scope R_scope.

Section FqiLin.
Context {X : Type}.
(** [p] features [phi], [nA] actions, [pinv] is numpy.linalg.pinv of a matrix with the given shape *)
Variables (p nA : nat) (phi : X -> vec) (pinv : nat -> nat -> mat -> mat).

(** The weights of the models of the actions (action_regressor.py 28-31) *)
Definition lreg := nat -> vec.

(** state[idxs, :] and q[idxs] with the indexes where the action is [i] (action_regressor.py 51-54) *)
Definition of_action (i : nat) (st : list X) (ac : list nat) (q : list R) : list (X * R) :=
  map (fun t => (fst (fst t), snd t)) (filter (fun t => Nat.eqb (snd (fst t)) i) (combine (combine st ac) q)).

(** LinearApproximator.fit (linear.py 53-54): phi of the inputs, then pinv(phi).dot(y) *)
Definition design (l : list (X * R)) : mat :=
  fun i j => match nth_error l i with Some t => phi (fst t) j | None => 0 end.
Definition lin_fit (l : list (X * R)) : vec :=
  mv (length l) (pinv (length l) p (design l)) (fun i => nth i (map snd l) 0).

(** ActionRegressor.fit (action_regressor.py 50-54): the model of an action without samples is
    left alone *)
Definition reg_fit (m : lreg) (st : list X) (ac : list nat) (q : list R) : lreg :=
  fun i => match of_action i st ac q with [] => m i | l => lin_fit l end.

(** ActionRegressor.predict with a state only (action_regressor.py 82-86), with
    LinearApproximator.predict (linear.py 68-74) *)
Definition reg_pred (m : lreg) (x : X) : list R := map (fun a => dot p (phi x) (m a)) (seq 0 nA).

(** FQI.fit (fqi.py 34-49) on the parsed dataset [D]; the state is the approximator and self._target *)
Definition fqi_lin (gamma : R) (n : nat) (D : list (bsample X)) (st : lreg * option (list R)) : lreg * option (list R) :=
  fqi_fit reg_pred reg_fit gamma n D st.
End FqiLin.

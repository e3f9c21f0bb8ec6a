(** BoostedFQI and DoubleFQI with linear regressors
    (mushroom_rl/algorithms/value/batch_td/{boosted_fqi,double_fqi}.py, approximators/regressor.py,
    approximators/ensemble.py).  The loops are [BatchModel.boosted_fit] and [BatchModel.dfqi_fit]. *)
From Coq Require Import List Arith Reals.
From Verif Require Import Common TdModel DqnModel BatchModel ApproxModel Mat FqiLinModel.
Import ListNotations.
Local Open Scope R_scope.

Section EnsFqi.
Context {X : Type}.
Variables (p nA : nat) (phi : X -> vec) (pinv : nat -> nat -> mat -> mat) (gamma : R).

(** With n_models the models of the actions are ensembles (regressor.py 57-68).  The [j]-th models of
    all actions are the [j]-th entry of the list: predict(state, idx=j) is [reg_pred] of that entry,
    fit(..., idx=j) is [reg_fit] of it (action_regressor.py 50-54, 82-86, ensemble.py 48-52, 78-82). *)
Definition boosted_lin (n : nat) (D : list (bsample X)) (st : boosted) : option boosted :=
  boosted_fit (reg_pred p nA phi) (reg_fit p phi pinv) gamma n D st.
Definition double_lin (n : nat) (D : list (bsample X)) (st : (lreg * lreg) * option (list R * list R)) : (lreg * lreg) * option (list R * list R) :=
  dfqi_fit (reg_pred p nA phi) (reg_fit p phi pinv) gamma n D st.

(** predict(state) without idx, which is what the policy and the user call: the predictions of the
    models of every action are combined (ensemble.py 84-112) *)
Definition ens_q (mode : ens_mode) (ms : list lreg) (x : X) : list R :=
  map (fun a => ens_predict mode (map (fun m => nth a (reg_pred p nA phi m x) 0) ms)) (seq 0 nA).
End EnsFqi.

(** PGPE under [Core]: the update rule that BbAgentModel.v leaves open, with the optimizers of
    OptModel.v (/repo/mushroom_rl/algorithms/policy_search/black_box_optimization/pgpe.py). *)
From Coq Require Import List Arith Lia Bool Reals.
From Verif Require Import Common GaussModel.
From Verif Require OptModel.
Import ListNotations.
Local Open Scope R_scope.

(** The optimizers (/repo/mushroom_rl/rl_utils/optimizers.py 36-171) with their state.  The
    learning rates of a Parameter are a sequence read one value per call. *)
Inductive optimizer :=
| Adaptive (d : nat) (eps : R) (maximize : bool)
| Sgd (lr : nat -> R) (calls : nat) (maximize : bool)
| Adam (lr : nat -> R) (b1 b2 eps : R) (calls : nat) (maximize : bool) (st : option OptModel.adam).
(** optimizer(params, grads) *)
Definition opt_call (o : optimizer) (p g : nat -> R) : optimizer * (nat -> R) :=
  match o with
  | Adaptive d eps mx => (o, fst (OptModel.adaptive d eps mx p g g))
  | Sgd lr n mx => (Sgd lr (S n) mx, fst (OptModel.sgd (lr n) mx p g))
  | Adam lr b1 b2 eps n mx st =>
      let '(st', p', _) := OptModel.adam_call (lr n) b1 b2 eps mx st p g in (Adam lr b1 b2 eps (S n) mx st', p')
  end.

(** PGPE._update (pgpe.py 27-60): [diff omega th] is distribution.diff_log; the pair is the
    parameters of the distribution and the optimizer.  The distribution takes no context. *)
Definition pgpe_update {Th Cx} (diff : (nat -> R) -> Th -> nat -> R) (D : (nat -> R) * optimizer) (Js : list R) (ths : list Th) (_ : list Cx)
  : (nat -> R) * optimizer :=
  let '(om, o) := D in
  let grads := map (diff om) ths in
  let g := pgpe_grad (length Js) (fun i => nth i grads (fun _ => 0)) (fun i => nth i Js 0) in
  let '(o', om') := opt_call o om g in (om', o').

(** RWR._update (rwr.py 31-36, constant beta) and REPS._update (reps.py 34-48, [eta] is the result
    of the minimisation) on a GaussianDiagonalDistribution: mle with weights (gaussian.py 181-188).
    The pair is mean and standard deviation; [None] is an array of NaN, the value of the
    division by Z = 0, whose numerator is 0 too. *)
Inductive weighting := Rwr (beta : R) | Reps (eta : list R -> R).
Definition weights_of (wt : weighting) (Js : list R) : nat -> R :=
  match wt with
  | Rwr beta => rwr_weights (length Js) beta (fun i => nth i Js 0)
  | Reps eta => reps_weights (length Js) (eta Js) (fun i => nth i Js 0)
  end.
Definition wmle_update {Cx} (wt : weighting) (D : (nat -> R) * option (nat -> R)) (Js : list R) (ths : list (nat -> R)) (_ : list Cx)
  : (nat -> R) * option (nat -> R) :=
  let N := length Js in
  let w := weights_of wt Js in
  let theta i := nth i ths (fun _ => 0) in
  (mle_mu N w theta, if Req_EM_T (mle_Z N w) 0 then None else Some (diag_mle_std N w theta)).

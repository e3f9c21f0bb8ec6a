(** ConstrainedREPS with a scheduled eps over a run of updates, for a Gaussian of fixed covariance
    (/repo/mushroom_rl/algorithms/policy_search/black_box_optimization/constrained_reps.py 38-51,
    the fits are those of ConRepsModel.v).  kappa is not used by this distribution. *)
From Coq Require Import List Arith Lia Reals Bool.
From Verif Require Import Common Mat GaussModel ConRepsModel ParamModel.
Import ListNotations.

(** The data of an update: number of episodes, returns and parameters *)
Record cdata := mkCd { cd_n : nat; cd_J : vec; cd_theta : nat -> vec }.

(** Each update calls eps for the dual function (line 43) and again for the fit (line 51); the trace
    holds the weights and the new mean *)
Fixpoint creps_run (o1 o2 : min1) (n : nat) (sigma S : mat) (ld : R) (p : param) (mu : vec) (us : list cdata) : option (list (vec * vec) * param) :=
  match us with
  | [] => Some ([], p)
  | u :: t =>
    a <- p_call p 0 ;; b <- p_call (snd a) 0 ;;
    let w := creps_weights o1 (cd_n u) (cd_J u) (fst a) in
    let m := gd_con_wmle o2 n (cd_n u) mu sigma S ld (cd_theta u) w (fst b) in
    y <- creps_run o1 o2 n sigma S ld (snd b) m t ;; Some ((w, m) :: fst y, snd y)
  end.

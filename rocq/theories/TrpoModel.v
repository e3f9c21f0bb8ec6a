(** TRPO: conjugate gradient and line search,
    mushroom_rl/algorithms/actor_critic/deep_actor_critic/trpo.py.
    Flat parameter vectors of [d] components are functions of the index.  The
    Fisher-vector product is multiplication with a matrix [M]: the Hessian of the mean
    KL divergence at the current parameters plus the damping. *)
From Coq Require Import List Arith Lia Reals Bool.
From Verif Require Import Common.
Import ListNotations.
Local Open Scope R_scope.

Definition vec := nat -> R.
Definition dot (d : nat) (a b : vec) : R := rsum (map (fun i => a i * b i) (seq 0 d)).
Definition mulv (d : nat) (M : nat -> nat -> R) (v : vec) : vec := fun i => rsum (map (fun j => M i j * v j) (seq 0 d)).

(** Loop of _conjugate_gradient, trpo.py 139-150.  [p.detach()] and [r.detach()] share the
    storage of [b] (lines 134-135), so that the in-place [r -= v * z] also changes [p]
    until [p] is rebound by [p = r + mu * p]: [aliased] says whether it does.
    [None]: a division by zero, after which the tensors hold inf or nan.
    The flag of the result says whether the loop was left by the residual test. *)
Fixpoint cg_loop (d : nat) (M : nat -> nat -> R) (tol : R) (n : nat) (x p r : vec) (r2 : R) (aliased : bool) : option (vec * bool) :=
  match n with
  | O => Some (x, false)
  | S n' =>
      let z := mulv d M p in
      let pz := dot d p z in
      if Req_EM_T pz 0 then None else
      let v := r2 / pz in
      let x' : vec := fun i => x i + v * p i in
      let r' : vec := fun i => r i - v * z i in
      let p1 := if aliased then r' else p in
      let r2_new := dot d r' r' in
      if Req_EM_T r2 0 then None else
      let mu := r2_new / r2 in
      let p' : vec := fun i => r' i + mu * p1 i in
      if Rlt_dec r2_new tol then Some (x', true) else cg_loop d M tol n' x' p' r' r2_new false
  end.

(** _conjugate_gradient, trpo.py 133-151 *)
Definition cg (d : nat) (M : nat -> nat -> R) (tol : R) (n : nat) (b : vec) : option (vec * bool) :=
  cg_loop d M tol n (fun _ => 0) b b (dot d b b) true.

(** _line_search, trpo.py 154-158 *)
Definition full_step (d : nat) (M : nat -> nat -> R) (max_kl : R) (stepdir : vec) : vec :=
  let direction := mulv d M stepdir in
  let shs := / 2 * dot d stepdir direction in
  let lm := sqrt (shs / max_kl) in
  fun i => stepdir i / lm.

(** _line_search, trpo.py 167-180: the weights of the policy at the end.  [loss] and [kl]
    are [_compute_loss] and [_compute_kl] as functions of the weights. *)
Fixpoint ls_loop (loss kl : vec -> R) (max_kl prev_loss : R) (theta_old step : vec) (n : nat) (stepsize : R) : vec :=
  match n with
  | O => theta_old
  | S n' =>
      let theta_new : vec := fun i => theta_old i + step i * stepsize in
      let improve := loss theta_new - prev_loss in
      if Rle_dec (kl theta_new) (max_kl * (3 / 2)) then
        if Rle_dec 0 improve then theta_new else ls_loop loss kl max_kl prev_loss theta_old step n' (stepsize * / 2)
      else ls_loop loss kl max_kl prev_loss theta_old step n' (stepsize * / 2)
  end.
Definition line_search (d : nat) (M : nat -> nat -> R) (loss kl : vec -> R) (max_kl prev_loss : R) (theta_old stepdir : vec) (n : nat) : vec :=
  ls_loop loss kl max_kl prev_loss theta_old (full_step d M max_kl stepdir) n 1.

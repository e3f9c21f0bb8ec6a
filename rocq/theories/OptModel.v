(** Model of the optimizers (/repo/mushroom_rl/rl_utils/optimizers.py).  Vectors of dimension
    [d] are functions on indexes; floats are real numbers.  A call returns the new parameters
    and the content of the caller's gradient array afterwards (grads *= -1 works in place). *)
From Coq Require Import List Arith Lia Bool Reals.
From Verif Require Import Common.
Import ListNotations.
Local Open Scope R_scope.

Definition vec := nat -> R.
Definition vdot (d : nat) (a b : vec) : R := rsum (map (fun i => a i * b i) (seq 0 d)).

(** AdaptiveOptimizer.get_value (81-93) *)
Definition step_length (d : nat) (eps : R) (g ng : vec) : R :=
  let tmp := vdot d g ng in
  let lambda_v := Rmax (sqrt (tmp / (4 * eps))) (/ 100000000) in
  1 / (2 * lambda_v).
(** AdaptiveOptimizer.__call__ (70-79) with the natural gradient [ng] *)
Definition adaptive (d : nat) (eps : R) (maximize : bool) (params g ng : vec) : vec * vec :=
  let lr := step_length d eps g ng in
  let ng' : vec := if maximize then ng else fun i => ng i * -1 in
  ((fun i => params i + lr * ng' i), ng').

(** SGDOptimizer.__call__ (115-118); [lr] is the value of the learning rate *)
Definition sgd (lr : R) (maximize : bool) (params g : vec) : vec * vec :=
  let g' : vec := if maximize then g else fun i => g i * -1 in ((fun i => params i + lr * g' i), g').

(** AdamOptimizer.__call__ (153-171) *)
Record adam := { ad_m : vec; ad_v : vec; ad_t : nat }.
Definition adam_call (lr b1 b2 eps : R) (maximize : bool) (st : option adam) (params g : vec) : option adam * vec * vec :=
  let g' : vec := if maximize then g else fun i => g i * -1 in
  let s := match st with Some s => s | None => {| ad_m := fun _ => 0; ad_v := fun _ => 0; ad_t := 0 |} end in
  let t := S (ad_t s) in
  let m : vec := fun i => b1 * ad_m s i + (1 - b1) * g' i in
  let v : vec := fun i => b2 * ad_v s i + (1 - b2) * g' i ^ 2 in
  let m_hat : vec := fun i => m i / (1 - b1 ^ t) in
  let v_hat : vec := fun i => v i / (1 - b2 ^ t) in
  (Some {| ad_m := m; ad_v := v; ad_t := t |}, (fun i => params i + lr * m_hat i / (sqrt (v_hat i) + eps)), g').

(** A sequence of Adam calls with the learning rates [lrs] and fresh gradient arrays. *)
Fixpoint adam_run (b1 b2 eps : R) (maximize : bool) (st : option adam) (params : vec) (calls : list (R * vec)) : option adam * vec :=
  match calls with
  | [] => (st, params)
  | (lr, g) :: calls' => let '(st', p', _) := adam_call lr b1 b2 eps maximize st params g in adam_run b1 b2 eps maximize st' p' calls'
  end.

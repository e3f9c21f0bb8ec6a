(** The dual function of MORE (mushroom_rl/algorithms/policy_search/black_box_optimization/more.py); the closed-form update is in GaussModel. *)
From Coq Require Import Reals.
From Verif Require Import Common Mat GaussModel.
Local Open Scope R_scope.

(** MORE._dual_function (more.py 115-123): [Q] and [b] are covariance and mean of the old distribution, [Qi] and [F] the inverses taken
    in _get_F_f (134-139), [slog X] the second component of numpy.linalg.slogdet; the argument called kappa is the entropy bound. *)
Definition more_dual (n : nat) (slog : mat -> R) (Q Qi F : mat) (b r : vec) (r0 eps beta eta omg : R) : R :=
  let f := more_f n Qi b r eta in
  let term1 := dot n f (mv n F f) - eta * dot n b (mv n Qi b) - eta * slog (mscal (2 * PI) Q) + (eta + omg) * slog (mscal (2 * PI * (eta + omg)) F) + r0 in
  eta * eps - omg * beta + / 2 * term1.

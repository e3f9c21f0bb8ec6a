(** ConstrainedREPS: the whole update rule
    (algorithms/policy_search/black_box_optimization/constrained_reps.py) with the constrained
    weighted maximum-likelihood fits it calls (con_wmle in distributions/gaussian.py).

    The two dual functions, the new mean, the new standard deviations and the new covariance are those
    of file [GaussModel].  scipy.optimize.minimize is an oracle that receives the function to minimise
    and returns a point; the theorems assume that the point is a local minimum within the bounds that
    the code passes, whose lower end numpy.finfo(numpy.float32).eps is the number [lb].
    numpy.linalg.inv, slogdet (its second result) and cholesky are oracles on matrices; the contract
    they are assumed to satisfy is [linalg_ok]. *)
From Coq Require Import List Bool Arith Lia Reals Lra.
From Verif Require Import Common Mat GaussModel.
Import ListNotations.
Local Open Scope R_scope.

(** scipy.optimize.minimize with one bounded variable, and with two *)
Definition min1 := (R -> R) -> R.
Definition min2 := (R -> R -> R) -> R * R.

(** * GaussianDistribution.con_wmle (gaussian.py 58-71): the new mean; the covariance is not changed and
    the entropy bound, received in *args, is not used *)
Definition gd_con_wmle (opt : min1) (n N : nat) (mu : vec) (sigma S : mat) (ld : R) (theta : nat -> vec) (w : vec) (eps : R) : vec :=
  let eta := opt (gd_dual n N w theta mu sigma S ld eps) in
  con_mu N w theta mu eta.

(** * GaussianDiagonalDistribution.con_wmle (gaussian.py 190-203) *)
Definition diag_con_wmle (opt : min2) (n N : nat) (mu std : vec) (theta : nat -> vec) (w : vec) (eps kappa : R) : vec * vec :=
  let '(eta, omg) := opt (diag_dual n N w theta mu std eps kappa) in
  (con_mu N w theta mu eta, con_std N w theta mu std eta omg).

(** * GaussianCholeskyDistribution (gaussian.py 350-365, 432-457) *)
Record linalg := mkLA { la_inv : mat -> mat; la_slogdet : mat -> R; la_chol : mat -> mat }.

(** Lines 447-457 for an arbitrary new mean and covariance *)
Definition chol_loglik (A : linalg) (n N : nat) (w : vec) (theta : nat -> vec) (m : vec) (sigma_new : mat) : R :=
  sm N (fun i => w i * (- / 2 * dot n (vsub (theta i) m) (mv n (la_inv A sigma_new) (vsub (theta i) m))
                        - / 2 * la_slogdet A sigma_new - / 2 * (INR n * ln (2 * PI)))).
Definition chol_kl (A : linalg) (n : nat) (mu : vec) (sigma : mat) (m : vec) (sigma_new : mat) : R :=
  kl_constraint n mu m sigma (la_inv A sigma_new) (la_slogdet A sigma) (la_slogdet A sigma_new).
Definition chol_entropy (A : linalg) (n : nat) (sigma : mat) : R := entropy n (la_slogdet A sigma).
Definition chol_lagrangian (A : linalg) (n N : nat) (w : vec) (theta : nat -> vec) (mu : vec) (sigma : mat) (eps kappa eta omg : R)
    (m : vec) (sigma_new : mat) : R :=
  chol_loglik A n N w theta m sigma_new
  + eta * (eps - chol_kl A n mu sigma m sigma_new)
  + omg * (chol_entropy A n sigma_new - (chol_entropy A n sigma - kappa)).
(** _lagrangian_eta_omega (432-457) *)
Definition chol_dual (A : linalg) (n N : nat) (w : vec) (theta : nat -> vec) (mu : vec) (sigma : mat) (eps kappa eta omg : R) : R :=
  chol_lagrangian A n N w theta mu sigma eps kappa eta omg (con_mu N w theta mu eta) (chol_con_sigma N w theta mu sigma eta omg).
(** con_wmle (350-365): the distribution holds the mean and the Cholesky factor *)
Definition chol_con_wmle (A : linalg) (opt : min2) (n N : nat) (mu : vec) (L : mat) (theta : nat -> vec) (w : vec) (eps kappa : R) : vec * mat :=
  let sigma := mm n L (mt L) in
  let '(eta, omg) := opt (chol_dual A n N w theta mu sigma eps kappa) in
  (con_mu N w theta mu eta, la_chol A (chol_con_sigma N w theta mu sigma eta omg)).

(** * ConstrainedREPS._update (constrained_reps.py 37-51), for the three distributions.  The dual of
    the weights (53-64) and its derivative (66-79) are those of REPS; the derivative is an argument
    of the optimiser that does not change which points are minima. *)
Definition creps_weights (opt : min1) (N : nat) (J : vec) (eps : R) : vec :=
  let eta := opt (reps_dual N eps J) in reps_weights N eta J.
Definition creps_update_gd (o1 o2 : min1) (n N : nat) (mu : vec) (sigma S : mat) (ld : R) (J : vec) (theta : nat -> vec) (eps kappa : R) : vec :=
  gd_con_wmle o2 n N mu sigma S ld theta (creps_weights o1 N J eps) eps.
Definition creps_update_diag (o1 : min1) (o2 : min2) (n N : nat) (mu std : vec) (J : vec) (theta : nat -> vec) (eps kappa : R) : vec * vec :=
  diag_con_wmle o2 n N mu std theta (creps_weights o1 N J eps) eps kappa.
Definition creps_update_chol (A : linalg) (o1 : min1) (o2 : min2) (n N : nat) (mu : vec) (L : mat) (J : vec) (theta : nat -> vec) (eps kappa : R) : vec * mat :=
  chol_con_wmle A o2 n N mu L theta (creps_weights o1 N J eps) eps kappa.

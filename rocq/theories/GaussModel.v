(** Gaussian distributions and policies, and the black-box optimisers that use them:
    mushroom_rl/distributions/gaussian.py, mushroom_rl/policy/gaussian_policy.py,
    algorithms/policy_search/black_box_optimization/{rwr,reps,constrained_reps,more,pgpe}.py.

    Floats are reals.  Vectors and matrices are functions of their indexes (file [Mat]).
    numpy.linalg.inv, slogdet and cholesky, scipy.optimize.minimize and the log-determinant
    inside scipy.stats.multivariate_normal are not modelled: their results are arguments, and
    the theorems state as hypotheses what they need to know about them.  numpy.linalg.inv of a
    diagonal matrix is written as the diagonal matrix of the inverses, and its slogdet as the
    sum of the logarithms. *)
From Coq Require Import List Bool Arith Lia Reals Lra.
From Verif Require Import Common Mat.
Import ListNotations.
Local Open Scope R_scope.

(** numpy.max of the first [n] entries, [n] >= 1 *)
Fixpoint vmax (n : nat) (f : vec) : R :=
  match n with
  | O => f O
  | S O => f O
  | S n' => Rmax (vmax n' f) (f n')
  end.
Definition diagm (v : vec) : mat := fun i j => if Nat.eqb i j then v i else 0.

(** * Densities *)
(** scipy.stats.multivariate_normal.logpdf: [S] is the inverse of the covariance matrix and
    [ld] the logarithm of its determinant. *)
Definition logpdf (n : nat) (mu : vec) (S : mat) (ld : R) (x : vec) : R :=
  - / 2 * (INR n * ln (2 * PI) + ld + dot n (vsub x mu) (mv n S (vsub x mu))).
(** The same for the diagonal covariance of the variances [var] *)
Definition diag_logpdf (n : nat) (mu var : vec) (x : vec) : R :=
  logpdf n mu (diagm (fun i => / var i)) (sm n (fun i => ln (var i))) x.
(** _entropy (gaussian.py 104-107, 253-256, 427-430) *)
Definition entropy (n : nat) (ld : R) : R := / 2 * (ld + INR n * ln (2 * PI) + INR n).
(** _kl_constraint (gaussian.py 99-101, 249-250, 422-424) *)
Definition kl_constraint (n : nat) (mu mu_new : vec) (sigma S_new : mat) (ld ld_new : R) : R :=
  / 2 * (trace n (mm n S_new sigma) - INR n + ld_new - ld
         + dot n (vsub mu_new mu) (mv n S_new (vsub mu_new mu))).

(** * GaussianDistribution (gaussian.py 7-125) *)
(** diff_log (73-77) *)
Definition gd_diff_log (n : nat) (inv_sigma : mat) (mu theta : vec) : vec :=
  mv n inv_sigma (vsub theta mu).
(** mle with weights (56), the mean also of the other two classes (185, 342) *)
Definition mle_mu (N : nat) (w : vec) (theta : nat -> vec) : vec :=
  fun k => sm N (fun i => w i * theta i k) / sm N w.
(** mle without weights (54, 178, 335) *)
Definition mean_mu (N : nat) (theta : nat -> vec) : vec :=
  fun k => sm N (fun i => theta i k) / INR N.
(** _compute_mu_from_lagrangian (90-96), also lines 243 and 414 *)
Definition con_mu (N : nat) (w : vec) (theta : nat -> vec) (mu : vec) (eta : R) : vec :=
  fun k => (sm N (fun i => w i * theta i k) + eta * mu k) / (sm N w + eta).
(** The weighted log-likelihood plus the multiplier term, lines 120-125, for an arbitrary new
    mean; [sigma] is the fixed covariance and [S] its inverse. *)
Definition gd_lagrangian (n N : nat) (w : vec) (theta : nat -> vec) (mu : vec) (sigma S : mat) (ld eps eta : R) (mu_new : vec) : R :=
  sm N (fun i => w i * (- / 2 * dot n (vsub (theta i) mu_new) (mv n S (vsub (theta i) mu_new)) - / 2 * ld - / 2 * (INR n * ln (2 * PI))))
  + eta * (eps - kl_constraint n mu mu_new sigma S ld ld).
(** _lagrangian_eta (109-125) *)
Definition gd_dual (n N : nat) (w : vec) (theta : nat -> vec) (mu : vec) (sigma S : mat) (ld eps eta : R) : R :=
  gd_lagrangian n N w theta mu sigma S ld eps eta (con_mu N w theta mu eta).

(** * GaussianDiagonalDistribution (gaussian.py 128-282) *)
(** the normaliser Z (181-183, 338-340) *)
Definition mle_Z (N : nat) (w : vec) : R := sm N w - sm N (fun i => w i ^ 2) / sm N w.
(** mle with weights, standard deviation (187-188) *)
Definition diag_mle_std (N : nat) (w : vec) (theta : nat -> vec) : vec :=
  fun k => sqrt (sm N (fun i => w i * (theta i k - mle_mu N w theta k) ^ 2) / mle_Z N w).
(** mle without weights, numpy.std (179) *)
Definition diag_mean_std (N : nat) (theta : nat -> vec) : vec :=
  fun k => sqrt (sm N (fun i => (theta i k - mean_mu N theta k) ^ 2) / INR N).
(** parameters: rho = concatenation of mean and standard deviation (221-233) *)
Definition join (n : nat) (a b : vec) : vec := fun j => if j <? n then a j else b (j - n)%nat.
Definition lo (rho : vec) : vec := rho.
Definition hi (n : nat) (rho : vec) : vec := fun k => rho (n + k)%nat.
(** diff_log (205-219) *)
Definition diag_diff_log (n : nat) (mu std theta : vec) : vec :=
  let delta := vsub theta mu in
  join n (fun k => delta k / std k ^ 2) (fun k => delta k ^ 2 / std k ^ 3 - 1 / std k).
(** _compute_mu_sigma_from_lagrangian (239-246) *)
Definition con_std (N : nat) (w : vec) (theta : nat -> vec) (mu std : vec) (eta omg : R) : vec :=
  fun k => let m := con_mu N w theta mu eta k in
  sqrt ((sm N (fun i => w i * (theta i k - m) ^ 2) + eta * std k ^ 2 + eta * (m - mu k) ^ 2) / (sm N w + eta - omg)).
(** Lines 265-282 for arbitrary new parameters *)
Definition diag_loglik (n N : nat) (w : vec) (theta : nat -> vec) (m s : vec) : R :=
  let S_new := diagm (fun k => / s k ^ 2) in
  let ld_new := sm n (fun k => ln (s k ^ 2)) in
  sm N (fun i => w i * (- / 2 * dot n (vsub (theta i) m) (mv n S_new (vsub (theta i) m)) - / 2 * ld_new - INR n * ln (2 * PI) / 2)).
Definition diag_kl (n : nat) (mu std m s : vec) : R :=
  kl_constraint n mu m (diagm (fun k => std k ^ 2)) (diagm (fun k => / s k ^ 2)) (sm n (fun k => ln (std k ^ 2))) (sm n (fun k => ln (s k ^ 2))).
Definition diag_entropy (n : nat) (s : vec) : R := entropy n (sm n (fun k => ln (s k ^ 2))).
Definition diag_lagrangian (n N : nat) (w : vec) (theta : nat -> vec) (mu std : vec) (eps kappa eta omg : R) (m s : vec) : R :=
  diag_loglik n N w theta m s
  + eta * (eps - diag_kl n mu std m s)
  + omg * (diag_entropy n s - (diag_entropy n std - kappa)).
(** _lagrangian_eta_omega (258-282) *)
Definition diag_dual (n N : nat) (w : vec) (theta : nat -> vec) (mu std : vec) (eps kappa eta omg : R) : R :=
  diag_lagrangian n N w theta mu std eps kappa eta omg (con_mu N w theta mu eta) (con_std N w theta mu std eta omg).

(** * GaussianCholeskyDistribution (gaussian.py 285-453) *)
(** numpy.tril_indices(n): row by row *)
Definition tril (n : nat) : list (nat * nat) :=
  concat (map (fun i => map (fun j => (i, j)) (seq 0 (i + 1))) (seq 0 n)).
(** parameters_size (404-407) *)
Definition chol_size (n : nat) : nat := 2 * n + (n * n - n) / 2.
(** get_parameters (389-396) *)
Definition chol_get (n : nat) (mu : vec) (L : mat) : list R :=
  map mu (seq 0 n) ++ map (fun p => L (fst p) (snd p)) (tril n).
(** set_parameters (398-401): assignment at the index pairs, in order *)
Definition mset (X : mat) (p : nat * nat) (x : R) : mat :=
  fun i j => if andb (i =? fst p)%nat (j =? snd p)%nat then x else X i j.
Definition chol_set (n : nat) (L : mat) (rho : list R) : vec * mat :=
  ((fun k => nth k rho 0), fold_left (fun X px => mset X (fst px) (snd px)) (combine (tril n) (skipn n rho)) L).
(** diff_log (367-387); [IL] is numpy.linalg.inv(chol_sigma) *)
Definition chol_inv_sigma (n : nat) (IL : mat) : mat := mm n (mt IL) IL.
Definition chol_diff_log (n : nat) (IL : mat) (mu theta : vec) : list R :=
  let delta := vsub theta mu in
  let S : mat := fun a b => mv n IL delta a * mv n (mt (chol_inv_sigma n IL)) delta b in
  let g_cov : mat := fun a b => S a b - (if Nat.eqb a b then IL a a else 0) in
  map (mv n (chol_inv_sigma n IL) delta) (seq 0 n) ++ map (fun p => mt g_cov (fst p) (snd p)) (tril n).
(** mle with weights, covariance (344-346) *)
Definition chol_mle_sigma (N : nat) (w : vec) (theta : nat -> vec) : mat :=
  fun a b => sm N (fun i => (theta i a - mle_mu N w theta a) * w i * (theta i b - mle_mu N w theta b)) / mle_Z N w.
(** _compute_mu_sigma_from_lagrangian (409-419) *)
Definition chol_con_sigma (N : nat) (w : vec) (theta : nat -> vec) (mu : vec) (sigma : mat) (eta omg : R) : mat :=
  let m := con_mu N w theta mu eta in
  fun a b => (sm N (fun i => (theta i a - m a) * w i * (theta i b - m b)) + eta * sigma a b + eta * ((m a - mu a) * (m b - mu b)))
             / (sm N w + eta - omg).

(** * Gaussian policies (gaussian_policy.py); [J k o] is the entry of the Jacobian returned by
    the regressor: the derivative of output [o] with respect to weight [k] *)
(** GaussianPolicy.diff_log (77-89) *)
Definition gp_diff_log (n : nat) (J : mat) (inv_sigma : mat) (mu a : vec) : vec :=
  fun k => / 2 * sm n (fun o => sm n (fun q => J k q * (inv_sigma q o + inv_sigma o q)) * (a o - mu o)).
(** DiagonalGaussianPolicy.diff_log (148-164); [nw] weights of the mean *)
Definition dgp_diff_log (nw n : nat) (J : mat) (std mu a : vec) : vec :=
  join nw (gp_diff_log n J (diagm (fun i => 1 / std i ^ 2)) mu a)
          (fun k => - 1 / std k + (a k - mu k) ^ 2 / std k ^ 3).
(** StateStdGaussianPolicy.diff_log (229-250) *)
Definition ssgp_diff_log (nw n : nat) (Jmu Jstd : mat) (eps : R) (mu std a : vec) : vec :=
  let sigma k := std k ^ 2 + eps in
  let delta := vsub a mu in
  let w k := (delta k ^ 2 - sigma k) * std k / sigma k ^ 2 in
  join nw (fun k => sm n (fun o => sm n (fun q => Jmu k q * diagm (fun i => 1 / sigma i) q o) * delta o))
          (fun k => sm n (fun o => w o * Jstd k o)).
(** StateLogStdGaussianPolicy.diff_log (318-340) *)
Definition slsgp_diff_log (nw n : nat) (Jmu Jls : mat) (mu ls a : vec) : vec :=
  let sigma k := exp (ls k) ^ 2 in
  let delta := vsub a mu in
  let w k := delta k ^ 2 / sigma k in
  join nw (fun k => sm n (fun o => sm n (fun q => Jmu k q * diagm (fun i => 1 / sigma i) q o) * delta o))
          (fun k => sm n (fun o => w o * Jls k o) - sm n (fun o => Jls k o)).

(** * RWR._update (rwr.py 31-36) and REPS._update (reps.py 34-48): the weights handed to mle;
    [eta] is the result of the minimisation *)
Definition rwr_weights (N : nat) (beta : R) (J : vec) : vec := fun i => exp (beta * (J i - vmax N J)).
Definition reps_weights (N : nat) (eta : R) (J : vec) : vec := fun i => exp ((J i - vmax N J) / eta).
(** REPS._dual_function (reps.py 51-60) and _dual_function_diff (63-76); the same code is in
    constrained_reps.py 54-79 *)
Definition vmean (N : nat) (f : vec) : R := sm N f / INR N.
Definition reps_dual (N : nat) (eps : R) (J : vec) (eta : R) : R :=
  let r i := J i - vmax N J in
  let sum1 := vmean N (fun i => exp (r i / eta)) in
  eta * eps + eta * ln sum1 + vmax N J.
Definition reps_dual_diff (N : nat) (eps : R) (J : vec) (eta : R) : R :=
  let r i := J i - vmax N J in
  let sum1 := vmean N (fun i => exp (r i / eta)) in
  let sum2 := vmean N (fun i => exp (r i / eta) * r i) in
  eps + ln sum1 - sum2 / (eta * sum1).

(** * PGPE._update (pgpe.py 27-60), the gradient estimate, component [k]; [D i] is diff_log of
    sample [i].  A baseline 0/0 or x/0 is not finite and becomes 0. *)
Definition pgpe_baseline (N : nat) (D : nat -> vec) (J : vec) : vec :=
  fun k => let den := vmean N (fun i => D i k ^ 2) in
  if Req_EM_T den 0 then 0 else vmean N (fun i => J i * D i k ^ 2) / den.
Definition pgpe_grad (N : nat) (D : nat -> vec) (J : vec) : vec :=
  fun k => vmean N (fun i => D i k * (J i - pgpe_baseline N D J k)).

(** * MORE (more.py) *)
(** beta (62): the entropy bound *)
Definition more_beta (kappa h h0 : R) : R := kappa * (h - h0) + h0.
(** The quadratic polynomial of the features of degree two (PolynomialBasis.generate(2, n)):
    constant, linear terms, then the products x_i x_j with i <= j row by row. *)
Definition triu (n : nat) : list (nat * nat) :=
  concat (map (fun i => map (fun j => (i, j)) (seq i (n - i))) (seq 0 n)).
Definition quad_features (n : nat) (x : vec) : list R :=
  [1] ++ map x (seq 0 n) ++ map (fun p => x (fst p) * x (snd p)) (triu n).
(** _fit_quadratic_surrogate (94-97): the matrix filled from the fitted coefficients *)
Definition more_fill (n : nat) (beta : list R) : mat :=
  let X := fold_left (fun X px => mset X (fst px) (snd px)) (combine (triu n) (skipn (1 + n) beta)) (fun _ _ => 0) in
  fold_left (fun Y px => mset Y (snd (fst px), fst (fst px)) (snd px)) (combine (triu n) (map (fun p => X (fst p) (snd p)) (triu n))) X.
(** (99-102): negative definite version; [v], [ew] are the results of numpy.linalg.eig *)
Definition more_neg (n : nat) (v : mat) (ew : vec) : mat :=
  let w' i := if Rle_dec 0 (ew i) then - / 10 ^ 12 else ew i in
  let X := mm n (mm n v (diagm w')) (mt v) in
  fun i j => / 2 * (X i j + X j i).
(** _get_F_f and _closed_form_mu_t1_sig_t1 (125-139); [F] is the result of numpy.linalg.inv *)
Definition more_M (Qi Rm : mat) (eta : R) : mat := msub (mscal eta Qi) (mscal 2 Rm).
Definition more_f (n : nat) (Qi : mat) (b r : vec) (eta : R) : vec := vadd (mv n (mscal eta Qi) b) r.
Definition more_mu (n : nat) (F Qi : mat) (b r : vec) (eta : R) : vec := mv n F (more_f n Qi b r eta).
Definition more_sigma (F : mat) (eta omg : R) : mat := mscal (eta + omg) F.

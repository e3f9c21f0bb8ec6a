(** Torch policies (mushroom_rl/policy/torch_policy.py, recurrent_torch_policy.py, CategoricalWrapper of
    utils/torch.py) and the torch distributions with diagonal covariance (distributions/torch_distribution.py).
    Networks are oracles: their outputs are arbitrary vectors. Shapes are lists of sizes. *)
From Coq Require Import List Arith Lia Reals Bool.
From Verif Require Import Common Mat DistModel GaussModel.
Import ListNotations.
Local Open Scope R_scope.

(** torch MultivariateNormal(loc, scale_tril).log_prob with a diagonal factor of diagonal [d]:
    -1/2 (n log 2 pi + |L^-1 (x - loc)|^2) - sum log L_ii *)
Definition mvn_diag_logp (n : nat) (mu d x : vec) : R :=
  - / 2 * (INR n * ln (2 * PI) + sm n (fun i => ((x i - mu i) / d i) ^ 2)) - sm n (fun i => ln (d i)).

(** GaussianTorchPolicy.log_prob_t, get_mean_and_chol (torch_policy.py 201-215),
    DiagonalGaussianTorchDistribution.log_pdf (torch_distribution.py 29-32, 97-98) *)
Definition gauss_logp (n : nat) (mu ls x : vec) : R := mvn_diag_logp n mu (fun i => exp (ls i)) x.
(** TorchPolicy.__call__ (torch_policy.py 34-38) *)
Definition gauss_call (n : nat) (mu ls x : vec) : R := exp (gauss_logp n mu ls x).
(** GaussianTorchPolicy.entropy_t (torch_policy.py 204-206) *)
Definition gauss_entropy (n : nat) (ls : vec) : R := INR n / 2 * ln (2 * PI * exp 1) + sm n ls.

(** RecurrentGaussianTorchPolicy (recurrent_torch_policy.py 51-59): covariance diag(exp(2 clamp(log_sigma))) *)
Definition clamp_ls (lmin lmax : R) (ls : vec) : vec := fun i => Rmin (Rmax (ls i) lmin) lmax.
Definition rec_logp (n : nat) (lmin lmax : R) (mu ls x : vec) : R :=
  mvn_diag_logp n mu (fun i => sqrt (exp (2 * clamp_ls lmin lmax ls i))) x.
(** its entropy_t (recurrent_torch_policy.py 39-40): the unclamped parameters *)
Definition rec_entropy (n : nat) (ls : vec) : R := INR n / 2 * ln (2 * PI * exp 1) + sm n ls.

(** BoltzmannTorchPolicy.distribution_t (torch_policy.py 281-283): Categorical(logits * beta) *)
Definition boltz_p (n : nat) (beta : R) (logits : vec) : vec := softmax n (fun i => logits i * beta).
(** Categorical.log_prob and entropy: logits are normalised with logsumexp *)
Definition boltz_logp (n : nat) (beta : R) (logits : vec) (a : nat) : R :=
  logits a * beta - ln (sm n (fun i => exp (logits i * beta))).
Definition boltz_entropy (n : nat) (beta : R) (logits : vec) : R :=
  - sm n (fun i => boltz_logp n beta logits i * boltz_p n beta logits i).

(** * Weights and parameters *)
(** GaussianTorchPolicy.get_weights and set_weights (torch_policy.py 217-227): mean weights, then log_sigma *)
Definition gp_get (mu_w ls : list R) : list R := mu_w ++ ls.
Definition gp_set (da : nat) (w : list R) : list R * list R :=
  (firstn (length w - da) w, skipn (length w - da) w).
(** CholeskyGaussianTorchDistribution._get_mean_and_chol (torch_distribution.py 139-140): chol_sigma.tril(); get_parameters
    and set_parameters (113-129) are those of the numpy class: [chol_get], [chol_set] *)
Definition tch_chol (L : mat) : mat := fun i j => if Nat.leb j i then L i j else 0.
(** MultivariateNormal.log_prob for a lower triangular factor; [y] is the triangular solve of L y = x - loc *)
Definition mvn_tril_logp (n : nat) (L : mat) (y : vec) : R :=
  - / 2 * (INR n * ln (2 * PI) + sm n (fun i => y i ^ 2)) - sm n (fun i => ln (L i i)).

(** * Shapes *)
(** torch.atleast_2d *)
Definition atleast_2d (s : list nat) : list nat := match s with [] => [1%nat; 1%nat] | [n] => [1%nat; n] | _ => s end.
(** torch.squeeze(a, dim=0) *)
Definition squeeze0 (s : list nat) : list nat := match s with n :: s' => if Nat.eqb n 1 then s' else s | [] => [] end.
(** TorchPolicy.draw_action (torch_policy.py 40-45) for states of shape [s]; the network maps (n, d_s) to (n, d_a) *)
Definition gauss_draw_shape (da : nat) (s : list nat) : list nat := squeeze0 [hd 0%nat (atleast_2d s); da].
(** with draw_action_t of the Boltzmann policy (torch_policy.py 267-273): samples have shape (n,) *)
Definition boltz_draw_shape (s : list nat) : list nat :=
  let a := [hd 0%nat (atleast_2d s)] in
  squeeze0 (if Nat.ltb 1 (length a) then a else 1%nat :: a).
(** Distribution._validate_sample: the trailing dimensions must be the event shape (d,) *)
Definition valid_sample (d : nat) (s : list nat) : bool := match rev s with x :: _ => Nat.eqb x d | [] => false end.
(** RecurrentGaussianTorchPolicy.log_prob_t on [n] actions of dimension [d] (recurrent_torch_policy.py 36-37): the
    actions are squeezed; arguments are validated *)
Definition rec_log_prob_ok (n d : nat) : bool := valid_sample d (filter (fun k => negb (Nat.eqb k 1)) [n; d]).

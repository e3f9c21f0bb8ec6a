(** TRPO.fit as a whole, mushroom_rl/algorithms/actor_critic/deep_actor_critic/trpo.py 84-190:
    the routines of TrpoModel.v (conjugate gradient, step length) with the loss, the KL divergence
    and the Fisher matrix they are called with.

    The rows (preprocessed states, actions, normalised advantages, log-probabilities under the
    policy that acted) are computed as in PPO (trpo.py 85-98 and ppo.py 74-86 are the same lines),
    so that [fit_rows] of PpoModel.v is used.  Weights are flat vectors of [d] components.  The
    policy is given by its log-probability, its entropy and the KL divergence between two of its
    distributions; torch.autograd by the functionals [grad] and [hess].

    Simplifications: max_kl, damping, tolerance and numbers of iterations do not change during a
    fit (the entropy coefficient may); [_log_info] (trpo.py 192-211) only writes a message and is
    left out.  A step direction that contains NaN or inf makes the divergence NaN, so that no
    candidate is accepted; policies that check their arguments (BoltzmannTorchPolicy builds
    torch.distributions.Categorical with validation, GaussianTorchPolicy switches it off,
    torch_policy.py 218) raise instead: [nan_ok]. *)
From Coq Require Import List Arith Lia Reals Bool.
From Verif Require Import Common AdvModel PpoModel TrpoModel.
Import ListNotations.
Local Open Scope R_scope.

Section Trpo.
Context {X Ac Pp Cr : Type}.
Variable d : nat.                              (* number of weights *)
Variable logp : vec -> X -> Ac -> R.           (* policy.log_prob_t, one row *)
Variable ent : vec -> list X -> R.             (* policy.entropy_t *)
Variable kldiv : vec -> X -> vec -> X -> R.    (* kl_divergence(policy w0 at x0, policy w at x) *)
Variable grad : (vec -> R) -> vec -> vec.      (* loss.backward(); TorchUtils.get_gradient *)
Variable hess : (vec -> R) -> vec -> nat -> nat -> R.  (* autograd.grad twice *)
Variable call : Pp -> X -> X.
Variable pupd : Pp -> list X -> Pp.
Variable val : Cr -> X -> R.
Variable cfit : Cr -> list X -> list R -> Cr.
Variable nan_ok : bool.
Variables (gamma lam max_kl damping tol : R) (n_ls n_cg : nat).

(** _compute_loss, trpo.py 186-190; [c] is the entropy coefficient *)
Definition trpo_loss (c : R) (rows : list (@prow X Ac)) (w : vec) : R :=
  tmean (map (fun q => ratio logp w q * p_adv q) rows) + c * ent w (map p_x rows).

(** _compute_kl, trpo.py 182-184: the old distribution was computed by the old policy on
    [state_old] (line 97), the new one is that of the policy on the preprocessed states *)
Definition trpo_kl (w0 : vec) (olds news : list X) (w : vec) : R :=
  tmean (map (fun p => kldiv w0 (fst p) w (snd p)) (combine olds news)).

(** _fisher_vector_product, trpo.py 122-131: multiplication with this matrix.  The gradients are
    taken at the current weights of the policy, which are the old ones whenever it is called. *)
Definition fisher (klf : vec -> R) (w : vec) (i j : nat) : R := hess klf w i j + (if Nat.eqb i j then damping else 0).

(** Loop of _line_search, trpo.py 164-177, from its iteration [i] on; [loss i] is the loss of the
    i-th iteration (the entropy coefficient is read in each). [None]: no candidate accepted. *)
Fixpoint search (loss : nat -> vec -> R) (klf : vec -> R) (prev_loss : R) (w0 step : vec) (n i : nat) (stepsize : R) : option vec :=
  match n with
  | O => None
  | S n' =>
      let w : vec := fun j => w0 j + step j * stepsize in
      if Rle_dec (klf w) (max_kl * (3 / 2)) then
        if Rle_dec 0 (loss i w - prev_loss) then Some w else search loss klf prev_loss w0 step n' (S i) (stepsize * / 2)
      else search loss klf prev_loss w0 step n' (S i) (stepsize * / 2)
  end.

(** Gradient, direction and line search, trpo.py 100-114: the new weights *)
Definition trpo_policy (cs : nat -> R) (rows : list (@prow X Ac)) (olds : list X) (w0 : vec) : option vec :=
  let klf := trpo_kl w0 olds (map p_x rows) in
  let loss i := trpo_loss (cs i) rows in
  let g := grad (loss 0%nat) w0 in
  let M := fisher klf w0 in
  let keep := if nan_ok then Some w0 else None in
  match cg d M tol n_cg g with
  | None => keep
  | Some (s, _) =>
      if Rlt_dec 0 (dot d s (mulv d M s)) then
        match search loss klf (loss 0%nat w0) w0 (full_step d M max_kl s) n_ls 1 1 with
        | Some w => Some w
        | None => Some w0
        end
      else keep
  end.

(** fit, trpo.py 84-120; [cs] are the values read from the entropy coefficient *)
Definition trpo_fit (cs : nat -> R) (ag : @agent vec Pp Cr) (ds : list (@trans X Ac)) : option agent :=
  r <- fit_rows logp call pupd val gamma lam ag ds ;;
  let '(ps', vt, rows) := r in
  w <- trpo_policy cs rows (map (fun t => prep_all call (a_ps ag) (t_s t)) ds) (a_w ag) ;;
  Some {| a_w := w; a_ps := ps'; a_cr := cfit (a_cr ag) (map (fun t => prep_all call ps' (t_s t)) ds) vt |}.

(** fit number [f], as used by CorePpoModel.v and VecPpoModel.v *)
Definition trpo_upd (cs : nat -> nat -> R) (f : nat) (ag : @agent vec Pp Cr) (ds : list (@trans X Ac)) : option agent :=
  trpo_fit (cs f) ag ds.
End Trpo.

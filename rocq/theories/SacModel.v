(** Off-policy deep actor-critic agents (mushroom_rl/algorithms/actor_critic/deep_actor_critic:
    deep_actor_critic.py, sac.py, ddpg.py, td3.py). Networks, their optimizers and the sampled
    batches are oracles; weights are vectors of reals where soft updates act on them. *)
From Coq Require Import List Arith Lia Reals Bool.
From Verif Require Import Common Mat DqnModel.
Import ListNotations.
Local Open Scope R_scope.

(** * SACPolicy *)
(** torch.distributions.Normal.log_prob *)
Definition norm_logp (mu sd x : R) : R := - ((x - mu) ^ 2) / (2 * sd ^ 2) - ln sd - ln (2 * PI) / 2.
(** the standard deviation (sac.py 119-121): exp(clamp(log_sigma, log_std_min, log_std_max)) *)
Definition sac_std (lmin lmax ls : R) : R := exp (Rmin (Rmax ls lmin) lmax).
(** _eps_log_prob (sac.py 50) *)
Definition eps_lp : R := / 10 ^ 6.
(** the log-probability of compute_action_and_log_prob_t (sac.py 93-101), [n] action components *)
Definition sac_log_prob (n : nat) (mu sd raw : vec) : R :=
  sm n (fun i => norm_logp (mu i) (sd i) (raw i)) - sm n (fun i => ln (1 - tanh (raw i) ^ 2 + eps_lp)).

(** * SAC *)
Definition lmean (l : list R) : R := rsum l / INR (length l).
(** _update_alpha (sac.py 290-294), as a function of log_alpha *)
Definition alpha_loss (log_form : bool) (target_entropy : R) (lps : list R) (la : R) : R :=
  if log_form then - lmean (map (fun lp => la * (lp + target_entropy)) lps)
  else - lmean (map (fun lp => exp la * (lp + target_entropy)) lps).
(** _loss (sac.py 281-287) of rows (log_prob, q_0, q_1) *)
Definition sac_loss (la : R) (rows : list (R * R * R)) : R :=
  lmean (map (fun x => exp la * fst (fst x) - Rmin (snd (fst x)) (snd x)) rows).

(** DeepAC._update_target (deep_actor_critic.py 91-95): the coefficient parameter is called once per
    model; [tau k] is its value at call k *)
Fixpoint update_target (tau : nat -> R) (k : nat) (online target : list (list R)) : list (list R) :=
  match online, target with
  | o :: online', t :: target' => soft_update (tau k) o t :: update_target tau (S k) online' target'
  | _, _ => target
  end.

Section Sac.
Context {P Bt : Type}.
Variable log_probs : P -> Bt -> list R.                  (* of the freshly sampled actions *)
Variable actor_step : P -> R -> list (list R) -> Bt -> P. (* _loss and _optimize_actor_parameters: log_alpha and critics *)
Variable alpha_step : R -> (R -> R) -> R.                (* zero_grad, backward, step *)
Variable critic_fit : list (list R) -> (P * R * list (list R)) -> Bt -> list (list R).
   (* fits the critics to the targets of the given policy, log_alpha and target critics *)
Variables (warmup : nat) (log_form : bool) (target_entropy : R) (tau : nat -> R).

Record sac := mkS { s_pi : P; s_la : R; s_q : list (list R); s_tq : list (list R); s_k : nat }.

(** SAC.fit (sac.py 263-279): [init] and [size] are the state of the replay memory after the
    dataset was added, [b] the batch drawn *)
Definition sac_fit (st : sac) (x : bool * nat * Bt) : sac :=
  let '(init, size, b) := x in
  if init then
    let pl := if Nat.ltb warmup size
              then (actor_step (s_pi st) (s_la st) (s_q st) b,
                    alpha_step (s_la st) (alpha_loss log_form target_entropy (log_probs (s_pi st) b)))
              else (s_pi st, s_la st) in
    let q' := critic_fit (s_q st) (fst pl, snd pl, s_tq st) b in
    mkS (fst pl) (snd pl) q' (update_target tau (s_k st) q' (s_tq st)) (s_k st + length (s_tq st))
  else st.
Definition sac_run (st : sac) (xs : list (bool * nat * Bt)) : sac := fold_left sac_fit xs st.
End Sac.

(** * DDPG and TD3 *)
Section Ddpg.
Context {A Bt : Type}.
Variable actor_step : A -> list (list R) -> Bt -> A.   (* _loss and _optimize_actor_parameters *)
Variable critic_fit : list (list R) -> (A * list (list R)) -> Bt -> list (list R).
   (* fits the critics to the targets of the given target actor and target critics *)
Variable blend : nat -> A -> A -> A.                   (* soft update of the target actor, call k of tau *)
Variables (delay : nat) (tau : nat -> R).

Record ddpg := mkD { d_pi : A; d_tpi : A; d_q : list (list R); d_tq : list (list R); d_k : nat; d_count : nat }.

(** DDPG.fit (ddpg.py 91-110) with a constant policy_delay *)
Definition ddpg_fit (st : ddpg) (x : bool * Bt) : ddpg :=
  let '(init, b) := x in
  if init then
    let q' := critic_fit (d_q st) (d_tpi st, d_tq st) b in
    let pi' := if Nat.eqb (d_count st mod delay) 0 then actor_step (d_pi st) q' b else d_pi st in
    mkD pi' (blend (d_k st + length (d_tq st)) pi' (d_tpi st)) q' (update_target tau (d_k st) q' (d_tq st))
        (d_k st + length (d_tq st) + 1) (S (d_count st))
  else st.
Definition ddpg_run (st : ddpg) (xs : list (bool * Bt)) : ddpg := fold_left ddpg_fit xs st.
End Ddpg.

(** Model of the clipped policy optimisation agents: PPO
    (/repo/mushroom_rl/algorithms/actor_critic/deep_actor_critic/ppo.py), A2C (a2c.py),
    ePPO (algorithms/policy_search/black_box_optimization/eppo.py) and of the agent
    preprocessors (core/agent.py).

    Weights, states, actions, preprocessors and critics are of any type. The policy is
    given by its log-probability, the optimizer step is any function of the weights and
    of the loss (a loss is a function of the weights, torch differentiates it). Tensors
    are lists of rows; a torch standard deviation of fewer than two numbers is NaN
    (None). *)
From Coq Require Import List Arith Lia Reals Bool.
From Verif Require Import Common AdvModel UtilModel.
Import ListNotations.
Open Scope R_scope.

(** torch.mean *)
Definition tmean (l : list R) : R := rsum l / INR (length l).

(** torch.std: unbiased; NaN for fewer than two entries *)
Definition tstd (l : list R) : option R :=
  if Nat.ltb (length l) 2 then None
  else Some (sqrt (rsum (map (fun x => (x - tmean l) * (x - tmean l)) l) / (INR (length l) - 1))).

(** adv = (adv - mean) / (std + 1e-8) (ppo.py 79, trpo.py 90, eppo.py 43-47) *)
Definition normalise (l : list R) : option (list R) :=
  match tstd l with
  | None => None
  | Some s => Some (map (fun x => (x - tmean l) / (s + / 10 ^ 8)) l)
  end.

(** torch.clamp(x, lo, hi) *)
Definition clamp (x lo hi : R) : R := Rmin (Rmax x lo) hi.

(** one entry of torch.min(prob_ratio * adv, clipped_ratio * adv) (ppo.py 103-104) *)
Definition surr (eps adv r : R) : R := Rmin (r * adv) (clamp r (1 - eps) (1 + eps) * adv).

Section Prep.
Context {X Pp : Type} (call : Pp -> X -> X) (pupd : Pp -> list X -> Pp).

(** Agent._agent_preprocess (agent.py 189-202), on one state *)
Definition prep_all (ps : list Pp) (x : X) : X := fold_left (fun s p => call p s) ps x.

(** Agent._update_agent_preprocessor (agent.py 204-215): each preprocessor is updated
    with the batch processed by the (already updated) previous ones *)
Fixpoint upd_all (ps : list Pp) (xs : list X) : list Pp :=
  match ps with
  | [] => []
  | p :: rest =>
      let p' := pupd p xs in
      p' :: match rest with [] => [] | _ => upd_all rest (map (call p') xs) end
  end.
End Prep.

(** minibatch_generator on rows (minibatches.py 19-43) *)
Definition row_batches {A} (d : A) (bs : nat) (perm : list nat) (rows : list A) : list (list A) :=
  map (fun b => nth 0 b []) (minibatches d bs perm [rows]).

Section Ppo.
Context {W X Ac Pp Cr : Type}.
Variable logp : W -> X -> Ac -> R.        (* TorchPolicy.log_prob_t, one row *)
Variable ent : W -> list X -> R.          (* TorchPolicy.entropy_t *)
Variable opt : W -> (W -> R) -> W.        (* zero_grad, backward, optimizer.step *)

(** a row of the minibatch: state, action, advantage, old log-probability *)
Record prow := mkP { p_x : X; p_a : Ac; p_adv : R; p_old : R }.

(** prob_ratio (ppo.py 102) *)
Definition ratio (w : W) (q : prow) : R := exp (logp w (p_x q) (p_a q) - p_old q).

(** the loss of one minibatch (ppo.py 102-105) *)
Definition ppo_loss (eps c : R) (b : list prow) (w : W) : R :=
  - tmean (map (fun q => surr eps (p_adv q) (ratio w q)) b) - c * ent w (map p_x b).

(** the minibatches of all epochs in order (ppo.py 97-99); [perms] are the shuffles *)
Definition epoch_batches (d : prow) (bs : nat) (perms : list (list nat)) (rows : list prow) : list (list prow) :=
  flat_map (fun perm => row_batches d bs perm rows) perms.

(** _update_policy (ppo.py 96-107): [eps k] and [cs k] are the values of the two
    parameters at the k-th minibatch (both are read once per minibatch) *)
Definition update_policy (eps cs : nat -> R) (batches : list (list prow)) (w : W) : W :=
  fold_left (fun w kb => opt w (ppo_loss (eps (fst kb)) (cs (fst kb)) (snd kb)))
            (combine (seq 0 (length batches)) batches) w.

(** fit (ppo.py 73-94) *)
Variable call : Pp -> X -> X.
Variable pupd : Pp -> list X -> Pp.
Variable val : Cr -> X -> R.
Variable cfit : Cr -> list X -> list R -> Cr.

Record trans := { t_s : X; t_a : Ac; t_r : R; t_ns : X; t_abs : bool; t_last : bool }.
Record agent := { a_w : W; a_ps : list Pp; a_cr : Cr }.

(** what compute_gae reads for each row *)
Definition gae_rows (cr : Cr) (ps : list Pp) (ds : list trans) : list AdvModel.step :=
  map (fun t => {| g_v := val cr (prep_all call ps (t_s t)); g_vn := val cr (prep_all call ps (t_ns t));
                   g_r := t_r t; g_abs := t_abs t; g_last := t_last t |}) ds.

(** _preprocess_state (deep_actor_critic.py 6-20) and the rows handed to _update_policy
    (ppo.py 74-86): None when the advantages are NaN *)
Definition fit_rows (gamma lam : R) (ag : agent) (ds : list trans) : option (list Pp * list R * list prow) :=
  let ps' := upd_all call pupd (a_ps ag) (map t_s ds) in
  let '(vt, adv) := compute_gae gamma lam (gae_rows (a_cr ag) ps' ds) in
  adv' <- normalise adv ;;
  Some (ps', vt,
        map (fun p => mkP (prep_all call ps' (t_s (fst p))) (t_a (fst p)) (snd p)
                          (logp (a_w ag) (prep_all call (a_ps ag) (t_s (fst p))) (t_a (fst p))))
            (combine ds adv')).

Definition ppo_fit (gamma lam : R) (eps cs : nat -> R) (bs : nat) (d : prow) (perms : list (list nat))
    (ag : agent) (ds : list trans) : option agent :=
  r <- fit_rows gamma lam ag ds ;;
  let '(ps', vt, rows) := r in
  Some {| a_w := update_policy eps cs (epoch_batches d bs perms rows) (a_w ag); a_ps := ps';
          a_cr := cfit (a_cr ag) (map (fun t => prep_all call ps' (t_s t)) ds) vt |}.

(** Agent.draw_action (agent.py 94-98): the state the policy sees *)
Definition acting_state (ag : agent) (x : X) : X := prep_all call (a_ps ag) x.

(** A2C._loss (a2c.py 71-75) and A2C.fit (a2c.py 59-69): the states of the dataset go
    to the critic and to the policy as they are stored *)
Definition a2c_loss (c : R) (b : list (X * Ac * R)) (w : W) : R :=
  - tmean (map (fun q => logp w (fst (fst q)) (snd (fst q)) * snd q) b) + c * - ent w (map (fun q => fst (fst q)) b).

Definition a2c_batch (gamma : R) (ag : agent) (ds : list trans) : option (list (X * Ac * R) * list R) :=
  r <- compute_advantage_mc gamma
         (map (fun t => {| g_v := val (a_cr ag) (t_s t); g_vn := val (a_cr ag) (t_ns t);
                           g_r := t_r t; g_abs := t_abs t; g_last := t_last t |}) ds) ;;
  Some (map (fun p => (t_s (fst p), t_a (fst p), snd p)) (combine ds (snd r)), fst r).

Definition a2c_fit (gamma c : R) (ag : agent) (ds : list trans) : option agent :=
  r <- a2c_batch gamma ag ds ;;
  Some {| a_w := opt (a_w ag) (a2c_loss c (fst r)); a_ps := a_ps ag;
          a_cr := cfit (a_cr ag) (map t_s ds) (snd r) |}.
End Ppo.

(** ** ePPO (eppo.py 42-73): rows are parameter vectors with their return and context *)
Section Eppo.
Context {W Th Cx : Type}.
Variable logpdf : W -> Th -> option Cx -> R.   (* Distribution.log_pdf(theta, context) *)
Variable ent : W -> list (option Cx) -> R.
Variable opt : W -> (W -> R) -> W.
Variable contextual : bool.

(** _unpack (eppo.py 66-73): without a contextual distribution the context is None *)
Definition row_ctx (c : option Cx) : option Cx := if contextual then c else None.

(** full_batch (eppo.py 49-54): the old log-density is computed without a context *)
Definition eppo_rows (w : W) (theta : list Th) (ctx : list (option Cx)) (J : list R) : option (list (@prow (option Cx) Th)) :=
  J' <- normalise J ;;
  Some (map (fun p => mkP (row_ctx (snd (fst p))) (fst (fst p)) (snd p) (logpdf w (fst (fst p)) None))
            (combine (combine theta ctx) J')).

(** _update (eppo.py 42-64) *)
Definition eppo_update (eps cs : nat -> R) (bs : nat) (d : @prow (option Cx) Th) (perms : list (list nat))
    (theta : list Th) (ctx : list (option Cx)) (J : list R) (w : W) : option W :=
  rows <- eppo_rows w theta ctx J ;;
  Some (update_policy (fun w c t => logpdf w t c) ent opt eps cs (epoch_batches d bs perms rows) w).
End Eppo.

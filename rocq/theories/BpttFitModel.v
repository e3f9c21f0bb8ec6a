(** PPO_BPTT.fit (mushroom_rl/algorithms/actor_critic/deep_actor_critic/ppo_bptt.py), the
    recurrent policy it trains (policy/recurrent_torch_policy.py) and the two under [Core].

    The recurrent networks are given by the step of their hidden state and by the layers behind
    it, of any type, as in the networks of examples/gym_recurrent_ppo.py 64-94 and 131-158:
    the sequence is padded, the network is told the length, the recurrent layer runs over the
    first [length] entries (pack_padded_sequence) from the hidden state it is given, and the
    last layers see the last of these entries and the final hidden state. The critic is any
    function of those entries and of the hidden state it is given. Actions have at least two
    components (for one component log_prob_t breaks, see TpolProps.v).

    Simplifications: as in PpoModel.v and CorePpoModel.v. *)
From Coq Require Import List Arith Lia Bool Reals.
From Verif Require Import Common BpttModel PpoModel CorePpoModel.
From Verif Require AdvModel CoreModel.
Import ListNotations.

Section Fit.
Context {W X Ac H M Pp Cr : Type}.
Variable cell : W -> X -> H -> H.         (* recurrent layer, one entry *)
Variable head : W -> X -> H -> M.         (* layers behind it: mean and covariance of the action *)
Variable mlogp : M -> Ac -> R.            (* MultivariateNormal.log_prob *)
Variable ent : W -> R.                    (* entropy_t, recurrent_torch_policy.py 39-40: ignores the state *)
Variable opt : W -> (W -> R) -> W.
Variable call : Pp -> X -> X.
Variable pupd : Pp -> list X -> Pp.
Variable val : Cr -> list X -> H -> R.    (* critic on the entries it reads *)
Variable cfit : Cr -> list (list X * H) -> list R -> Cr.
Variable zero : X.                        (* padding, ppo_bptt.py 130-141 *)
Variable L : nat.                         (* truncation_length *)

(** get_mean_and_covariance_and_policy_state (recurrent_torch_policy.py 55-62) *)
Definition net (w : W) (sq : list X) (h : H) (len : nat) : M * H :=
  let used := firstn len sq in
  let h' := fold_left (fun h x => cell w x h) used h in
  (head w (last used zero) h', h').

(** a row of the transformed dataset: padded states, policy state, length *)
Notation srow := (list X * H * nat)%type.

(** log_prob_t (recurrent_torch_policy.py 36-37), one row *)
Definition seq_logp (w : W) (q : srow) (a : Ac) : R := mlogp (fst (net w (fst (fst q)) (snd (fst q)) (snd q))) a.

(** what the critic reads of a row *)
Definition seen (q : srow) : list X * H := (firstn (snd q) (fst (fst q)), snd (fst q)).

(** a transition with the two policy states stored with it *)
Record btrans := mkB { b_t : @trans X Ac; b_h : H; b_hn : H }.

(** the loop of _transform_to_sequences (ppo_bptt.py 108-150) for one array *)
Fixpoint rows_to (n : nat) (last_ absorbing_ : list bool) (xs : list X) (ps : list H) : option (list srow) :=
  match n with
  | 0 => Some []
  | S m => l <- rows_to m last_ absorbing_ xs ps ;; q <- row L last_ absorbing_ xs ps zero m ;; Some (l ++ [q])
  end.

Definition sequences (ds : list btrans) (xs : list X) (ps : list H) : option (list srow) :=
  rows_to (length ds) (map (fun b => t_last (b_t b)) ds) (map (fun b => t_abs (b_t b)) ds) xs ps.

(** what compute_gae (ppo_bptt.py 181-225) reads for each row; its loop is that of
    value_functions.py (AdvModel.v) *)
Definition gae_row (cr : Cr) (p : btrans * (srow * srow)) : AdvModel.step :=
  let '(b, (s, sn)) := p in
  {| AdvModel.g_v := val cr (fst (seen s)) (snd (seen s)); AdvModel.g_vn := val cr (fst (seen sn)) (snd (seen sn));
     AdvModel.g_r := t_r (b_t b); AdvModel.g_abs := t_abs (b_t b); AdvModel.g_last := t_last (b_t b) |}.

(** fit up to the two updates (ppo_bptt.py 74-91): preprocessors, rows given to the critic,
    targets, rows given to _update_policy *)
Definition bptt_rows (gamma lam : R) (ag : @agent W Pp Cr) (ds : list btrans)
    : option (list Pp * list srow * list R * list (@prow srow Ac)) :=
  let ss := map (fun b => t_s (b_t b)) ds in
  let ps' := upd_all call pupd (a_ps ag) ss in
  so <- sequences ds (map (prep_all call (a_ps ag)) ss) (map b_h ds) ;;
  s <- sequences ds (map (prep_all call ps') ss) (map b_h ds) ;;
  sn <- sequences ds (map (fun b => prep_all call ps' (t_ns (b_t b))) ds) (map b_hn ds) ;;
  let '(vt, adv) := AdvModel.compute_gae gamma lam (map (gae_row (a_cr ag)) (combine ds (combine s sn))) in
  adv' <- normalise adv ;;
  Some (ps', s, vt,
        map (fun p => let '((b, a), (q, qo)) := p in mkP q (t_a (b_t b)) a (seq_logp (a_w ag) qo (t_a (b_t b))))
            (combine (combine ds adv') (combine s so))).

(** fit (ppo_bptt.py 73-95) and _update_policy (152-166) *)
Definition bptt_fit (gamma lam : R) (eps cs : nat -> R) (bs : nat) (d : @prow srow Ac) (perms : list (list nat))
    (ag : @agent W Pp Cr) (ds : list btrans) : option (@agent W Pp Cr) :=
  r <- bptt_rows gamma lam ag ds ;;
  let '(ps', s, vt, rows) := r in
  Some {| a_w := update_policy seq_logp (fun w _ => ent w) opt eps cs (epoch_batches d bs perms rows) (a_w ag);
          a_ps := ps'; a_cr := cfit (a_cr ag) (map seen s) vt |}.

(** ** Under Core *)
Section World.
Context {En : Type}.
Variable pol : M -> nat -> Ac.            (* dist.sample, with the number of draws made so far *)
Variable h0 : H.                          (* reset: zeros, recurrent_torch_policy.py 17-18 *)
Variable upd : nat -> @agent W Pp Cr -> list btrans -> option (@agent W Pp Cr).
Variable env_reset : En -> option X -> En * X.
Variable env_step : En -> Ac -> En * X * R * bool.
Variable hor : option nat.
Notation cagent := (@cagent W Pp Cr).

(** Agent.draw_action (agent.py 80-104) with draw_action of the recurrent policy
    (recurrent_torch_policy.py 20-35): a sequence of one entry *)
Definition b_draw (a : cagent) (o : X) (h : H) : cagent * Ac * H :=
  let '(m, h') := net (a_w (c_ag a)) [acting_state call (c_ag a) o] h 1 in
  (mkCA (c_ag a) (c_draws a + 1) (c_fits a) (c_ok a), pol m (c_draws a), h').

(** dataset.parse and parse_policy_state (ppo_bptt.py 74-77), one row *)
Definition b_read (x : CoreModel.sample X Ac R H) : btrans :=
  mkB {| t_s := CoreModel.state x; t_a := CoreModel.action x; t_r := CoreModel.reward x; t_ns := CoreModel.next_state x;
         t_abs := CoreModel.absorbing x; t_last := CoreModel.last x |} (CoreModel.pstate x) (CoreModel.pnext x).

Definition b_fit (a : cagent) (d : CoreModel.dataset X Ac R H unit) : cagent :=
  match upd (c_fits a) (c_ag a) (map b_read (CoreModel.rows d)) with
  | Some g => mkCA g (c_draws a) (c_fits a + 1) (c_ok a)
  | None => mkCA (c_ag a) (c_draws a) (c_fits a + 1) false
  end.

Definition b_world : CoreModel.world En cagent X Ac R H unit :=
  CoreModel.mkW En cagent X Ac R H unit env_reset env_step
    (fun a _ => (a, h0, tt)) b_draw (fun a o => (a, o)) (fun a => a) false hor b_fit.
End World.

(** fit number [f]; [perms f n] are the shuffles of its epochs for [n] rows *)
Definition bptt_upd (gamma lam : R) (eps cs : nat -> nat -> R) (bs : nat) (d : @prow srow Ac) (perms : nat -> nat -> list (list nat))
    (f : nat) (ag : @agent W Pp Cr) (ds : list btrans) : option (@agent W Pp Cr) :=
  bptt_fit gamma lam (eps f) (cs f) bs d (perms f (length ds)) ag ds.
End Fit.

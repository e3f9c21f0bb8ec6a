(** Model of the classic actor-critic agents (/repo/mushroom_rl/algorithms/actor_critic/
    classic_actor_critic/stochastic_ac.py and copdac_q.py).

    Weight vectors are functions of the component. The value function is the linear
    approximator the constructors build (one output, no bias). Learning rates and the
    trace decay are schedules: the k-th call of the parameter returns [f k] (and may
    depend on the state and action where the code passes them). *)
From Coq Require Import List Arith Lia Reals Bool.
From Verif Require Import Common.
Import ListNotations.
Open Scope R_scope.

Definition vec := nat -> R.
Definition dotn (n : nat) (a b : vec) : R := rsum (map (fun j => a j * b j) (seq 0 n)).

Section Sac.
Context {X Ac : Type}.

(** one transition of the dataset: s, a, r, ss, absorbing (stochastic_ac.py 63);
    [last] is in the dataset but not read *)
Record tr := mkT { x_s : X; x_a : Ac; x_r : R; x_n : X; x_abs : bool; x_last : bool }.

Variable nv : nat.                       (* size of the value-function features *)
Variable psi : X -> vec.                 (* value_function_features, or the state itself *)
Variable score : vec -> X -> Ac -> vec.  (* policy.diff_log with the given policy weights *)
Variable gamma : R.
Variables al_v al_t al_r : nat -> X -> Ac -> R.
Variable lam : nat -> R.

(** the agent: value weights, policy weights, the two traces, the average reward, the
    number of steps processed and the number of calls of the trace parameter *)
Record sac := mkS { s_v : vec; s_t : vec; s_ev : vec; s_et : vec; s_rb : R; s_k : nat; s_l : nat }.

Definition vzero : vec := fun _ => 0.

(** episode_start (stochastic_ac.py 55-59) *)
Definition sac_start (a : sac) : sac :=
  mkS (s_v a) (s_t a) vzero vzero (s_rb a) (s_k a) (s_l a).

(** v_next (stochastic_ac.py 68) *)
Definition v_next (a : sac) (t : tr) : R := if x_abs t then 0 else dotn nv (psi (x_n t)) (s_v a).

(** the loop body of fit after the TD error and the traces (stochastic_ac.py 72-80) *)
Definition sac_apply (a : sac) (t : tr) (delta : R) (ev et : vec) (rb : R) : sac :=
  mkS (fun j => s_v a j + al_v (s_k a) (x_s t) (x_a t) * delta * ev j)
      (fun j => s_t a j + al_t (s_k a) (x_s t) (x_a t) * delta * et j)
      ev et rb (S (s_k a)) (S (S (s_l a))).

(** StochasticAC._compute_td_n_traces (stochastic_ac.py 82-91): the trace parameter is
    called twice *)
Definition sac_delta (a : sac) (t : tr) : R :=
  x_r t + gamma * v_next a t - dotn nv (psi (x_s t)) (s_v a).
Definition sac_step (a : sac) (t : tr) : sac :=
  sac_apply a t (sac_delta a t)
    (fun j => gamma * lam (s_l a) * s_ev a j + psi (x_s t) j)
    (fun j => gamma * lam (S (s_l a)) * s_et a j + score (s_t a) (x_s t) (x_a t) j)
    (s_rb a).

(** StochasticAC_AVG._compute_td_n_traces (stochastic_ac.py 117-126) *)
Definition avg_delta (a : sac) (t : tr) : R :=
  x_r t - s_rb a + v_next a t - dotn nv (psi (x_s t)) (s_v a).
Definition avg_step (a : sac) (t : tr) : sac :=
  sac_apply a t (avg_delta a t)
    (fun j => lam (s_l a) * s_ev a j + psi (x_s t) j)
    (fun j => lam (S (s_l a)) * s_et a j + score (s_t a) (x_s t) (x_a t) j)
    (s_rb a + al_r (s_k a) (x_s t) (x_a t) * avg_delta a t).

(** fit (stochastic_ac.py 61-80) *)
Definition sac_fit (a : sac) (ds : list tr) : sac := fold_left sac_step ds a.
Definition avg_fit (a : sac) (ds : list tr) : sac := fold_left avg_step ds a.
End Sac.

(** ** COPDAC_Q (copdac_q.py). Arrays carry their shape; a product of arrays whose
    shapes do not match raises (None). *)
Record m2 := mkM { m_r : nat; m_c : nat; m_f : nat -> nat -> R }.

(** vector . matrix, vector . matrix.T *)
Definition vdot (n : nat) (v : vec) (G : m2) : option (nat * vec) :=
  if Nat.eqb n (m_r G) then Some (m_c G, fun j => rsum (map (fun i => v i * m_f G i j) (seq 0 n))) else None.
Definition vdotT (n : nat) (v : vec) (G : m2) : option (nat * vec) :=
  if Nat.eqb n (m_c G) then Some (m_r G, fun i => rsum (map (fun j => v j * m_f G i j) (seq 0 n))) else None.

Section Copdac.
Context {X : Type}.
Variable na nw nv : nat.                 (* actions, policy weights, value features *)
Variable mu : vec -> X -> vec.           (* the deterministic policy with given weights *)
Variable dmu : vec -> X -> m2.           (* np.atleast_2d(self._mu.diff(state)) *)
Variable psi : X -> vec.
Variable gamma : R.
Variables al_t al_o al_v : nat -> X -> vec -> R.

Record cop := mkC { c_t : vec; c_o : vec; c_v : vec; c_k : nat }.

(** _nu (copdac_q.py 93-97) *)
Definition nu (th : vec) (s : X) (a : vec) : option vec :=
  match vdot na (fun i => a i - mu th s i) (dmu th s) with
  | Some (n, v) => if Nat.eqb n nw then Some v else None   (* then fed to the (nw,) approximator *)
  | None => None
  end.

(** _Q (copdac_q.py 87-91) *)
Definition copQ (c : cop) (s : X) (a : vec) : option R :=
  n <- nu (c_t c) s a ;; Some (dotn nv (psi s) (c_v c) + dotn nw n (c_o c)).

(** one iteration of fit (copdac_q.py 58-85): everything is computed from the weights
    before the update *)
Definition cop_step (c : cop) (t : @tr X vec) : option cop :=
  let s := x_s t in let a := x_a t in
  let q_next := if x_abs t then 0 else dotn nv (psi (x_n t)) (c_v c) in
  let G := dmu (c_t c) s in
  q <- copQ c s a ;;
  let delta := x_r t + gamma * q_next - q in
  u <- vdotT nw (c_o c) G ;;
  dt <- vdot (fst u) (snd u) G ;;
  n <- nu (c_t c) s a ;;
  Some (mkC (fun j => c_t c j + al_t (c_k c) s a * snd dt j)
            (fun j => c_o c j + al_o (c_k c) s a * delta * n j)
            (fun j => c_v c j + al_v (c_k c) s a * delta * psi s j)
            (S (c_k c))).

Fixpoint cop_fit (c : cop) (ds : list tr) : option cop :=
  match ds with
  | [] => Some c
  | t :: rest => c' <- cop_step c t ;; cop_fit c' rest
  end.
End Copdac.

(** the policy regressor the examples build: a LinearApproximator with [na] outputs over
    [np] features. Weights in row-major order; diff (linear.py 124-147) gives the
    features when there is one output, else an (outputs * features, outputs) matrix. *)
Section LinMu.
Context {X : Type}.
Variable na np : nat.
Variable phi : X -> vec.
Definition lin_mu (th : vec) (s : X) : vec := fun i => rsum (map (fun j => phi s j * th (i * np + j)%nat) (seq 0 np)).
Definition lin_dmu (th : vec) (s : X) : m2 :=
  if Nat.eqb na 1 then mkM 1 np (fun _ j => phi s j)
  else mkM (na * np) na (fun w i => if andb (Nat.leb (i * np) w) (Nat.ltb w (i * np + np)) then phi s (w - i * np)%nat else 0).
End LinMu.

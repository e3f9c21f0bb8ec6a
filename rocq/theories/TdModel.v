(** Model of the tabular and linear temporal-difference algorithms
    (/repo/mushroom_rl/algorithms/value/td, approximators/table.py,
    approximators/ensemble_table.py, rl_utils/eligibility_trace.py).

    A table is a list of rows, one per state, with one real number per action.
    Simplifications: states and actions are their indices (a[0] of the 1-element
    arrays); the value returned by the learning-rate parameter at an update is an
    argument [al]; draws of the policy and of the random generator are arguments;
    floats are real numbers. *)
From Coq Require Import List Arith Lia Reals Bool.
From Verif Require Import Common PolicyModel.
Import ListNotations.

Definition table := list (list R).

(** Table.__getitem__ (table.py 26-33): Q[s, :] and Q[s, a] *)
Definition row (Q : table) (s : nat) : list R := nth s Q [].
Definition tget (Q : table) (s a : nat) : R := nth a (row Q s) 0%R.

(** Table.__setitem__ (table.py 35-41) *)
Definition tset (Q : table) (s a : nat) (v : R) : table := setnth Q s (setnth (row Q s) a v).

(** One sample: the arguments of TD._update (td.py 34-46). *)
Record sample := { x_s : nat; x_a : nat; x_r : R; x_s' : nat; x_abs : bool }.

(** QLearning._update (q_learning.py 18-24) *)
Definition ql_update (gamma al : R) (Q : table) (x : sample) : table :=
  let q_current := tget Q (x_s x) (x_a x) in
  let q_next := if x_abs x then 0%R else qmax (row Q (x_s' x)) in
  tset Q (x_s x) (x_a x) (q_current + al * (x_r x + gamma * q_next - q_current))%R.

(** SARSA._update (sarsa.py 15-22); [a'] is the action drawn by draw_action(next_state). *)
Definition sarsa_update (gamma al : R) (a' : nat) (Q : table) (x : sample) : table :=
  let q_current := tget Q (x_s x) (x_a x) in
  let q_next := if x_abs x then 0%R else tget Q (x_s' x) a' in
  tset Q (x_s x) (x_a x) (q_current + al * (x_r x + gamma * q_next - q_current))%R.

(** np.dot *)
Fixpoint dot (u v : list R) : R :=
  match u, v with
  | x :: u', y :: v' => (x * y + dot u' v')%R
  | _, _ => 0%R
  end.

(** ExpectedSARSA._update (expected_sarsa.py 17-26); [pi] is policy(next_state). *)
Definition esarsa_update (gamma al : R) (pi : list R) (Q : table) (x : sample) : table :=
  let q_current := tget Q (x_s x) (x_a x) in
  let q_next := if x_abs x then 0%R else dot (row Q (x_s' x)) pi in
  tset Q (x_s x) (x_a x) (q_current + al * (x_r x + gamma * q_next - q_current))%R.

(** DoubleQLearning._update (double_q_learning.py 28-45): [second] tells that the
    uniform draw is at least 1/2, [c] is the position drawn among the maximisers. *)
Definition dq_update (gamma al : R) (second : bool) (c : nat) (Q : table * table) (x : sample) : table * table :=
  let Qi := if second then snd Q else fst Q in
  let Qj := if second then fst Q else snd Q in
  let q_current := tget Qi (x_s x) (x_a x) in
  let q_next := if x_abs x then 0%R
                else let q_ss := row Qi (x_s' x) in tget Qj (x_s' x) (nth c (argmaxs q_ss) 0) in
  let q := (q_current + al * (x_r x + gamma * q_next - q_current))%R in
  if second then (fst Q, tset (snd Q) (x_s x) (x_a x) q) else (tset (fst Q) (x_s x) (x_a x) q, snd Q).

(** Ensemble.predict with prediction='min' on a state: predictions.min(0)
    (ensemble.py 78-102). *)
Definition row_min (u v : list R) : list R := map (fun p => Rmin (fst p) (snd p)) (combine u v).
Definition ens_min (Qs : list table) (s : nat) : list R :=
  match Qs with [] => [] | Q :: t => fold_left (fun r Q' => row_min r (row Q' s)) t (row Q s) end.

(** MaxminQLearning._update (maxmin_q_learning.py 32-46), table [i] being drawn. *)
Definition mm_update (gamma al : R) (i : nat) (Qs : list table) (x : sample) : list table :=
  let q_current := tget (nth i Qs []) (x_s x) (x_a x) in
  let q_next := if x_abs x then 0%R else qmax (ens_min Qs (x_s' x)) in
  setnth Qs i (tset (nth i Qs []) (x_s x) (x_a x) (q_current + al * (x_r x + gamma * q_next - q_current))%R).

(** SpeedyQLearning._update (speedy_q_learning.py 22-36); the state is (Q, old_q). *)
Definition speedy_update (gamma al : R) (st : table * table) (x : sample) : table * table :=
  let Q := fst st in
  let max_q_cur := if x_abs x then 0%R else qmax (row Q (x_s' x)) in
  let max_q_old := if x_abs x then 0%R else qmax (row (snd st) (x_s' x)) in
  let target_cur := (x_r x + gamma * max_q_cur)%R in
  let target_old := (x_r x + gamma * max_q_old)%R in
  let q_cur := tget Q (x_s x) (x_a x) in
  (tset Q (x_s x) (x_a x) (q_cur + al * (target_old - q_cur) + (1 - al) * (target_cur - target_old))%R, Q).

(** RLearning._update (r_learning.py 32-43); the state is (Q, rho). *)
Definition rl_update (al beta : R) (st : table * R) (x : sample) : table * R :=
  let (Q, rho) := st in
  let q_current := tget Q (x_s x) (x_a x) in
  let q_next := if x_abs x then 0%R else qmax (row Q (x_s' x)) in
  let delta := (x_r x - rho + q_next - q_current)%R in
  let q_new := (q_current + al * delta)%R in
  let Q' := tset Q (x_s x) (x_a x) q_new in
  let q_max := qmax (row Q' (x_s x)) in
  (Q', if Req_EM_T q_new q_max then (rho + beta * (x_r x + q_next - q_max - rho))%R else rho).

(** RQLearning._update (rq_learning.py 51-66); the state is (Q, Q_tilde, R_tilde),
    [be] is the value of beta (or of alpha * delta), [q_next] comes from _next_q
    (68-83): the maximum when off_policy, else the value of the drawn action. *)
Definition rq_next (off : bool) (a' : nat) (Q : table) (s : nat) : R :=
  if off then qmax (row Q s) else tget Q s a'.

Definition rq_update (gamma al be : R) (off : bool) (a' : nat) (st : table * table * table) (x : sample)
  : table * table * table :=
  let '(Q, Qt, Rt) := st in
  let s := x_s x in let a := x_a x in
  let Rt' := tset Rt s a (tget Rt s a + al * (x_r x - tget Rt s a))%R in
  let Qt' := if x_abs x then Qt
             else tset Qt s a (tget Qt s a + be * (rq_next off a' Q (x_s' x) - tget Qt s a))%R in
  (tset Q s a (tget Rt' s a + gamma * tget Qt' s a)%R, Qt', Rt').

(** WeightedQLearning._next_q (weighted_q_learning.py 73-100): [idx] lists, for each
    of the [precision] samples, the index of the largest entry. *)
Definition wq_weights (n : nat) (idx : list nat) : list R :=
  map (fun a => INR (count_occ Nat.eq_dec idx a) / INR (length idx))%R (seq 0 n).
Definition wq_next (Q : table) (s : nat) (idx : list nat) : R :=
  dot (wq_weights (length (row Q s)) idx) (row Q s).

(** WeightedQLearning._update (weighted_q_learning.py 49-71). *)
Record wq_state := { w_Q : table; w_Q2 : table; w_n : table; w_w1 : table; w_w2 : table; w_sigma : table }.

Definition wq_update (gamma al : R) (idx : list nat) (st : wq_state) (x : sample) : wq_state :=
  let s := x_s x in let a := x_a x in
  let q_current := tget (w_Q st) s a in
  let q2_current := tget (w_Q2 st) s a in
  let q_next := if x_abs x then 0%R else wq_next (w_Q st) (x_s' x) idx in
  let target := (x_r x + gamma * q_next)%R in
  let Q' := tset (w_Q st) s a (q_current + al * (target - q_current))%R in
  let Q2' := tset (w_Q2 st) s a (q2_current + al * (target ^ 2 - q2_current))%R in
  let n' := tset (w_n st) s a (tget (w_n st) s a + 1)%R in
  let w2' := tset (w_w2 st) s a ((1 - al) ^ 2 * tget (w_w2 st) s a + al ^ 2)%R in
  let w1' := tset (w_w1 st) s a ((1 - al) * tget (w_w1 st) s a + al)%R in
  let sigma' := if Rlt_dec 1 (tget n' s a)
                then let var := (tget Q2' s a - tget Q' s a ^ 2)%R in
                     let w := (tget w2' s a / (tget w1' s a * 2 + / 10 ^ 10))%R in
                     tset (w_sigma st) s a (sqrt (Rmax (var * w) (/ 10 ^ 10)))%R
                else w_sigma st in
  {| w_Q := Q'; w_Q2 := Q2'; w_n := n'; w_w1 := w1'; w_w2 := w2'; w_sigma := sigma' |}.

(** WeightedQLearning.__init__ (weighted_q_learning.py 39-45), n states and k actions *)
Definition tconst (n k : nat) (v : R) : table := repeat (repeat v k) n.
Definition wq_init (n k : nat) : wq_state :=
  {| w_Q := tconst n k 0; w_Q2 := tconst n k 0; w_n := tconst n k 0; w_w1 := tconst n k 0;
     w_w2 := tconst n k 0; w_sigma := tconst n k (10 ^ 10)%R |}.

(** Eligibility traces (eligibility_trace.py 26-52). *)
Inductive trace_kind := Replacing | Accumulating.

Definition trace_update (k : trace_kind) (e : table) (s a : nat) : table :=
  match k with
  | Replacing => tset e s a 1%R
  | Accumulating => tset e s a (tget e s a + 1)%R
  end.

(** self.table[:] = 0. *)
Definition trace_reset (e : table) : table := map (map (fun _ => 0%R)) e.

(** table += c * other (element-wise); table *= c *)
Definition tadd_scaled (Q : table) (c : R) (e : table) : table :=
  map (fun p => map (fun q => (fst q + c * snd q)%R) (combine (fst p) (snd p))) (combine Q e).
Definition tscale (e : table) (c : R) : table := map (map (fun v => (v * c)%R)) e.

(** SARSALambda._update (sarsa_lambda.py 32-42) and QLambda._update
    (q_lambda.py 36-45): [q_next] is the value of the next state. *)
Definition lambda_update (k : trace_kind) (gamma al lam q_next : R) (st : table * table) (x : sample) : table * table :=
  let (Q, e) := st in
  let delta := (x_r x + gamma * q_next - tget Q (x_s x) (x_a x))%R in
  let e1 := trace_update k e (x_s x) (x_a x) in
  (tadd_scaled Q (al * delta) e1, tscale e1 (gamma * lam)).

Definition sarsa_lambda_update (k : trace_kind) (gamma al lam : R) (a' : nat) (st : table * table) (x : sample) :=
  lambda_update k gamma al lam (if x_abs x then 0%R else tget (fst st) (x_s' x) a') st x.

Definition q_lambda_update (k : trace_kind) (gamma al lam : R) (st : table * table) (x : sample) :=
  lambda_update k gamma al lam (if x_abs x then 0%R else qmax (row (fst st) (x_s' x))) st x.

(** Agent.draw_action (agent.py 77-105): an action left by the algorithm is
    executed and forgotten, otherwise the policy draws [d]. *)
Definition agent_draw (next : option nat) (d : nat) : nat * option nat :=
  match next with None => (d, None) | Some a => (a, None) end.

(** SARSA._update with self.next_action (sarsa.py 17): the result also holds the
    new value of next_action. *)
Definition sarsa_fit (gamma al : R) (d : nat) (next : option nat) (Q : table) (x : sample) : table * option nat :=
  let (a', _) := agent_draw next d in
  (sarsa_update gamma al a' Q x, Some a').

(** Linear approximators. get_action_features (features.py 58-98, one state):
    zeros except the block of the action. *)
Definition vadd (u v : list R) : list R := map (fun p => (fst p + snd p)%R) (combine u v).
Definition vscale (c : R) (u : list R) : list R := map (fun x => (c * x)%R) u.

(** SARSALambdaContinuous._update (sarsa_lambda_continuous.py 34-48) for a linear
    regressor: predict is a dot product with the features and diff is the feature
    vector. [phi], [phi'] are the features of (s,a) and (s',a'). *)
Definition sarsa_cont_update (gamma al lam r : R) (abs : bool) (phi phi' : list R)
  (st : list R * list R) : list R * list R :=
  let (theta, e) := st in
  let q_current := dot theta phi in
  let e' := vadd (vscale (gamma * lam) e) phi in
  let q_next := if abs then 0%R else dot theta phi' in
  let delta := (r + gamma * q_next - q_current)%R in
  (vadd theta (vscale (al * delta) e'), e').

(** TrueOnlineSARSALambda._update (true_online_sarsa_lambda.py 39-62). *)
Record to_state := { o_theta : list R; o_e : list R; o_qold : option R }.

Definition true_online_update (gamma al lam r : R) (abs : bool) (phi phi' : list R) (st : to_state) : to_state :=
  let theta := o_theta st in
  let q_current := dot theta phi in
  let q_old := match o_qold st with None => q_current | Some q => q end in
  let e_phi := dot (o_e st) phi in
  let e' := vadd (vscale (gamma * lam) (o_e st)) (vscale (al * (1 - gamma * lam * e_phi)) phi) in
  let q_next := if abs then 0%R else dot theta phi' in
  let delta := (r + gamma * q_next - q_old)%R in
  {| o_theta := vadd (vadd theta (vscale delta e')) (vscale (al * (q_old - q_current)) phi);
     o_e := e'; o_qold := Some q_next |}.

(** Deep value-based agents (mushroom_rl/algorithms/value/dqn, deep actor-critic
    targets). Networks are oracles: weights are values of an arbitrary type (or vectors of
    reals for soft updates), predictions are rows of reals. Batches are lists; the rows
    are independent, so the projection is written for one row. *)
From Coq Require Import List Arith ZArith Lia Reals Bool.
From Verif Require Import Common.
Import ListNotations.

(** np.clip *)
Definition clip (x lo hi : R) : R := Rmin (Rmax x lo) hi.
(** np.floor(x).astype(int), np.ceil(x).astype(int) *)
Definition floorZ (x : R) : Z := Int_part x.
Definition ceilZ (x : R) : Z := (- Int_part (- x))%Z.

(** Python indexing of an axis of length n: negative indices wrap, others raise *)
Definition pyindex (n : nat) (k : Z) : option nat :=
  if (0 <=? k)%Z then if (k <? Z.of_nat n)%Z then Some (Z.to_nat k) else None
  else if (- Z.of_nat n <=? k)%Z then Some (Z.to_nat (k + Z.of_nat n)) else None.
(** m[k] += x *)
Definition inc (m : list R) (k : Z) (x : R) : option (list R) :=
  match pyindex (length m) k with Some i => Some (setnth m i (nth i m 0 + x)%R) | None => None end.

Section Categorical.
Variables (n : nat) (vmin vmax : R).
(** categorical_dqn.py 106 (rainbow.py 103): _delta *)
Definition delta : R := ((vmax - vmin) / (INR n - 1))%R.
(** categorical_dqn.py 107: np.arange(v_min, v_max + eps, _delta); np.arange has
    ceil((stop - start) / step) elements start + i * step *)
Definition atoms (eps : R) : list R :=
  map (fun i => vmin + INR i * delta)%R (seq 0 (Z.to_nat (ceilZ ((vmax + eps - vmin) / delta)))).

(** categorical_dqn.py 136-148 (rainbow.py 141-153) for one row of the batch and one atom; l and u are
    adjusted when b is an integer *)
Definition project_atom (reward gamma z p : R) (m : list R) : option (list R) :=
  let bell_a := clip (reward + gamma * z) vmin vmax in
  let b := ((bell_a - vmin) / delta)%R in
  let l := floorZ b in
  let u := ceilZ b in
  let l1 := if (0 <? u)%Z && (l =? u)%Z then (l - 1)%Z else l in
  let u1 := if (l1 <? Z.of_nat n - 1)%Z && (l1 =? u)%Z then (u + 1)%Z else u in
  match inc m l1 (p * (IZR u1 - b))%R with
  | Some m1 => inc m1 u1 (p * (b - IZR l1))%R
  | None => None
  end.
Fixpoint project_loop (reward gamma : R) (zp : list (R * R)) (m : list R) : option (list R) :=
  match zp with
  | [] => Some m
  | (z, p) :: t => match project_atom reward gamma z p m with Some m' => project_loop reward gamma t m' | None => None end
  end.
(** categorical_dqn.py 128-148; gamma is mdp_info.gamma * (1 - absorbing) (rainbow.py 135:
    mdp_info.gamma ** n_steps * (1 - absorbing)), p_next the distribution predicted for
    the greedy action *)
Definition project (eps reward gamma : R) (absorbing : bool) (p_next : list R) : option (list R) :=
  let g := (gamma * (1 - (if absorbing then 1 else 0)))%R in
  project_loop reward g (combine (atoms eps) p_next) (repeat 0%R n).
End Categorical.

(** * Target networks *)
Section Targets.
Variable W : Type.

(** AbstractDQN.fit and _update_target (abstract_dqn.py 83-88, 127-132); [w] are the
    weights of the online network after the fit. The state is (target, n_updates). *)
Definition dqn_fit (freq : nat) (st : W * nat) (w : W) : W * nat :=
  let n := snd st + 1 in
  if Nat.eqb (n mod freq) 0 then (w, n) else (fst st, n).
(** initially target = online (abstract_dqn.py 122-125) *)
Definition dqn_run (freq : nat) (w0 : W) (ws : list W) : W * nat := fold_left (dqn_fit freq) ws (w0, 0).

(** CategoricalDQN.fit, QuantileDQN.fit, Rainbow.fit (categorical_dqn.py 119-156): nothing
    happens, not even the counting, while the replay memory is not initialised *)
Definition guarded_fit (freq : nat) (st : W * nat) (x : bool * W) : W * nat :=
  if fst x then dqn_fit freq st (snd x) else st.
Definition guarded_run (freq : nat) (w0 : W) (xs : list (bool * W)) : W * nat := fold_left (guarded_fit freq) xs (w0, 0).

(** AveragedDQN (averaged_dqn.py 28, 32-51): state (models, n_updates, n_fitted) *)
Definition avg_fit (K freq : nat) (st : list W * nat * nat) (w : W) : list W * nat * nat :=
  let '(models, n0, fitted) := st in
  let n := n0 + 1 in
  if Nat.eqb (n mod freq) 0 then
    (setnth models (n / freq mod K) w, n, if Nat.ltb fitted K then fitted + 1 else fitted)
  else (models, n, fitted).
Definition avg_run (K freq : nat) (w0 : W) (ws : list W) : list W * nat * nat :=
  fold_left (avg_fit K freq) ws (repeat w0 K, 0, 1).
(** the models used by AveragedDQN._next_q (averaged_dqn.py 55-57) *)
Definition avg_used (st : list W * nat * nat) : list W := let '(models, _, fitted) := st in firstn fitted models.
End Targets.

(** DeepAC._update_target for one weight vector (deep_actor_critic.py 92-96) *)
Definition soft_update (tau : R) (online target : list R) : list R :=
  map (fun ot => tau * fst ot + (1 - tau) * snd ot)%R (combine online target).
Definition soft_run (updates : list (R * list R)) (target : list R) : list R :=
  fold_left (fun t u => soft_update (fst u) (snd u) t) updates target.

(** * Bootstrapped targets: one entry per sample *)
Fixpoint rmaxl (x : R) (l : list R) : R := match l with [] => x | y :: t => rmaxl (Rmax x y) t end.
Definition rowmax (q : list R) : R := match q with [] => 0%R | x :: t => rmaxl x t end.
Fixpoint argmaxl (best : nat) (v : R) (i : nat) (l : list R) : nat :=
  match l with [] => best | y :: t => if Rlt_dec v y then argmaxl i y (S i) t else argmaxl best v (S i) t end.
(** np.argmax: first maximum *)
Definition argmax (q : list R) : nat := match q with [] => 0 | x :: t => argmaxl 0 x 1 t end.
Definition flag (b : bool) : R := if b then 1%R else 0%R.

(** DQN._next_q (dqn.py 11-16); the flags are applied only if some sample is absorbing *)
Definition dqn_next_q (qs : list (list R)) (absorbing : list bool) : list R :=
  let qs1 := if existsb (fun b => b) absorbing
             then map (fun qa => map (fun x => x * (1 - flag (snd qa)))%R (fst qa)) (combine qs absorbing) else qs in
  map rowmax qs1.

(** DoubleDQN._next_q (double_dqn.py 13-22) *)
Definition double_next_q (online target : list (list R)) (absorbing : list bool) : list R :=
  let double_q := map (fun ot => nth (argmax (fst ot)) (snd ot) 0%R) (combine online target) in
  if existsb (fun b => b) absorbing
  then map (fun qa => fst qa * (1 - flag (snd qa)))%R (combine double_q absorbing) else double_q.

(** AveragedDQN._next_q (averaged_dqn.py 53-62) for one sample: rows of the models used *)
Definition col_mean (rows : list (list R)) (na : nat) : list R :=
  map (fun a => rsum (map (fun r => nth a r 0) rows) / INR (length rows))%R (seq 0 na).
Definition averaged_next_q (na : nat) (rows : list (list R)) (absorbing : bool) : R :=
  rowmax (map (fun x => x * (1 - flag absorbing))%R (col_mean rows na)).

(** MaxminDQN: DQN._next_q over the element-wise minimum of the ensemble
    (maxmin_dqn.py 33-45) *)
Fixpoint rminl (x : R) (l : list R) : R := match l with [] => x | y :: t => rminl (Rmin x y) t end.
Definition listmin (l : list R) : R := match l with [] => 0%R | x :: t => rminl x t end.
Definition col_min (rows : list (list R)) (na : nat) : list R := map (fun a => listmin (map (fun r => nth a r 0%R) rows)) (seq 0 na).
Definition maxmin_next_q (na : nat) (rows : list (list R)) (absorbing : bool) : R :=
  rowmax (map (fun x => x * (1 - flag absorbing))%R (col_min rows na)).

(** TD3._next_q (td3.py 82-94): the critics are functions of the action *)
Definition td3_action (a noise noise_clip low high : R) : R := clip (a + clip noise (- noise_clip) noise_clip) low high.
Definition td3_next_q (q1 q2 : list R -> R) (a noise : list R) (noise_clip : R) (low high : list R) (absorbing : bool) : R :=
  let a' := map (fun x => td3_action (fst (fst x)) (snd (fst x)) noise_clip (fst (snd x)) (snd (snd x))) (combine (combine a noise) (combine low high)) in
  (Rmin (q1 a') (q2 a') * (1 - flag absorbing))%R.

(** SACPolicy action (sac.py 44-45, 96-98): squashed raw sample *)
Definition sac_action (raw min_a max_a : R) : R := (tanh raw * (1 / 2 * (max_a - min_a)) + 1 / 2 * (max_a + min_a))%R.
(** SAC._next_q (sac.py 310-313) *)
Definition sac_next_q (q1 q2 alpha log_prob : R) (absorbing : bool) : R := ((Rmin q1 q2 - alpha * log_prob) * (1 - flag absorbing))%R.

(** q = reward + gamma * q_next (abstract_dqn.py 99, ddpg.py 103, sac.py 277) *)
Definition td_target (reward gamma q_next : R) : R := (reward + gamma * q_next)%R.

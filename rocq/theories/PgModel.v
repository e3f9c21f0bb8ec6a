(** Episodic policy gradient algorithms,
    mushroom_rl/algorithms/policy_search/policy_gradient/*.py.
    Vectors of policy weights are functions of the component index: every numpy
    operation of these files is componentwise.  A sample carries what the algorithms
    read from it: the score [policy.diff_log(x, u)], the reward, the critic features
    of the state and the last flag.  The policy is not changed while the dataset is
    parsed, hence the scores are functions of the samples. *)
From Coq Require Import List Arith Lia Reals Bool.
From Verif Require Import Common.
Import ListNotations.
Local Open Scope R_scope.

Definition vec := nat -> R.
Record sample := { score : vec; rew : R; phi_c : list R; lst : bool }.

Definition vzero : vec := fun _ => 0.
Definition vadd (a b : vec) : vec := fun i => a i + b i.
Definition vscale (c : R) (a : vec) : vec := fun i => c * a i.
Definition vsquare (a : vec) : vec := fun i => a i * a i.
(** [np.mean(l, axis=0)] *)
Definition vmean (l : list vec) : vec := fun i => rsum (map (fun v => v i) l) / INR (length l).
(** [baseline = num / den; baseline[not isfinite(baseline)] = 0]: a quotient by zero is
    inf or nan, hence replaced by 0. *)
Definition ratio (num den : R) : R := if Req_EM_T den 0 then 0 else num / den.

(** The methods overridden by the subclasses; [a_step] receives [self.df], [a_end]
    receives [self.J_episode]. *)
Record algo (S G : Type) := {
  a_init : S -> S;
  a_step : R -> sample -> S -> S;
  a_end : R -> S -> S;
  a_grad : list R -> S -> S * option G }.
Arguments a_init {S G}. Arguments a_step {S G}. Arguments a_end {S G}. Arguments a_grad {S G}.

Section Fit.
Context {S G : Type} (gamma : R) (al : algo S G).

(** PolicyGradient.fit, policy_gradient.py 39-50 (loop body); the state is
    (J, df, J_episode, attributes of the subclass). *)
Definition pg_body (st : list R * R * R * S) (x : sample) : list R * R * R * S :=
  let '(J, df, Je, s) := st in
  let s := a_step al df x s in
  let Je := Je + df * rew x in
  let df := df * gamma in
  if lst x then (J ++ [Je], 1, 0, a_init al (a_end al Je s)) else (J, df, Je, s).

(** PolicyGradient.fit, policy_gradient.py 34-54, up to the gradient returned by
    [_compute_gradient].  [None] is an exception: the assertion on the number of
    episodes or an IndexError; the attributes keep what was written before. *)
Definition pg_fit (s : S) (ds : list sample) : S * option G :=
  let '(J, _, _, s) := fold_left pg_body ds ([], 1, 0, a_init al s) in
  if (1 <? length J)%nat then a_grad al J s else (s, None).

(** A sequence of fits: the gradients computed. *)
Fixpoint pg_fits (s : S) (dss : list (list sample)) : list (option G) :=
  match dss with
  | [] => []
  | ds :: rest => let (s', g) := pg_fit s ds in g :: pg_fits s' rest
  end.
End Fit.

(** * REINFORCE, reinforce.py *)
Record rf := { rf_sum : vec; rf_list : list vec; rf_num : list vec; rf_den : list vec }.
(** __init__ 13-18 ([sum_d_log_pi = None] is overwritten by [_init_update]) *)
Definition rf0 : rf := {| rf_sum := vzero; rf_list := []; rf_num := []; rf_den := [] |}.
(** _init_update 55-56 *)
Definition rf_init (s : rf) : rf := {| rf_sum := vzero; rf_list := rf_list s; rf_num := rf_num s; rf_den := rf_den s |}.
(** _step_update 45-47 *)
Definition rf_step (df : R) (x : sample) (s : rf) : rf :=
  {| rf_sum := vadd (rf_sum s) (score x); rf_list := rf_list s; rf_num := rf_num s; rf_den := rf_den s |}.
(** _episode_end_update 49-53 *)
Definition rf_end (Je : R) (s : rf) : rf :=
  let sq := vsquare (rf_sum s) in
  {| rf_sum := rf_sum s; rf_list := rf_list s ++ [rf_sum s];
     rf_num := rf_num s ++ [vscale Je sq]; rf_den := rf_den s ++ [sq] |}.
(** _compute_gradient 34-36, the loop from episode [i] on *)
Fixpoint rf_loop (ls : list vec) (baseline : vec) (i : nat) (J : list R) : option (list vec) :=
  match J with
  | [] => Some []
  | Je :: J' => g <- nth_error ls i;; rest <- rf_loop ls baseline (Nat.succ i) J';; Some ((fun c => g c * (Je - baseline c)) :: rest)
  end.
(** _compute_gradient 30-43 *)
Definition rf_grad (J : list R) (s : rf) : rf * option vec :=
  let baseline : vec := fun i => ratio (vmean (rf_num s) i) (vmean (rf_den s) i) in
  match rf_loop (rf_list s) baseline 0 J with
  | None => (s, None)
  | Some gs => ({| rf_sum := rf_sum s; rf_list := []; rf_num := []; rf_den := [] |}, Some (vmean gs))
  end.
Definition reinforce : algo rf vec := {| a_init := rf_init; a_step := rf_step; a_end := rf_end; a_grad := rf_grad |}.

(** * GPOMDP, gpomdp.py *)
Record gp := {
  gp_sum : vec; gp_list : list vec; gp_list_ep : list (list vec);
  gp_rew : list R; gp_rew_ep : list (list R);
  gp_num : list (list vec); gp_den : list (list vec); gp_count : nat }.
(** __init__ 16-27 *)
Definition gp0 : gp := {| gp_sum := vzero; gp_list := []; gp_list_ep := []; gp_rew := []; gp_rew_ep := []; gp_num := []; gp_den := []; gp_count := 0 |}.
(** _init_update 99-102: [list_reward] is not reset *)
Definition gp_init (s : gp) : gp :=
  {| gp_sum := vzero; gp_list := []; gp_list_ep := gp_list_ep s; gp_rew := gp_rew s; gp_rew_ep := gp_rew_ep s;
     gp_num := gp_num s; gp_den := gp_den s; gp_count := 0 |}.
(** [l[i].append(x)] *)
Definition append_at {A} (l : list (list A)) (i : nat) (x : A) : list (list A) := setnth l i (nth i l [] ++ [x]).
(** _step_update 72-90 *)
Definition gp_step (df : R) (x : sample) (s : gp) : gp :=
  let dr := df * rew x in
  let sum := vadd (gp_sum s) (score x) in
  let sq := vsquare sum in
  let num := if (length (gp_num s) <=? gp_count s)%nat then gp_num s ++ [[]] else gp_num s in
  let den := if (length (gp_num s) <=? gp_count s)%nat then gp_den s ++ [[]] else gp_den s in
  {| gp_sum := sum; gp_list := gp_list s ++ [sum]; gp_list_ep := gp_list_ep s; gp_rew := gp_rew s ++ [dr]; gp_rew_ep := gp_rew_ep s;
     gp_num := append_at num (gp_count s) (vscale dr sq); gp_den := append_at den (gp_count s) sq; gp_count := gp_count s + 1 |}.
(** _episode_end_update 92-97 *)
Definition gp_end (Je : R) (s : gp) : gp :=
  {| gp_sum := gp_sum s; gp_list := []; gp_list_ep := gp_list_ep s ++ [gp_list s]; gp_rew := []; gp_rew_ep := gp_rew_ep s ++ [gp_rew s];
     gp_num := gp_num s; gp_den := gp_den s; gp_count := gp_count s |}.
(** _compute_gradient 46-58: one episode *)
Definition gp_episode (num den : list (list vec)) (ls : list vec) (lr : list R) : option vec :=
  fold_left (fun acc t =>
    g <- acc;; sg <- nth_error ls t;; sr <- nth_error lr t;; bn <- nth_error num t;; bd <- nth_error den t;;
    Some (fun i => g i + sg i * (sr - ratio (vmean bn i) (vmean bd i))))
    (seq 0 (length ls)) (Some vzero).
(** _compute_gradient 45-60, the loop from episode [i] on *)
Fixpoint gp_loop (num den : list (list vec)) (lrs : list (list R)) (i : nat) (l : list (list vec)) : option (list vec) :=
  match l with
  | [] => Some []
  | ls :: l' => lr <- nth_error lrs i;; g <- gp_episode num den ls lr;; rest <- gp_loop num den lrs (Nat.succ i) l';; Some (g :: rest)
  end.
(** _compute_gradient 42-70 *)
Definition gp_grad (J : list R) (s : gp) : gp * option vec :=
  match gp_loop (gp_num s) (gp_den s) (gp_rew_ep s) 0 (gp_list_ep s) with
  | None => (s, None)
  | Some gs => ({| gp_sum := gp_sum s; gp_list := gp_list s; gp_list_ep := []; gp_rew := gp_rew s; gp_rew_ep := [];
                   gp_num := []; gp_den := []; gp_count := gp_count s |}, Some (vmean gs))
  end.
Definition gpomdp : algo gp vec := {| a_init := gp_init; a_step := gp_step; a_end := gp_end; a_grad := gp_grad |}.

(** * eNAC, enac.py: up to the linear system handed to [np.linalg.pinv] *)
Record en := { en_sum : vec; en_ext : option (list R); en_list : list (vec * list R) }.
(** __init__ 22-26 *)
Definition en0 : en := {| en_sum := vzero; en_ext := None; en_list := [] |}.
(** _init_update 59-61 *)
Definition en_init (s : en) : en := {| en_sum := vzero; en_ext := None; en_list := en_list s |}.
(** _step_update 46-53; [critic_features=None] corresponds to [phi_c = [1]] *)
Definition en_step (df : R) (x : sample) (s : en) : en :=
  {| en_sum := vadd (en_sum s) (vscale df (score x));
     en_ext := match en_ext s with None => Some (phi_c x) | e => e end; en_list := en_list s |}.
(** _episode_end_update 55-57; [psi_ext] is not None after a step *)
Definition en_end (Je : R) (s : en) : en :=
  {| en_sum := en_sum s; en_ext := en_ext s;
     en_list := en_list s ++ [(en_sum s, match en_ext s with Some e => e | None => [] end)] |}.
(** _compute_gradient 35-44: the matrix and right-hand side of the least squares problem *)
Definition en_grad (J : list R) (s : en) : en * option (list (vec * list R) * list R) :=
  ({| en_sum := en_sum s; en_ext := en_ext s; en_list := [] |}, Some (en_list s, J)).
Definition enac : algo en (list (vec * list R) * list R) := {| a_init := en_init; a_step := en_step; a_end := en_end; a_grad := en_grad |}.

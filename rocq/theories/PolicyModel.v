(** Model of the value-based policies (/repo/mushroom_rl/policy/td_policy.py).

    Simplifications: the approximator's prediction for the state is a non-empty
    list of real numbers [q], one per action; random draws are arguments; the root
    finder of Mellowmax is an oracle. *)
From Coq Require Import List Arith Lia Reals Bool.
From Verif Require Import Common ParamModel.
Import ListNotations.

(** np.max *)
Definition qmax (q : list R) : R := match q with [] => 0%R | x :: t => fold_left Rmax t x end.

(** np.argwhere(q == np.max(q)).ravel() *)
Definition argmaxs (q : list R) : list nat :=
  filter (fun a => if Req_EM_T (nth a q 0%R) (qmax q) then true else false) (seq 0 (length q)).

(** EpsGreedy.__call__ with an action (td_policy.py 61-75). *)
Definition eg_prob (q : list R) (eps : R) (a : nat) : R :=
  let p := (eps / INR (length q))%R in
  let m := argmaxs q in
  if existsb (Nat.eqb a) m then (p + (1 - eps) / INR (length m))%R else p.

(** EpsGreedy.__call__ with the state only (td_policy.py 76-80). *)
Definition eg_probs (q : list R) (eps : R) : list R :=
  let p := (eps / INR (length q))%R in
  let m := argmaxs q in
  fold_left (fun l a => setnth l a (nth a l 0 + (1 - eps) / INR (length m))%R) m (repeat p (length q)).

(** draw_action (td_policy.py 82-93): [u] is np.random.uniform(), [c] the position
    chosen among the maximising actions, [r] the random action. *)
Definition eg_draw (q : list R) (eps u : R) (c r : nat) : nat :=
  if Rlt_dec u eps then r
  else match argmaxs q with
       | [a] => a
       | m => nth c m 0
       end.

(** Boltzmann.__call__ (td_policy.py 139-151), beta being the value of the
    parameter. *)
Definition bz_exps (q : list R) (beta : R) : list R :=
  let qb := map (fun x => x * beta)%R q in
  map (fun x => exp (x - qmax qb))%R qb.

Definition bz_probs (q : list R) (beta : R) : list R :=
  map (fun e => e / rsum (bz_exps q beta))%R (bz_exps q beta).

Definition bz_prob (q : list R) (beta : R) (a : nat) : R :=
  (nth a (bz_exps q beta) 0 / rsum (bz_exps q beta))%R.

(** The same with its side effect: evaluating the policy calls the parameter,
    which counts a visit (td_policy.py 141). *)
Definition bz_eval (q : list R) (beta : param) (s a : nat) : option (R * param) :=
  r <- p_call beta s ;; Some (bz_prob q (fst r) a, snd r).

(** MellowmaxParameter.__call__ (td_policy.py 200-220). *)
Definition mellow (q : list R) (omega : R) : R :=
  ((ln (rsum (map (fun x => exp (x * omega)) q)) - ln (INR (length q))) / omega)%R.

Definition mellow_f (q : list R) (mm beta : R) : R :=
  let v := map (fun x => x - mm)%R q in
  let bv := map (fun x => beta * x)%R v in
  rsum (map (fun x => exp (beta * x - qmax bv) * x)%R v).

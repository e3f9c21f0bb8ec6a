(** Policies with an internal process: OrnsteinUhlenbeckPolicy and ClippedGaussianPolicy
    (/repo/mushroom_rl/policy/noise_policy.py), the time of ProMP (policy/promps.py) and DMP
    (policy/dmp.py).
    Floats are reals and array operations act on every component, so an action is a
    function of the component.  The regressors are arbitrary functions, random draws are
    arguments. *)
From Coq Require Import List Arith Lia Reals Lra Bool.
From Verif Require Import Common.
Import ListNotations.
Local Open Scope R_scope.

(** * OrnsteinUhlenbeckPolicy *)
Record ou := { ou_sigma : R; ou_theta : R; ou_dt : R; ou_x0 : option (nat -> R) }.
(** reset (68-69) *)
Definition ou_reset (p : ou) : nat -> R := match ou_x0 p with Some x => x | None => fun _ => 0 end.
(** draw_action (49-57): the action and the next policy state; [xi] is the draw of
    torch.randn *)
Definition ou_draw (p : ou) (mu x xi : nat -> R) : (nat -> R) * (nat -> R) :=
  let x' i := x i - ou_theta p * x i * ou_dt p + ou_sigma p * sqrt (ou_dt p) * xi i in
  (fun i => mu i + x' i, x').
(** an episode: the core hands the policy state back to the next draw *)
Fixpoint ou_run (p : ou) (x : nat -> R) (steps : list ((nat -> R) * (nat -> R))) : list (nat -> R) * (nat -> R) :=
  match steps with
  | [] => ([], x)
  | (mu, xi) :: rest =>
      let '(a, x') := ou_draw p mu x xi in
      let '(acts, xe) := ou_run p x' rest in
      (a :: acts, xe)
  end.

(** * ClippedGaussianPolicy.draw_action (119-130); [raw] is the sample of the Gaussian,
    torch.clip(raw, low, high) *)
Definition clipped_draw (low high raw : nat -> R) : nat -> R := fun i => Rmin (Rmax (raw i) (low i)) (high i).

(** * ProMP: update_time (64-77), reset (107-108), _compute_phase (79-90), set_duration
    (100-105).  The time is an integer. *)
Definition promp_tick (periodic : bool) (duration t : nat) : nat :=
  let t' := S t in
  if andb (negb periodic) (Nat.leb duration t') then duration else t'.
Fixpoint promp_time (periodic : bool) (duration n : nat) : nat :=
  match n with O => O | S n' => promp_tick periodic duration (promp_time periodic duration n') end.
Definition promp_phase (duration t : nat) : R := INR t / INR duration.
Definition promp_set_duration (duration : nat) : option nat := if Nat.leb 2 duration then Some (duration - 1)%nat else None.

(** * DMP, one component of the action (the regressor may mix the components through the
    phases, so the forcing term is an argument) *)
Record dmp := { d_g : R; d_dt : R; d_tau : R; d_av : R; d_bv : R; d_az : R; d_bz : R }.
Record dstate := mkD { d_v : R; d_x : R; d_z : R; d_y : R }.
(** reset (104-109) *)
Definition dmp_reset : dstate := mkD 0 0 0 0.
(** update_system (62-81); [u] is the value of the regressor at the phase x / g *)
Definition dmp_update (p : dmp) (u : R) (s : dstate) : dstate :=
  let f := u * d_v s in
  let v_dot := d_av p * (d_bv p * (d_g p - d_y s) - d_v s) / d_tau p in
  let x_dot := d_v s / d_tau p in
  let z_dot := d_az p * (d_bz p * (d_g p - d_y s) - d_z s) / d_tau p in
  let y_dot := (d_z s + f) / d_tau p in
  mkD (d_v s + v_dot * d_dt p) (d_x s + x_dot * d_dt p) (d_z s + z_dot * d_dt p) (d_y s + y_dot * d_dt p).
Fixpoint dmp_iter (p : dmp) (reg : R -> R) (n : nat) (s : dstate) : dstate :=
  match n with O => s | S n' => dmp_iter p reg n' (dmp_update p (reg (d_x s / d_g p)) s) end.

(** draw_action (49-52) returns the array self._y, which update_system changes in place
    ("+="); the heap holds the current contents of the arrays.  An episode of [n] draws:
    the references the caller received. *)
Definition dmp_draw (p : dmp) (reg : R -> R) (ref : nat) (hs : (nat -> R) * dstate) : ((nat -> R) * dstate) * nat :=
  let s' := dmp_update p (reg (d_x (snd hs) / d_g p)) (snd hs) in
  ((fun r => if Nat.eqb r ref then d_y s' else fst hs r, s'), ref).
Fixpoint dmp_episode (p : dmp) (reg : R -> R) (ref n : nat) (hs : (nat -> R) * dstate) : ((nat -> R) * dstate) * list nat :=
  match n with
  | O => (hs, [])
  | S n' => let '(hs1, r) := dmp_draw p reg ref hs in
            let '(hs2, rs) := dmp_episode p reg ref n' hs1 in (hs2, r :: rs)
  end.

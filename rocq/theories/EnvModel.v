(** Continuous control environments: state handling of
    mushroom_rl/environments/{puddle_world,ship_steering,lqr,inverted_pendulum,
    cart_pole,segway,car_on_hill}.py.
    The ODE integrator [odeint] is an oracle: its result is an arbitrary state.  Random
    draws are arguments. *)
From Coq Require Import List Arith Lia Reals Bool.
From Verif Require Import Common UtilModel.
Import ListNotations.
Local Open Scope R_scope.

(** Environment._bound, core/environment.py 202-215 *)
Definition bound (x lo hi : R) : R := Rmax lo (Rmin x hi).
(** [np.clip(x, lo, hi)] *)
Definition npclip (x lo hi : R) : R := Rmin (Rmax x lo) hi.

Definition pt := (R * R)%type.

(** * PuddleWorld, puddle_world.py *)
Record puddle := {
  pw_goal : pt; pw_threshold : R; pw_noise_step : R; pw_noise_reward : R; pw_reward_goal : R; pw_thrust : R;
  pw_puddles : list (pt * pt) }.
(** __init__ 46-48: the displacement of action [i] *)
Definition pw_action (w : puddle) (i : nat) : pt :=
  if (i <? 4)%nat then
    let v := pw_thrust w * (INR (i mod 2) * 2 - 1) in if (i / 2 =? 0)%nat then (v, 0) else (0, v)
  else (0, 0).
(** scipy.stats.norm.pdf *)
Definition norm_pdf (x mu sd : R) : R := exp (- ((x - mu) / sd) ^ 2 / 2) / (sqrt (2 * PI) * sd).
(** _get_reward 120-125 *)
Definition pw_reward (w : puddle) (s : pt) : R :=
  fold_left (fun r p => r - 2 * norm_pdf (fst s) (fst (fst p)) (fst (snd p)) * norm_pdf (snd s) (snd (fst p)) (snd (snd p)))
    (pw_puddles w) (-1).
(** step 71-87; [noise] are the two uniform draws, [z] the normal draw of the reward *)
Definition pw_step (w : puddle) (s : pt) (a : nat) (noise : pt) (z : R) : pt * R * bool :=
  let d := pw_action w a in
  let n := (npclip (fst s + fst d + fst noise) 0 1, npclip (snd s + snd d + snd noise) 0 1) in
  if Rlt_dec (Rabs (fst n - fst (pw_goal w)) + Rabs (snd n - snd (pw_goal w))) (pw_threshold w)
  then (n, pw_reward_goal w, true) else (n, z * pw_noise_reward w + pw_reward w n, false).

(** * ShipSteering, ship_steering.py *)
Record ship := { sx : R; sy : R; s_th : R; s_om : R }.
Record field := { f_size : R; gate_s : pt; gate_e : pt }.
(** __init__ 26-39 *)
Definition ship_field (small : bool) : field :=
  if small then {| f_size := 150; gate_s := (100, 120); gate_e := (120, 100) |}
  else {| f_size := 1000; gate_s := (350, 400); gate_e := (450, 400) |}.
Definition omega_max : R := PI / 12.
Definition ship_v : R := 3.
Definition ship_T : R := 5.
Definition ship_dt : R := / 5.
(** _cross_2d 142-144 *)
Definition cross (a b : pt) : R := fst a * snd b - snd a * fst b.
Definition psub (a b : pt) : pt := (fst a - fst b, snd a - snd b).
(** _through_gate 129-140 *)
Definition through_gate (f : field) (start end_ : pt) : bool :=
  let r := psub (gate_e f) (gate_s f) in
  let s := psub end_ start in
  let den := cross r s in
  if Req_EM_T den 0 then false else
  let t := cross (psub start (gate_s f)) s / den in
  let u := cross (psub start (gate_s f)) r / den in
  (if Rle_dec u 1 then true else false) && (if Rle_dec 0 u then true else false) &&
  (if Rle_dec t 1 then true else false) && (if Rle_dec 0 t then true else false).
(** the four updates of one integration interval, 81-84 *)
Definition ship_euler (r : R) (s : ship) : ship :=
  {| sx := sx s + ship_v * cos (s_th s) * ship_dt; sy := sy s + ship_v * sin (s_th s) * ship_dt;
     s_th := normalize_angle (s_th s + s_om s * ship_dt); s_om := s_om s + (r - s_om s) * ship_dt / ship_T |}.
(** step 78-102: [n] intervals; [None] is the unbound local variable when n = 0 *)
Fixpoint ship_loop (f : field) (r : R) (n : nat) (s : ship) (out : option (R * bool)) : ship * option (R * bool) :=
  match n with
  | O => (s, out)
  | S n' =>
      let t := ship_euler r s in
      if Rlt_dec (f_size f) (sx t) then (* out of the field *)
        ({| sx := bound (sx t) 0 (f_size f); sy := bound (sy t) 0 (f_size f); s_th := s_th t; s_om := s_om t |}, Some (-100, true))
      else if Rlt_dec (f_size f) (sy t) then
        ({| sx := bound (sx t) 0 (f_size f); sy := bound (sy t) 0 (f_size f); s_th := s_th t; s_om := s_om t |}, Some (-100, true))
      else if Rlt_dec (sx t) 0 then
        ({| sx := bound (sx t) 0 (f_size f); sy := bound (sy t) 0 (f_size f); s_th := s_th t; s_om := s_om t |}, Some (-100, true))
      else if Rlt_dec (sy t) 0 then
        ({| sx := bound (sx t) 0 (f_size f); sy := bound (sy t) 0 (f_size f); s_th := s_th t; s_om := s_om t |}, Some (-100, true))
      else if through_gate f (sx s, sy s) (sx t, sy t) then (t, Some (0, true))
      else ship_loop f r n' t (Some (-1, false))
  end.
(** step 72-104 *)
Definition ship_step (f : field) (n : nat) (s : ship) (a : R) : ship * option (R * bool) :=
  ship_loop f (bound a (- omega_max) omega_max) n s None.
(** reset 58-70 without argument; [u] are the four uniform draws *)
Definition ship_reset (small : bool) (u1 u2 u3 u4 : R) : ship :=
  if small then {| sx := 0; sy := 0; s_th := PI / 2; s_om := 0 |}
  else let h := f_size (ship_field small) in
       {| sx := (h - 0) * u1 + 0; sy := (h - 0) * u2 + 0; s_th := (PI - - PI) * u3 + - PI; s_om := (omega_max - - omega_max) * u4 + - omega_max |}.

(** * LQR, lqr.py.  Vectors are functions of the index; [None] as a bound is np.inf. *)
Record lqr := { l_n : nat; l_m : nat; lA : nat -> nat -> R; lB : nat -> nat -> R; lQ : nat -> nat -> R; lR : nat -> nat -> R;
  max_pos : option R; max_action : option R; episodic : bool }.
Definition lbound (m : option R) (x : R) : R := match m with None => x | Some h => bound x (- h) h end.
Definition mv (k : nat) (M : nat -> nat -> R) (v : nat -> R) : nat -> R := fun i => rsum (map (fun j => M i j * v j) (seq 0 k)).
Definition quad (k : nat) (M : nat -> nat -> R) (v : nat -> R) : R :=
  rsum (map (fun j => rsum (map (fun i => v i * M i j) (seq 0 k)) * v j) (seq 0 k)).
(** np.any(np.abs(x) > max_pos) *)
Definition exceeds (l : lqr) (x : nat -> R) : bool :=
  match max_pos l with
  | None => false
  | Some h => existsb (fun i => if Rlt_dec h (Rabs (x i)) then true else false) (seq 0 (l_n l))
  end.
(** step 127-144 *)
Definition lqr_step (l : lqr) (x a : nat -> R) : (nat -> R) * R * bool :=
  let u : nat -> R := fun i => lbound (max_action l) (a i) in
  let reward := - (quad (l_n l) (lQ l) x + quad (l_m l) (lR l) u) in
  let nx : nat -> R := fun i => mv (l_n l) (lA l) x i + mv (l_m l) (lB l) u i in
  if exceeds l nx then
    match max_pos l with
    | Some h => if episodic l then (nx, - (h ^ 2) * 10, true) else ((fun i => lbound (max_pos l) (nx i)), reward, false)
    | None => (nx, reward, false)
    end
  else (nx, reward, false).
(** reset 112-125 without argument and initial state; [draw] is the uniform draw in [-3, 3] *)
Definition lqr_reset (l : lqr) (random_init : bool) (draw : nat -> R) : nat -> R :=
  if random_init then fun i => lbound (max_pos l) (draw i)
  else fun _ => match max_pos l with Some h => 9 / 10 * h | None => 10 end.

(** * InvertedPendulum, inverted_pendulum.py *)
Definition max_omega : R := 5 / 2 * PI.
(** reset(state) 64-67 and step 77-81: [ode] is the integrator's result *)
Definition ip_state (ode : pt) : pt := (normalize_angle (fst ode), bound (snd ode) (- max_omega) max_omega).
Definition ip_step (max_u : R) (ode : pt -> R -> pt) (s : pt) (a : R) : pt * R * bool :=
  let u := bound a (- max_u) max_u in
  let s' := ip_state (ode s u) in (s', cos (fst s'), false).

(** * CartPole, cart_pole.py 66-91 *)
Definition cp_step (max_u : R) (ode : pt -> R -> pt) (s : pt) (a : nat) (noise : R) : pt * R * bool :=
  let u := match a with 0%nat => - max_u | 1%nat => 0 | _ => max_u end + noise in
  let o := ode s u in
  let s' := (normalize_angle (fst o), snd o) in
  if Rlt_dec (PI * / 2) (Rabs (fst s')) then (s', -1, true) else (s', 0, false).

(** * Segway, segway.py *)
(** __init__ 38-42: bounds of the observation space *)
Definition segway_high : list R := [- PI / 2; 15; 75].
Definition segway_low : list R := map Ropp segway_high.
(** step 70-90 *)
Definition segway_step (ode : list R -> R -> list R) (s : list R) (a : R) : list R * R * bool :=
  let u := bound a (-5) 5 in
  let o := ode s u in
  let s' := normalize_angle (nth 0 o 0) :: tl o in
  if Rlt_dec (PI / 2) (Rabs (nth 0 s' 0)) then (s', -10000, true)
  else (s', - (3 * nth 0 s' 0 ^ 2 + / 10 * nth 1 s' 0 ^ 2 + / 10 * nth 2 s' 0 ^ 2), false).
(** reset 55-68 without argument; [draw] is the uniform draw *)
Definition segway_reset (random : bool) (draw : R) : list R := [if random then draw else - PI / 8; 0; 0].

(** * CarOnHill, car_on_hill.py 54-72 *)
Definition coh_step (ode : pt -> R -> pt) (s : pt) (a : nat) : pt * R * bool :=
  let s' := ode s (nth a [-4; 4] 0) in
  if Rlt_dec (fst s') (-1) then (s', -1, true)
  else if Rlt_dec 3 (Rabs (snd s')) then (s', -1, true)
  else if Rlt_dec 1 (fst s') then (s', 1, true) (* the velocity test of line 65 holds here *)
  else (s', 0, false).

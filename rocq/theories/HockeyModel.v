(** Model of the task environments on the simulators: environments/mujoco_envs/ball_in_a_cup.py, mujoco_envs/air_hockey/*.py and
    pybullet_envs/air_hockey/*.py. The simulator only appears through its readings and contacts; constants are the ones of the code.
    None is a raised exception or NaN. *)
From Coq Require Import List Arith ZArith Lia Reals Bool.
From Verif Require Import Common MjModel.
Import ListNotations.
Local Open Scope R_scope.

Definition ltb (x y : R) : bool := if Rlt_dec x y then true else false.
Definition v2 := (R * R)%type.
Definition norm2 (v : v2) : R := sqrt (fst v * fst v + snd v * snd v).
Definition sub2 (a b : v2) : v2 := (fst a - fst b, snd a - snd b).
Definition dot2 (a b : v2) : R := fst a * fst b + snd a * snd b.
Definition clip01 (x : R) : R := Rmin (Rmax x 0) 1.
(** the table: half length, half width, half width of the goal; radius of the mallet (mujoco base.py 86-89, pybullet base.py 125-128) *)
Definition half_l : R := 98 / 100.
Definition half_w : R := 51 / 100.
Definition goal_w : R := 25 / 100.
Definition mallet_r : R := 5 / 100.

(** * Contact flags *)
(** _simulation_post_step (mujoco single.py 95-100, double.py 104-112): a flag is kept once it is set. The contacts after each simulator step are
    between puck and mallet 1, puck and mallet 2, puck and short sides. *)
Definition latch (flag now : bool) : bool := if negb flag then now else flag.
Definition single_post (f : bool * bool) (c : bool * bool * bool) : bool * bool :=
  (latch (fst f) (fst (fst c)), latch (snd f) (snd c)).
Definition double_post (f : bool * bool * bool) (c : bool * bool * bool) : bool * bool * bool :=
  (latch (fst (fst f)) (fst (fst c)), latch (snd (fst f)) (fst (fst c)), latch (snd f) (snd c)).
(** setup clears the flags (single.py 85-87, double.py 90-93); then the simulator steps of the episode *)
Definition single_episode (cs : list (bool * bool * bool)) : bool * bool := fold_left single_post cs (false, false).
Definition double_episode (cs : list (bool * bool * bool)) : bool * bool * bool := fold_left double_post cs (false, false, false).

(** * The puck in the observation (MuJoCo) *)
(** the readings of the free joint are position and quaternion, and linear velocity and angular velocity; the components kept after
    the removals (single.py 25-35, double.py 25-44) *)
Definition obs_puck_pos (qpos : list R) : list R := np_delete [2; 3; 4; 5; 6]%nat qpos.
Definition obs_puck_vel (qvel : list R) : list R := np_delete [2; 3; 4]%nat qvel.
(** get_puck (single.py 45-58, double.py 56-60): position, linear velocity, angular velocity *)
Definition get_puck (pos vel : list R) : list R * list R * R := (pos, tl vel, nth 0 vel 0).
(** _puck_2d_in_robot_frame (mujoco base.py 141-158); a frame is a rotation matrix and a translation, with the inverse of a rigid frame; z is 0 *)
Definition frame := ((nat -> nat -> R) * (nat -> R))%type.
Definition rotT (f : frame) (v : nat -> R) (i : nat) : R := fst f 0%nat i * v 0%nat + fst f 1%nat i * v 1%nat + fst f 2%nat i * v 2%nat.
Definition to_frame_pos (f : frame) (p : v2) : v2 :=
  let d := fun i => match i with O => fst p - snd f 0%nat | 1%nat => snd p - snd f 1%nat | _ => 0 - snd f 2%nat end in (rotT f d 0, rotT f d 1).
Definition to_frame_vel (f : frame) (v : list R) : list R :=
  match v with
  | [a; b; c] => let d := fun i => match i with O => b | 1%nat => c | _ => 0 end in [a; rotT f d 0; rotT f d 1]
  | _ => v
  end.

(** * Constraints (single.py 106-136, double.py 118-149) *)
Definition ee_constraints (ee : v2) : list R :=
  [- fst ee + - (half_l + mallet_r); - snd ee + - (half_w - mallet_r); snd ee - (half_w - mallet_r)].
Definition joint_pos_constraints (low high q_pos q_vel : list R) : list R :=
  map (fun p => fst p - snd p) (combine q_vel high) ++ map (fun p => fst p - snd p) (combine low q_vel).
Definition joint_vel_constraints (low high q_vel : list R) : list R :=
  map (fun p => fst p - snd p) (combine q_vel high) ++ map (fun p => fst p - snd p) (combine low q_vel).
(** the position of the mallet on the table: forward kinematics at the origin, moved by the base of the FIRST robot for every robot (single.py 111-114, double.py 126-129) *)
Definition constraint_ee (local : v2) : v2 := (fst local + - (151 / 100), snd local + 0).

(** * Absorbing states *)
(** AirHockeyBase.is_absorbing (mujoco base.py 132-139): puck position, norm of the observed velocity *)
Definition mj_out (p : v2) (speed : R) : bool := orb (orb (ltb half_l (Rabs (fst p))) (ltb half_w (Rabs (snd p)))) (ltb 100 speed).
(** AirHockeyBaseBullet.is_absorbing (pybullet base.py 143-162), with the height of the puck and the mallets; [term] is table_boundary_terminate *)
Definition off_table (e : v2) : bool := orb (ltb half_l (Rabs (fst e))) (ltb half_w (Rabs (snd e))).
Definition pb_out (p : v2) (z : R) (term : bool) (mallets : list v2) : bool :=
  orb (orb (off_table p) (ltb (5 / 100) (Rabs (z - - (189 / 1000))))) (andb term (existsb off_table mallets)).
(** Defend (mujoco defend.py 100-104), Prepare (prepare.py 121-135), Repel (repel.py 100-103); Hit has the base one *)
Definition defend_absorbing (out has_hit has_bounce : bool) (p : v2) : bool := if andb (orb has_hit has_bounce) (ltb 0 (fst p)) then true else out.
Definition prepare_absorbing (side out has_hit has_bounce : bool) (p : v2) : bool :=
  if out then true
  else if andb has_hit (orb (ltb 0 (fst p)) (ltb (Rabs (snd p)) (1 / 100))) then true
  else if side then has_bounce else false.
Definition repel_absorbing (out has_bounce : bool) : bool := if out then true else has_bounce.

(** * The hitting task *)
(** the bounce point and the two directions (mujoco hit.py 52-64, pybullet hit.py 62-73) *)
Definition eff_w : R := 51 / 100 - 3165 / 100000.
Definition goal_pos : v2 := (98 / 100, 0).
Definition copysign (x y : R) : R := if Rle_dec 0 y then Rabs x else - Rabs x.
Definition bounce_x (p : v2) : R :=
  (Rabs (snd p) * fst goal_pos + snd goal_pos * fst p - eff_w * fst p - eff_w * fst goal_pos) / (Rabs (snd p) + snd goal_pos - 2 * eff_w).
Definition side_point (p : v2) : v2 := (bounce_x p, copysign eff_w (snd p)).
Definition direction (a b : v2) : v2 := (fst (sub2 b a) / norm2 (sub2 b a), snd (sub2 b a) / norm2 (sub2 b a)).
Definition gauss (sig x : R) : R := 1 / (sqrt (2 * PI) * sig) * exp (- ((x / sig) ^ 2) / 2).
(** reward (hit.py 68-106); [v] is the first component of the velocity read, [an] the norm of the action *)
Definition scored (p : v2) : bool := andb (ltb 0 (fst p - half_l)) (ltb (Rabs (snd p) - goal_w) 0).
Definition approach (dirs : list v2) (p ee : v2) : option R :=
  let d := norm2 (sub2 p ee) in
  if Req_EM_T d 0 then None
  else let u := direction ee p in
       let c := fold_right Rmax 0 (map (fun w => clip01 (dot2 w u)) dirs) in
       Some (exp (- 8 * (d - 8 / 100)) * c ^ 2).
Definition hit_reward (pen an : R) (absorbing has_hit : bool) (vg vs p ee : v2) (v : R) : option R :=
  let r := if absorbing then Some (if scored p then 200 else 0)
           else if negb has_hit then approach [vg; vs] p ee
           else Some (2 * (1 / 4 + Rmin 1 (1 / 4 * v ^ 4)) + 10 * (if ltb (7 / 10) (fst p) then gauss (1 / 10) (snd p - 0) else 0)) in
  option_map (fun x => x - pen * an) r.
(** the reward of AirHockeyHit on the readings: the velocity is that of get_puck *)
Definition mj_hit_reward pen an absorbing has_hit vg vs p ee (qvel : list R) : option R :=
  let '(_, lin, _) := get_puck [] (obs_puck_vel qvel) in hit_reward pen an absorbing has_hit vg vs p ee (nth 0 lin 0).
(** AirHockeyHitBullet (pybullet hit.py 81-150): the velocity read in reward, is_absorbing and _simulation_post_step is that of the stored state, the one before the step;
    a mallet off the table costs 10 when [term] is set *)
Definition pb_hit_reward pen an (term absorbing has_hit : bool) vg vs p ee (v_old v_new : v2) : option R :=
  if andb absorbing (andb term (off_table ee)) then Some (-10 - pen * an) else hit_reward pen an absorbing has_hit vg vs p ee (fst v_old).
Definition pb_hit_post (has_hit : bool) (v_old : v2) : bool := if negb has_hit then ltb (1 / 10) (norm2 v_old) else has_hit.
Definition pb_hit_absorbing (out has_hit has_bounce : bool) (v_old : v2) : bool :=
  if out then true else if andb has_hit (ltb (norm2 v_old) (1 / 100)) then true else has_bounce.

(** * Defending, repelling, preparing *)
(** the reward of the waiting mallet (defend.py 83-94, repel.py 84-93) *)
Definition waiting (p ee : v2) : R := 3 / 10 * exp (- 3 * Rabs (- (6 / 10) - fst ee)) + 7 / 10 * (gauss (2 / 10) (Rabs (snd p - snd ee) - 8 / 100) / 2).
Definition conceded (p : v2) : bool := andb (ltb (fst p + half_l) 0) (ltb (Rabs (snd p) - goal_w) 0).
(** reward (defend.py 58-98); [speed] is the norm of the velocity read *)
Definition defend_reward (pen an : R) (absorbing has_hit has_bounce : bool) (p ee : v2) (speed : R) : R :=
  (if absorbing then (if conceded p then -50 else 0)
   else if has_bounce then -1
   else if has_hit then
     (if andb (ltb (- (8 / 10)) (fst p)) (ltb (fst p) (- (4 / 10)))
      then exp (- 5 * Rabs (fst p + 6 / 10)) + 3 * exp (- 3 * Rabs (snd p)) + 5 * exp (- (5 * speed) ^ 2) + 1 else 0)
   else waiting p ee) - pen * an.
(** reward (repel.py 61-97); [v] is the first component of the velocity read *)
Definition repel_reward (pen an : R) (absorbing has_hit : bool) (p ee : v2) (v : R) : R :=
  (if absorbing then (if conceded p then -50 else 0)
   else if has_hit then (fst p + 98 / 100) + Rmin (v ^ 3) 5 + 1 + (if ltb (9 / 10) (fst p) then 100 * exp (- 3 * Rabs (snd p)) else 0)
   else waiting p ee) - pen * an.
(** reward (prepare.py 55-119); [v] is the velocity read *)
Definition ee_end : v2 := (- (810001913 / 10 ^ 9), - (143459494 / 10 ^ 14)).
Definition prepare_reward (pen an : R) (side absorbing has_hit : bool) (p ee v : v2) : option R :=
  let bonus := Some (100 * exp (- 2 * norm2 v)) in
  let minus := option_map (fun x => x - pen * an) in
  if side then
    if andb absorbing (ltb (Rabs (snd p)) (47 / 100)) then bonus
    else minus (if has_hit then
                  if andb (ltb (fst p) (- (35 / 100))) (ltb (Rabs (snd p)) (47 / 100))
                  then Some (Rmax 0 (1 - 10 * (exp (Rabs (fst v)) - 1)) + (1 / 2 - norm2 (sub2 ee ee_end)) + 1) else Some 0
                else approach [(0, copysign 1 (snd p))] p ee)
  else
    if andb absorbing (negb (ltb (fst p) (- (6 / 10)))) then bonus
    else minus (if has_hit then
                  if andb (andb (ltb (fst p) (- (6 / 10))) (ltb (- (9 / 10)) (fst p))) (ltb (Rabs (snd p)) (47 / 100))
                  then Some (gauss (1 / 10) (fst p + 75 / 100) + (2 - Rabs (snd v)) + 1 / 2 * exp (- 3 * norm2 (sub2 ee ee_end)) + 1) else Some 0
                else approach [(2 / 10, copysign (8 / 10) (snd p)); (-1, 0)] p ee).

(** * Observations of the PyBullet tasks *)
(** _create_observation (pybullet single.py 50-81), without the flags: puck in the robot frame (2), puck velocity (3), joint positions (3), joint
    velocities (3); [noise] and [delay] are obs_noise and obs_delay, [draw] the noise, [prev] the last observation *)
Definition np_set_at (l : list R) (i : nat) (x : R) : option (list R) := if Nat.ltb i (length l) then Some (set_at i x l) else None.
Definition blend_half (a b : list R) : option (list R) :=
  if Nat.eqb (length a) (length b) then Some (map (fun p => 1 / 2 * fst p + (1 - 1 / 2) * snd p) (combine a b)) else None.
Definition slice (i j : nat) (l : list R) : list R := firstn (j - i) (skipn i l).
Definition pb_observation (noise delay : bool) (draw : list R) (prev : option (list R)) (f : frame) (p : v2) (lin_vel : list R) (wz : R) (q qd : list R) : option (list R) :=
  let pose := [fst (to_frame_pos f p); snd (to_frame_pos f p)] in
  let pose' := if noise then np_set_at pose 2 (nth 2 pose 0 + nth 2 draw 0) else Some pose in
  let rot := fun i => nth i lin_vel 0 in
  let vel := [rotT f rot 0; rotT f rot 1; wz] in
  let vels := if delay then match prev with
                            | None => None
                            | Some o => match blend_half vel (slice 2 6 o), blend_half qd (slice 8 11 o) with Some a, Some b => Some (a, b) | _, _ => None end
                            end
              else Some (vel, qd) in
  match pose', vels with Some a, Some (b, c) => Some (a ++ b ++ q ++ c) | _, _ => None end.
(** _modify_mdp_info (pybullet single.py 35-48): the declared limits of the puck position *)
Definition pb_puck_low : v2 := (-1, - (1 / 2)).
Definition pb_puck_high : v2 := (1, 1 / 2).
(** the frame of robot 1: no rotation, translation (-1.51, 0, 0) (pybullet base.py 72-75; mujoco planar_robot_1.xml) *)
Definition frame_1 : frame := ((fun i j => if Nat.eqb i j then 1 else 0), (fun i => match i with O => - (151 / 100) | _ => 0 end)).
(** the frame of robot 2: half a turn, translation (1.51, 0, 0) *)
Definition frame_2 : frame := ((fun i j => if Nat.eqb i j then (if Nat.eqb i 2 then 1 else -1) else 0), (fun i => match i with O => 151 / 100 | _ => 0 end)).
(** forward_kinematics (pybullet base.py 164-175) *)
Definition fk (q0 q1 q2 : R) : v2 :=
  (cos q0 * (5 / 10) + cos (q0 + q1) * (4 / 10) + cos (q0 + q1 + q2) * (4 / 10),
   sin q0 * (5 / 10) + sin (q0 + q1) * (4 / 10) + sin (q0 + q1 + q2) * (4 / 10)).

(** * Ball in a cup *)
Definition caught (dist : R) : bool := ltb dist (5 / 100).
(** reward and is_absorbing (ball_in_a_cup.py 63-69) *)
Definition cup_reward (dist : R) : R := if caught dist then 1 else 0.
Definition cup_absorbing (dist : R) (collision : bool) : bool := orb (caught dist) collision.
(** linear_movement (ball_in_a_cup.py 91-94), one joint *)
Definition linear_movement (start end_ : R) (n i : nat) : R := start + (end_ - start) * Rmin 1 (INR i / INR n).
(** reset (mujoco.py 110-118) with setup (ball_in_a_cup.py 71-89): the first time the controller runs and the result is stored *)
Definition cup_reset {D} (fresh : D) (controller : D -> D) (stored : option D) : D * option D :=
  match stored with None => let d := controller fresh in (d, Some d) | Some d => (d, stored) end.
Fixpoint cup_resets {D} (fresh : D) (controller : D -> D) (n : nat) (stored : option D) : list D :=
  match n with O => [] | S n' => let (d, st) := cup_reset fresh controller stored in d :: cup_resets fresh controller n' st end.

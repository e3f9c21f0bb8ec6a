(** Model of the PyBullet environment base class: environments/pybullet.py, utils/pybullet/index_map.py,
    utils/pybullet/contacts.py, utils/pybullet/joints_helper.py, utils/pybullet/observation.py.
    The simulator is arbitrary: a state type with reading functions. Names are numbers; a contact name `a<->b` is a number
    with its two halves. Viewers and file loading are not modelled. *)
From Coq Require Import List Arith ZArith Lia Reals Bool.
From Verif Require Import Common.
Import ListNotations.
Local Open Scope nat_scope.

(** observation.py 4-20 *)
Inductive pb_type := BodyPos | BodyLin | BodyAng | JntPos | JntVel | LinkPos | LinkLin | LinkAng | ContactFlag.
Definition pb_type_eqb (a b : pb_type) : bool :=
  match a, b with
  | BodyPos, BodyPos | BodyLin, BodyLin | BodyAng, BodyAng | JntPos, JntPos | JntVel, JntVel
  | LinkPos, LinkPos | LinkLin, LinkLin | LinkAng, LinkAng | ContactFlag, ContactFlag => true
  | _, _ => false
  end.

(** python dictionaries with numbers as keys *)
Definition dict (V : Type) := nat -> option V.
Definition dset {V} (d : dict V) (k : nat) (v : V) : dict V := fun k' => if Nat.eqb k' k then Some v else d k'.

(** getJointInfo: name, fixed or not, lower and upper limit, maximal force, maximal velocity, link name (fields 1, 2, 8, 9, 10, 11, 12) *)
Record jinfo := mkJ { j_name : nat; j_fixed : bool; j_low : R; j_high : R; j_force : R; j_vel : R; j_link : nat }.
(** the loaded models: the id and the joints in order *)
Definition models := list (nat * list jinfo).

(** _build_joint_and_link_maps (index_map.py 99-109): the last model with a name wins; the link of a joint has the id of the joint *)
Fixpoint joint_maps (m : nat) (j : nat) (js : list jinfo) (acc : dict (nat * nat) * dict (nat * Z)) : dict (nat * nat) * dict (nat * Z) :=
  match js with
  | [] => acc
  | i :: r => joint_maps m (S j) r ((if j_fixed i then fst acc else dset (fst acc) (j_name i) (m, j)), dset (snd acc) (j_link i) (m, Z.of_nat j))
  end.
Definition build_maps (ms : models) : dict (nat * nat) * dict (nat * Z) :=
  fold_left (fun acc mj => joint_maps (fst mj) 0 (snd mj) acc) ms ((fun _ => None), (fun _ => None)).
(** client.getJointInfo *)
Definition joint_info (ms : models) (mj : nat * nat) : option jinfo :=
  match find (fun e => Nat.eqb (fst e) (fst mj)) ms with Some e => nth_error (snd e) (snd mj) | None => None end.

(** * Actions *)
Inductive cmode := Position | Velocity | Torque.
(** _process_actuation_spec (index_map.py 111-134): names that are not joints are skipped *)
Fixpoint action_data (jm : dict (nat * nat)) (spec : list (nat * cmode)) : list (nat * nat * cmode) :=
  match spec with
  | [] => []
  | (n, c) :: r => match jm n with Some mj => (mj, c) :: action_data jm r | None => action_data jm r end
  end.
Definition mode_limits (c : cmode) (i : jinfo) : R * R :=
  match c with Position => (j_low i, j_high i) | Velocity => ((- j_vel i)%R, j_vel i) | Torque => ((- j_force i)%R, j_force i) end.
Fixpoint action_limits (ms : models) (data : list (nat * nat * cmode)) : option (list (R * R)) :=
  match data with
  | [] => Some []
  | (mj, c) :: r => match joint_info ms mj, action_limits ms r with Some i, Some l => Some (mode_limits c i :: l) | _, _ => None end
  end.
(** one call of setJointMotorControl2: target position / target velocity with maximal velocity and force, or a torque *)
Inductive command := CPos (target vmax force : R) | CVel (target vmax force : R) | CTorque (u : R).
Definition mode_command (c : cmode) (i : jinfo) (u : R) : command :=
  match c with Position => CPos u (j_vel i) (j_force i) | Velocity => CVel u (j_vel i) (j_force i) | Torque => CTorque u end.
(** apply_control (index_map.py 75-94): the commands sent; None when the action is too short *)
Fixpoint apply_control (ms : models) (data : list (nat * nat * cmode)) (action : list R) : option (list (nat * nat * command)) :=
  match data with
  | [] => Some []
  | (mj, c) :: r =>
      match action with
      | [] => None
      | u :: us => match joint_info ms mj, apply_control ms r us with Some i, Some l => Some ((mj, mode_command c i u) :: l) | _, _ => None end
      end
  end.

(** * Contacts *)
(** _get_link_ids (contacts.py 70-75) *)
Definition link_ids (lm : dict (nat * Z)) (mm : dict nat) (name : nat) : option (nat * Z) :=
  match lm name with Some x => Some x | None => match mm name with Some m => Some (m, (-1)%Z) | None => None end end.
(** _order_contact (contacts.py 77-90) *)
Definition order_contact (c : (nat * nat) * (Z * Z)) : (nat * nat) * (Z * Z) :=
  let '((m1, m2), (l1, l2)) := c in if Nat.ltb m1 m2 then ((m1, m2), (l1, l2)) else ((m2, m1), (l2, l1)).
Definition zpair_eqb (a b : Z * Z) : bool := andb (Z.eqb (fst a) (fst b)) (Z.eqb (snd a) (snd b)).
Definition npair_eqb (a b : nat * nat) : bool := andb (Nat.eqb (fst a) (fst b)) (Nat.eqb (snd a) (snd b)).
(** _add_contact (contacts.py 36-56): the links are appended to the first entry of the two models that does not have them *)
Fixpoint add_contact (cl : list ((nat * nat) * list (Z * Z))) (c : (nat * nat) * (Z * Z)) : list ((nat * nat) * list (Z * Z)) :=
  match cl with
  | [] => [(fst c, [snd c])]
  | e :: r => if andb (npair_eqb (fst e) (fst c)) (negb (existsb (zpair_eqb (snd c)) (snd e))) then (fst e, snd e ++ [snd c]) :: r else e :: add_contact r c
  end.
(** ContactHelper.__init__ (contacts.py 2-16): the ids of every contact name and the list of links per pair of models *)
Fixpoint contact_ids (lm : dict (nat * Z)) (mm : dict nat) (split : nat -> nat * nat) (names : list nat) : option (list (nat * ((nat * nat) * (Z * Z)))) :=
  match names with
  | [] => Some []
  | n :: r =>
      match link_ids lm mm (fst (split n)), link_ids lm mm (snd (split n)), contact_ids lm mm split r with
      | Some (m1, l1), Some (m2, l2), Some x => Some ((n, ((m1, m2), (l1, l2))) :: x)
      | _, _, _ => None
      end
  end.
Definition contact_list (ids : list (nat * ((nat * nat) * (Z * Z)))) : list ((nat * nat) * list (Z * Z)) :=
  fold_left (fun cl e => add_contact cl (order_contact (snd e))) ids [].
(** _computed_contacts: by models and links; the value is the last contact point found *)
Definition computed (P : Type) := (nat * nat) * (Z * Z) -> option (option P).
Definition cset {P} (d : computed P) (k : (nat * nat) * (Z * Z)) (v : option P) : computed P :=
  fun k' => if andb (npair_eqb (fst k') (fst k)) (zpair_eqb (snd k') (snd k)) then Some v else d k'.
(** _reset_computed_contacts (contacts.py 58-68) *)
Definition reset_contacts {P} (ids : list (nat * ((nat * nat) * (Z * Z)))) (d : computed P) : computed P :=
  fold_left (fun d e => cset d (order_contact (snd e)) None) ids d.
(** compute_contacts (contacts.py 18-30); points a b are the links and the rest of each contact point between two models *)
Definition compute_contacts {P} (points : nat -> nat -> list ((Z * Z) * P)) (ids : list (nat * ((nat * nat) * (Z * Z)))) (d : computed P) : computed P :=
  match contact_list ids with
  | [] => d
  | cl => fold_left (fun d e => fold_left (fun d p => if existsb (zpair_eqb (fst p)) (snd e) then cset d (fst e, fst p) (Some (snd p)) else d) (points (fst (fst e)) (snd (fst e))) d)
            cl (reset_contacts ids d)
  end.
(** get_contact (contacts.py 32-34); the dictionary of names keeps the last entry of a name, and equal names have equal ids; None is a KeyError *)
Definition get_contact {P} (ids : list (nat * ((nat * nat) * (Z * Z)))) (d : computed P) (name : nat) : option (option P) :=
  match find (fun e => Nat.eqb (fst e) name) ids with Some e => d (order_contact (snd e)) | None => None end.

(** * Observations *)
Section Obs.
Context {W P : Type}.
(** the readings: base position and orientation, base velocities, link states, joint states, contact points *)
Variables (body_pos body_lin body_ang : W -> nat -> list R).
Variables (link_pos link_lin link_ang : W -> nat * Z -> list R).
Variables (joint_pos joint_vel : W -> nat * nat -> R).
Variable points : W -> nat -> nat -> list ((Z * Z) * P).
Variable ms : models.
Variable mm : dict nat.
Variable split : nat -> nat * nat.

(** create_sim_state (index_map.py 35-73): one entry, given the computed contacts *)
Definition read_entry (w : W) (ids : list (nat * ((nat * nat) * (Z * Z)))) (cc : computed P) (e : nat * pb_type) : option (list R) :=
  let (jm, lm) := build_maps ms in
  match snd e with
  | BodyPos => option_map (body_pos w) (mm (fst e))
  | BodyLin => option_map (body_lin w) (mm (fst e))
  | BodyAng => option_map (body_ang w) (mm (fst e))
  | LinkPos => option_map (link_pos w) (lm (fst e))
  | LinkLin => option_map (link_lin w) (lm (fst e))
  | LinkAng => option_map (link_ang w) (lm (fst e))
  | JntPos => option_map (fun x => [joint_pos w x]) (jm (fst e))
  | JntVel => option_map (fun x => [joint_vel w x]) (jm (fst e))
  | ContactFlag => option_map (fun c => match c with None => [0%R] | Some _ => [1%R] end) (get_contact ids cc (fst e))
  end.
Fixpoint read_all (w : W) ids (cc : computed P) (spec : list (nat * pb_type)) : option (list R) :=
  match spec with
  | [] => Some []
  | e :: r => match read_entry w ids cc e, read_all w ids cc r with Some x, Some y => Some (x ++ y) | _, _ => None end
  end.
(** the contact names of the specification (index_map.py 17-19) *)
Definition contact_names (spec : list (nat * pb_type)) : list nat := map fst (filter (fun e => pb_type_eqb (snd e) ContactFlag) spec).
Definition spec_contacts (spec : list (nat * pb_type)) := contact_ids (snd (build_maps ms)) mm split (contact_names spec).
Definition create_sim_state (w : W) (spec : list (nat * pb_type)) (cc : computed P) : option (list R) :=
  match spec_contacts spec with Some ids => read_all w ids (compute_contacts (points w) ids cc) spec | None => None end.

(** _process_observations (index_map.py 136-176); None in a limit is infinity, the result None is a KeyError *)
Definition entry_lims (e : nat * pb_type) : option (list (option R * option R)) :=
  match snd e with
  | BodyPos | LinkPos => Some (repeat (None, None) 7)
  | BodyLin | BodyAng | LinkLin | LinkAng => Some (repeat (None, None) 3)
  | JntPos => match fst (build_maps ms) (fst e) with
              | Some mj => option_map (fun i => [(Some (j_low i), Some (j_high i))]) (joint_info ms mj) | None => None end
  | JntVel => match fst (build_maps ms) (fst e) with
              | Some mj => option_map (fun i => [(Some (- j_vel i)%R, Some (j_vel i))]) (joint_info ms mj) | None => None end
  | ContactFlag => Some [(Some 0%R, Some 1%R)]
  end.
(** observation_indices_map *)
Definition imap := nat -> pb_type -> option (list nat).
Definition iset (d : imap) (n : nat) (t : pb_type) (v : list nat) : imap :=
  fun n' t' => if andb (Nat.eqb n' n) (pb_type_eqb t' t) then Some v else d n' t'.
Fixpoint process (spec : list (nat * pb_type)) (lims : list (option R * option R)) (d : imap) : option (list (option R * option R) * imap) :=
  match spec with
  | [] => Some (lims, d)
  | e :: r => match entry_lims e with
              | Some l => process r (lims ++ l) (iset d (fst e) (snd e) (seq (length lims) (length (lims ++ l) - length lims)))
              | None => None
              end
  end.
Definition process_observations (spec : list (nat * pb_type)) := process spec [] (fun _ _ => None).

(** fancy indexing *)
Fixpoint gather (obs : list R) (idx : list nat) : option (list R) :=
  match idx with
  | [] => Some []
  | i :: r => match nth_error obs i, gather obs r with Some x, Some l => Some (x :: l) | _, _ => None end
  end.
(** get_sim_state (pybullet.py 133-148) *)
Definition get_sim_state (d : imap) (obs : list R) (n : nat) (t : pb_type) : option (list R) :=
  match d n t with Some idx => gather obs idx | None => None end.
(** JointsHelper.__init__ (joints_helper.py 6-33): the first index of each entry of a type *)
Fixpoint joint_idx (d : imap) (t : pb_type) (spec : list (nat * pb_type)) : option (list nat) :=
  match spec with
  | [] => Some []
  | e :: r =>
      match d (fst e) (snd e), joint_idx d t r with
      | Some idx, Some l => if pb_type_eqb (snd e) t then match idx with i :: _ => Some (i :: l) | [] => None end else Some l
      | _, _ => None
      end
  end.
(** positions, velocities (joints_helper.py 35-39) *)
Definition joints_get (d : imap) (t : pb_type) (spec : list (nat * pb_type)) (obs : list R) : option (list R) :=
  match joint_idx d t spec with Some idx => gather obs idx | None => None end.
End Obs.

(** * The environment *)
Section Env.
Context {W Ob A U : Type}.
Variables (simulate : W -> W) (control : W -> U -> W) (sim_state : W -> Ob).
Variables (preprocess : A -> A) (compute : Ob -> A -> U).
Variables (absorbing : Ob -> bool) (reward : Ob -> A -> Ob -> bool -> R).
Variable n_int : nat.
(** the loop of step (pybullet.py 111-122), with empty hooks *)
Fixpoint pb_loop (n : nat) (w : W) (o : Ob) (a : A) : W * Ob :=
  match n with
  | O => (w, o)
  | S n' => let w' := simulate (control w (compute o a)) in pb_loop n' w' (sim_state w') a
  end.
(** step (pybullet.py 103-133): world, stored state, reward, absorbing *)
Definition pb_step (w : W) (st : Ob) (a : A) : W * Ob * R * bool :=
  let act := preprocess a in
  let (w', o) := pb_loop n_int w st act in
  let ab := absorbing o in
  (w', o, reward st act o ab, ab).
(** reset (pybullet.py 85-91): the saved world, then setup *)
Definition pb_reset {X} (initial : W) (setup : W -> X -> W) (w : W) (x : X) : W * Ob := let w' := setup initial x in (w', sim_state w').
End Env.
(** dt (pybullet.py 303-304) *)
Definition pb_dt (timestep : R) (n_int : nat) : R := (timestep * INR n_int)%R.
(** the constructor's assertion (pybullet.py 45-46) *)
Definition pb_accepts {X Y} (actuation : list X) (observation : list Y) : bool :=
  andb (Nat.ltb 0 (length observation)) (Nat.ltb 0 (length actuation)).

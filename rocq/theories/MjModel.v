(** MuJoCo environments (mushroom_rl/environments/mujoco.py) and their ObservationHelper (mushroom_rl/utils/mujoco/observation_helper.py).
    The simulator is an oracle: its data is an arbitrary state, or, for the helper, the list of the arrays get_state returns for the entries of
    the specification. Keys are numbers. An infinite limit is None. *)
From Coq Require Import List Arith ZArith Lia Reals Bool.
From Verif Require Import Common.
Import ListNotations.
Local Open Scope R_scope.

(** ** ObservationHelper *)
(** the observation types that matter: joint positions with the range of a limited joint, joint velocities, the rest *)
Inductive otype := JointPos (range : option (R * R)) | JointVel | OtherType.
(** an entry of the specification: key, type, length of get_state, and whether get_state returns a view of the simulator data
    (everything but body velocities, observation_helper.py 185-212) *)
Record entry := mkEntry { e_key : nat; e_type : otype; e_width : nat; e_view : bool }.
Record helper := mkH { h_low : list (option R); h_high : list (option R); h_jp : list nat; h_jv : list nat;
                       h_idx : list (nat * list nat); h_omit : list (nat * list nat) }.
Fixpoint assoc {V} (l : list (nat * V)) (k : nat) : option V :=
  match l with [] => None | (k', v) :: r => if Nat.eqb k' k then Some v else assoc r k end.
Definition mem_key {V} (l : list (nat * V)) (k : nat) : bool := match assoc l k with Some _ => true | None => false end.

(** the loop of the constructor (observation_helper.py 53-82); None: duplicate key, or too few maximal velocities (StopIteration) *)
Fixpoint helper_loop (spec : list entry) (vmax : option (list R)) (cur : nat) (h : helper) : option helper :=
  match spec with
  | [] => Some h
  | e :: r =>
      if mem_key (h_idx h) (e_key e) then None else
      let n := e_width e in
      let idx := h_idx h ++ [(e_key e, seq cur n)] in
      let om := h_omit h ++ [(e_key e, [])] in
      match e_type e, Nat.eqb n 1 with
      | JointPos rg, true =>
          helper_loop r vmax (cur + n)
            (mkH (h_low h ++ [option_map fst rg]) (h_high h ++ [option_map snd rg]) (h_jp h ++ [cur]) (h_jv h) idx om)
      | JointVel, true =>
          match vmax with
          | None => helper_loop r vmax (cur + n) (mkH (h_low h ++ [None]) (h_high h ++ [None]) (h_jp h) (h_jv h ++ [cur]) idx om)
          | Some (v :: vs) => helper_loop r (Some vs) (cur + n) (mkH (h_low h ++ [Some (- v)]) (h_high h ++ [Some v]) (h_jp h) (h_jv h ++ [cur]) idx om)
          | Some [] => None
          end
      | _, _ => helper_loop r vmax (cur + n) (mkH (h_low h ++ repeat None n) (h_high h ++ repeat None n) (h_jp h) (h_jv h) idx om)
      end
  end.
Definition helper_init (spec : list entry) (vmax : option (list R)) : option helper :=
  match spec with [] => None | _ => helper_loop spec vmax 0 (mkH [] [] [] [] [] []) end.

(** list.pop / np.delete of one position *)
Definition del {A} (p : nat) (l : list A) : list A := firstn p l ++ skipn (S p) l.
Definition shift (c i : nat) : nat := if Nat.ltb c i then i - 1 else i.
Definition upd_key {V} (k : nat) (f : V -> V) (l : list (nat * V)) : list (nat * V) :=
  map (fun kv => if Nat.eqb (fst kv) k then (fst kv, f (snd kv)) else kv) l.
(** a python index that may be negative *)
Definition py_index (i : Z) (n : nat) : option nat :=
  if andb (Z.leb 0 i) (Z.ltb i (Z.of_nat n)) then Some (Z.to_nat i)
  else if andb (Z.ltb i 0) (Z.leb 0 (i + Z.of_nat n)) then Some (Z.to_nat (i + Z.of_nat n)) else None.
(** remove_obs (observation_helper.py 87-114) *)
Definition remove_obs (h : helper) (key index : nat) : option helper :=
  match assoc (h_idx h) key, assoc (h_omit h) key with
  | Some indices, Some om =>
      match py_index (Z.of_nat index - Z.of_nat (length om)) (length indices) with
      | Some p =>
          let c := nth p indices 0%nat in
          Some (mkH (del c (h_low h)) (del c (h_high h)) (map (shift c) (h_jp h)) (map (shift c) (h_jv h))
                    (map (fun kv => (fst kv, map (shift c) (snd kv))) (upd_key key (del p) (h_idx h)))
                    (upd_key key (fun l => l ++ [index]) (h_omit h)))
      | None => None
      end
  | _, _ => None
  end.
(** add_obs with number limits (observation_helper.py 116-132); a new key goes to the end of the dictionary *)
Definition add_obs (h : helper) (key n : nat) (lo hi : option R) : helper :=
  let range := seq (length (h_low h)) n in
  mkH (h_low h ++ repeat lo n) (h_high h ++ repeat hi n) (h_jp h) (h_jv h)
      (if mem_key (h_idx h) key then upd_key key (fun _ => range) (h_idx h) else h_idx h ++ [(key, range)]) (h_omit h).

(** np.delete with a list of positions *)
Definition np_delete {A} (om : list nat) (l : list A) : list A :=
  map snd (filter (fun p => negb (existsb (Nat.eqb (fst p)) om)) (combine (seq 0 (length l)) l)).
Definition omit_of (h : helper) (k : nat) : list nat := match assoc (h_omit h) k with Some l => l | None => [] end.
(** _build_obs (observation_helper.py 153-170): [data] has one array per entry *)
Definition build_obs (spec : list entry) (h : helper) (data : list (list R)) : list R :=
  concat (map (fun ed => np_delete (omit_of h (e_key (fst ed))) (snd ed)) (combine spec data)).
(** get_from_obs (observation_helper.py 134-137): a slice; None is the IndexError of an empty index list or KeyError *)
Definition get_from_obs (h : helper) (obs : list R) (key : nat) : option (list R) :=
  match assoc (h_idx h) key with
  | Some (i :: r) => Some (firstn (last (i :: r) 0%nat + 1 - i) (skipn i obs))
  | _ => None
  end.
Definition joint_pos (h : helper) (obs : list R) : list R := map (fun i => nth i obs 0) (h_jp h).
Definition joint_vel (h : helper) (obs : list R) : list R := map (fun i => nth i obs 0) (h_jv h).

(** _modify_data (observation_helper.py 172-184): one entry; positions [i], [i+1], ... of the array; the rest of the observation is returned.
    None: the observation is too short. *)
Fixpoint write_entry (om : list nat) (i : nat) (cur obs : list R) : option (list R * list R) :=
  match cur with
  | [] => Some ([], obs)
  | x :: cur' =>
      if existsb (Nat.eqb i) om
      then match write_entry om (S i) cur' obs with Some (c, o) => Some (x :: c, o) | None => None end
      else match obs with
           | [] => None
           | y :: obs' => match write_entry om (S i) cur' obs' with Some (c, o) => Some (y :: c, o) | None => None end
           end
  end.
(** an entry that is not a view is a fresh array: what is written to it is lost *)
Fixpoint modify_data (spec : list entry) (h : helper) (data : list (list R)) (obs : list R) : option (list (list R)) :=
  match spec, data with
  | e :: r, d :: ds =>
      match write_entry (omit_of h (e_key e)) 0 d obs with
      | Some (d', obs') => match modify_data r h ds obs' with Some ds' => Some ((if e_view e then d' else d) :: ds') | None => None end
      | None => None
      end
  | _, _ => Some []
  end.

(** ** MuJoCo.step (mujoco.py 126-161) *)
Section Step.
Context {D Ob A U : Type}.
Variable mj_step : D -> nat -> D.                  (* mujoco.mj_step with n substeps *)
Variable set_ctrl : D -> U -> D.                   (* data.ctrl[action_indices] = u *)
Variable observe : D -> Ob.                         (* _create_observation(_build_obs) *)
Variable preprocess : A -> A.
Variable compute : Ob -> A -> U.                    (* _compute_action *)
Variable absorbing : Ob -> bool.
Variable reward : Ob -> A -> Ob -> bool -> R.
Variables (recompute : bool) (n_intermediate n_substeps : nat).

(** [first]: ctrl_action is None *)
Fixpoint mj_loop (n : nat) (first : bool) (d : D) (o : Ob) (a : A) : D * Ob :=
  match n with
  | O => (d, o)
  | S n' =>
      let d1 := if orb recompute first then set_ctrl d (compute o a) else d in
      let d2 := mj_step d1 n_substeps in
      mj_loop n' false d2 (if recompute then observe d2 else o) a
  end.
Definition mj_env_step (d : D) (obs : Ob) (action : A) : D * Ob * R * bool :=
  let a := preprocess action in
  let '(d', o) := mj_loop n_intermediate true d obs a in
  let o' := if recompute then o else observe d' in
  let ab := absorbing o' in (d', o', reward obs a o' ab, ab).
End Step.
Definition mj_dt (timestep : R) (n_intermediate n_substeps : nat) : R := timestep * INR n_intermediate * INR n_substeps.

(** data.ctrl[action_indices] = u: the other actuators are untouched *)
Fixpoint set_at {V} (i : nat) (v : V) (l : list V) : list V :=
  match l, i with [], _ => [] | _ :: r, O => v :: r | x :: r, S j => x :: set_at j v r end.
Definition write_ctrl {V} (idx : list nat) (u : list V) (ctrl : list V) : list V :=
  fold_left (fun c iu => set_at (fst iu) (snd iu) c) (combine idx u) ctrl.

(** _check_collision (mujoco.py 330-361), contacts as pairs of geom ids; _get_collision_force (mujoco.py 363-399): the force of the first contact *)
Definition in_group (g : list nat) (x : nat) : bool := existsb (Nat.eqb x) g.
Definition touches (g1 g2 : list nat) (c : nat * nat) : bool :=
  orb (andb (in_group g1 (fst c)) (in_group g2 (snd c))) (andb (in_group g2 (fst c)) (in_group g1 (snd c))).
Definition check_collision (g1 g2 : list nat) (contacts : list (nat * nat)) : bool := existsb (touches g1 g2) contacts.
Definition collision_force {F} (zero : F) (g1 g2 : list nat) (contacts : list ((nat * nat) * F)) : F :=
  match find (fun c => touches g1 g2 (fst c)) contacts with Some c => snd c | None => zero end.

(** ** MultiMuJoCo (mujoco.py 528-720) *)
Section Multi.
Context {D : Type}.
(** mj_resetData: the data of a model after a reset, which is also that of a new MjData; [setup i d]: what setup(obs) does *)
Variable pristine : nat -> D.
Variable setup : nat -> D -> D.
Variable n : nat.                                 (* number of models *)
Record multi := mkMulti { mm_cur : nat; mm_datas : list D }.
Definition multi_init : multi := mkMulti 0 (map pristine (seq 0 n)).
(** next index (mujoco.py 669-673): the draw, or the next one *)
Definition next_model (random : option nat) (cur : nat) : nat :=
  match random with Some k => k | None => if Nat.ltb cur (n - 1) then cur + 1 else 0 end.
(** reset (mujoco.py 666-685): the data of the old model is reset, then the model is switched, then setup *)
Definition multi_reset (m : multi) (random : option nat) : multi :=
  let ds := set_at (mm_cur m) (pristine (mm_cur m)) (mm_datas m) in
  let k := next_model random (mm_cur m) in
  match nth_error ds k with
  | Some d => mkMulti k (set_at k (setup k d) ds)
  | None => m
  end.
(** the data of the current model changes during an episode *)
Definition multi_run (m : multi) (d : D) : multi := mkMulti (mm_cur m) (set_at (mm_cur m) d (mm_datas m)).
End Multi.
(** the timesteps of the simulators after the constructor (mujoco.py 575-580): only the first model gets the requested one; the declared one *)
Definition multi_timesteps (given : option R) (xml : list R) : list R * R :=
  match given with
  | Some t => (match xml with _ :: r => t :: r | [] => [] end, t)
  | None => (xml, nth 0 xml 0)
  end.
(** the check of the observation limits (mujoco.py 622-627): both sides are those of the first helper *)
Definition multi_limits_check {L} (eqb : L -> L -> bool) (limits : list L) : bool :=
  match limits with [] => true | l0 :: _ => forallb (fun _ => eqb l0 l0) limits end.
(** `state, info = env.reset()` when reset returns a bare observation (mujoco.py 685) *)
Definition unpack2 (obs : list R) : option (R * R) := match obs with [x; y] => Some (x, y) | _ => None end.
(** _get_env_id_map (mujoco.py 691-720); the float logarithm is idealised, the index is one of the models *)
Definition id_bits (n_models : nat) : nat := 1 + Nat.log2 (Nat.max n_models 2 - 1).
Definition env_id_map (cur n_models : nat) : list nat :=
  map (fun j => if Nat.testbit cur (id_bits n_models - 1 - j) then 1%nat else 0%nat) (seq 0 (id_bits n_models)).

(** Wrappers of external simulators (mushroom_rl/environments/gym_env.py, gymnasium_env.py, minigrid_env.py, dm_control_env.py).
    The simulator itself (the innermost environment) is an arbitrary transition system. What gym.make and the user put around it is
    a list of layers, outermost first. A layer is a TimeLimit, which is the one that has the private attribute _max_episode_steps
    (gym and gymnasium do not forward private attributes to the inner environment), or something that changes neither
    observations nor flags. Attributes written on a layer stay on that layer. *)
From Coq Require Import List Arith Lia Reals Bool.
From Verif Require Import Common.
Import ListNotations.
Local Open Scope R_scope.

(** a step limit: None is np.inf *)
Definition limit := option nat.
Definition reached (m : limit) (n : nat) : bool := match m with Some k => Nat.leb k n | None => false end.

Section Gym.
Context {S A O : Type}.
Variable core_reset : S -> S * O.                     (* env.unwrapped.reset *)
Variable core_step : S -> A -> S * O * R * bool.      (* env.unwrapped.step *)

(** [Plain own]: [own] is an attribute `state` written on the wrapper object itself; [Limit m e own]: TimeLimit with e elapsed steps *)
Inductive layer := Plain (own : option S) | Limit (m : limit) (e : nat) (own : option S).

(** step through the layers: the flag of the inner environment comes first, each TimeLimit counts and may end the episode.
    The second flag is `truncated`, that only the gymnasium API keeps apart. *)
Fixpoint layers_step (ls : list layer) : list layer * bool :=
  match ls with
  | [] => ([], false)
  | Plain w :: r => let '(r', t) := layers_step r in (Plain w :: r', t)
  | Limit m e w :: r => let '(r', t) := layers_step r in (Limit m (e + 1) w :: r', orb t (reached m (e + 1)))
  end.
Definition layer_reset (l : layer) : layer := match l with Plain w => Plain w | Limit m _ w => Limit m 0 w end.

Record env := mkE { e_layers : list layer; e_core : S }.

(** Gym._set_horizon (gym_env.py 116-131): the outermost layer with a limit, or the last wrapper. None: an exception, when there is no
    wrapper at all (env.env) or no limit and no horizon. *)
Fixpoint gym_set_horizon (ls : list layer) (h : option limit) : option (limit * list layer) :=
  match ls with
  | [] => None
  | Limit m e w :: r => Some (match h with Some H => H | None => m end, Limit None e w :: r)
  | [Plain w] => match h with Some H => Some (H, ls) | None => None end
  | Plain w :: r => match gym_set_horizon r h with Some (H, r') => Some (H, Plain w :: r') | None => None end
  end.
(** Gymnasium._set_horizon (gymnasium_env.py 129-148): an infinite default becomes 10000, and the limit is set to the horizon *)
Definition default_horizon (m : limit) : limit := match m with Some k => Some k | None => Some (Z.to_nat 10000) end.
Fixpoint gymnasium_set_horizon (ls : list layer) (h : option limit) : option (limit * list layer) :=
  match ls with
  | [] => None
  | Limit m e w :: r => let H := match h with Some H => H | None => default_horizon m end in Some (H, Limit H e w :: r)
  | [Plain w] => match h with Some H => Some (H, ls) | None => None end
  | Plain w :: r => match gymnasium_set_horizon r h with Some (H, r') => Some (H, Plain w :: r') | None => None end
  end.

(** what reset returns: the observation of the simulator, or the state that was passed *)
Inductive shown := Obs (o : O) | Given (s : S).
(** self.env.state = state *)
Definition set_state (e : env) (s : S) : env :=
  match e_layers e with
  | [] => mkE [] s
  | Plain _ :: r => mkE (Plain (Some s) :: r) (e_core e)
  | Limit m k _ :: r => mkE (Limit m k (Some s) :: r) (e_core e)
  end.
(** Gym.reset (gym_env.py 81-88), Gymnasium.reset (gymnasium_env.py 87-95) *)
Definition gym_reset (e : env) (state : option S) : env * shown :=
  let '(c, o) := core_reset (e_core e) in
  let e1 := mkE (map layer_reset (e_layers e)) c in
  match state with None => (e1, Obs o) | Some s => (set_state e1 s, Given s) end.

(** Gym.step (gym_env.py 90-94): the flag of the outermost layer *)
Definition gym_step (e : env) (a : A) : env * O * R * bool :=
  let '(c, o, r, d) := core_step (e_core e) a in
  let '(ls, t) := layers_step (e_layers e) in (mkE ls c, o, r, orb d t).
(** Gymnasium.step (gymnasium_env.py 97-101): the truncated flag is ignored *)
Definition gymnasium_step (e : env) (a : A) : env * O * R * bool :=
  let '(c, o, r, d) := core_step (e_core e) a in
  let '(ls, t) := layers_step (e_layers e) in (mkE ls c, o, r, d).
End Gym.
Arguments layer : clear implicits.
Arguments env : clear implicits.

(** _convert_action (gym_env.py 74-77): a discrete action is the first entry of the array, an empty array raises *)
Definition convert_action {A} (discrete : bool) (a : list A) : option (A + list A) :=
  if discrete then match a with x :: _ => Some (inl x) | [] => None end else Some (inr a).

Section MiniGrid.
Context {S F P : Type}.
(** the grid world: [mg_raw] moves, the limit and the counter are attributes of the innermost environment, which ends the
    episode when the counter reaches max_steps *)
Variable mg_raw : S -> nat -> S * F * R * bool.
Variable mg_new : S -> S * F.
Variable prep : F -> P.
Variable h : nat.
(** [m_outer]: attribute max_steps of the outermost wrapper; [m_seed]: self._fixed_seed *)
Record minigrid := mkM { m_core : S; m_count : nat; m_max : nat; m_outer : option nat; m_frames : list P; m_seed : option nat }.
(** constructor (minigrid_env.py 47-74): reading max_steps goes through to the grid world, writing stays on the wrapper *)
Definition mg_make (s : S) (max : nat) (horizon seed : option nat) : minigrid * nat :=
  let H := match horizon with Some H => H | None => max end in (mkM s 0 max (Some (H + 1)) [] seed, H)%nat.
(** reset (minigrid_env.py 78-84) *)
Definition mg_reset (e : minigrid) : minigrid :=
  let '(s, f) := mg_new (m_core e) in mkM s 0 (m_max e) (m_outer e) (repeat (prep f) h) (m_seed e).
(** step (minigrid_env.py 86-95) *)
Definition mg_step (e : minigrid) (a : nat) : minigrid * R * bool :=
  let '(s, f, r, d) := mg_raw (m_core e) a in
  (mkM s (m_count e + 1) (m_max e) (m_outer e) (lastn h (m_frames e ++ [prep f])) (m_seed e),
   if Rlt_dec 0 r then 1 else r, orb d (Nat.leb (m_max e) (m_count e + 1))).
End MiniGrid.
Arguments minigrid : clear implicits.
Arguments m_core {S P}. Arguments m_count {S P}. Arguments m_max {S P}. Arguments m_outer {S P}. Arguments m_frames {S P}. Arguments m_seed {S P}.
Arguments mkM {S P}. Arguments mg_make {S P}.

(** DMControl: the observation is an ordered dictionary of arrays; an array is its shape and its flattened data.
    _convert_observation_space_vector (dm_control_env.py 104-113) and _convert_observation_vector (dm_control_env.py 129-134) *)
Definition dm_size (spec : list (list nat)) : nat := fold_left (fun n sh => n + fold_left Nat.mul sh 1)%nat spec 0%nat.
Definition dm_vector {V} (obs : list (list nat * list V)) : list V := concat (map snd obs).

(** DMControl.step (dm_control_env.py 83-91): absorbing is step.last(), true when the task ends the episode or when the step limit of the
    environment is reached; with pixels the limit written by the constructor (line 53) stays on the wrapper *)
Record dm := mkDM { dm_limit : limit; dm_count : nat }.
Definition dm_make (use_pixels : bool) (step_limit : limit) (horizon : option limit) : dm * limit :=
  (mkDM (if use_pixels then step_limit else None) 0, match horizon with Some H => H | None => step_limit end).
Definition dm_step (e : dm) (task_end : bool) : dm * bool :=
  (mkDM (dm_limit e) (dm_count e + 1), orb task_end (reached (dm_limit e) (dm_count e + 1))).

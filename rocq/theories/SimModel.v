(** Model of the wrappers of Habitat (environments/habitat_env.py), iGibson (environments/igibson_env.py) and Isaac (environments/isaac_env.py,
    utils/isaac_utils.py). The simulators are oracles; what is modelled is the data passed to and from them. None is a raised exception. *)
From Coq Require Import List Arith Reals Bool Lia.
From Verif Require Import Common.
Import ListNotations.
Local Open Scope nat_scope.

(** * Images *)
(** an image: height, width, channels and a value by row, column, channel *)
Record image := mkImg { i_h : nat; i_w : nat; i_c : nat; i_px : nat -> nat -> nat -> R }.
(** observation.transpose((2, 0, 1)) (habitat_env.py 276-278, igibson_env.py 137-139): shape and values by channel, row, column *)
Definition obs_shape (im : image) : list nat := [i_c im; i_h im; i_w im].
Definition obs_at (im : image) (c i j : nat) : R := i_px im i j c.
(** the declared observation space (habitat_env.py 233-240, igibson_env.py 94-101): _img_size is the first two dimensions of the image *)
Definition declared_shape (im : image) : list nat := let size := (i_h im, i_w im) in [3; snd size; fst size].
(** iGibsonWrapper.observation (igibson_env.py 28-29) *)
Definition ig_image (im : image) : image := mkImg (i_h im) (i_w im) (i_c im) (fun i j c => i_px im i j c * 255)%R.

(** * Actions *)
(** the action handed to the simulator: Habitat navigation takes the first entry (habitat_env.py 57-58), iGibson gives the array, because its
    gym space is not the Discrete of MushroomRL (igibson_env.py 103-106) *)
Inductive sim_action := Index (a : nat) | Array (l : list nat).
Definition nav_action (a : list nat) : option sim_action := match a with x :: _ => Some (Index x) | [] => None end.
Definition ig_action (a : list nat) : option sim_action := Some (Array a).
(** HabitatRearrangeWrapper.step (habitat_env.py 160-162): action[:-g], action[-g:] in python slicing *)
Definition py_init {A} (l : list A) (g : nat) : list A := if Nat.eqb g 0 then [] else firstn (length l - g) l.
Definition py_last {A} (l : list A) (g : nat) : list A := if Nat.eqb g 0 then l else skipn (length l - g) l.
Definition rearrange_action {A} (g : nat) (l : list A) : list A * list A := (py_init l g, py_last l g).

(** * Step limits *)
(** the simulator says done when the task ends or its own limit is reached. Habitat sets the limit to horizon + 1 (habitat_env.py 214-216), iGibson only
    when no horizon is given (igibson_env.py 78-82) *)
Definition sim_done (terminal : nat -> bool) (limit k : nat) : bool := terminal k || Nat.leb limit k.
Definition habitat_limits (default : nat) (given : option nat) : nat * nat :=
  let h := match given with Some h => h | None => default end in (h, h + 1).
Definition ig_limits (default : nat) (given : option nat) : nat * nat :=
  match given with Some h => (h, h) | None => (default, default + 1) end.

(** * Rendering *)
(** the image shown by render: set by step only (habitat_env.py 51-62, 264-274, igibson_env.py 113-130) *)
Inductive sim_event (I : Type) := SReset (im : I) | SStep (im : I).
Arguments SReset {I}. Arguments SStep {I}.
Definition shown {I} (ev : list (sim_event I)) : option I := fold_left (fun s e => match e with SReset _ => s | SStep im => Some im end) ev None.

(** * Return of the shortest path *)
(** get_optimal_policy_return (habitat_env.py 99-112): the rewards up to and including the first done; [None] for no path found, which cannot be iterated *)
Fixpoint until_done (steps : list (R * bool)) : R := match steps with [] => 0%R | (r, d) :: rest => if d then r else (r + until_done rest)%R end.
Definition optimal_return (path : option (list (R * bool))) : option R := option_map until_done path.

(** * Isaac *)
(** reset_all (isaac_env.py 85-93): the environments reset; argwhere(mask).squeeze() has no dimension when one entry is set *)
Definition masked (mask : list bool) : list nat := filter (fun i => nth i mask false) (seq 0 (length mask)).
Definition isaac_reset (mask : list bool) : list nat := match masked mask with [_] => [] | l => l end.
(** reset, step of VectorizedEnvironment hand over a numpy mask (vectorized_env.py 17-25), which torch.argwhere refuses *)
Inductive mask_kind := TorchMask (m : list bool) | NumpyMask (m : list bool).
Definition isaac_reset_all (m : mask_kind) : option (list nat) := match m with TorchMask l => Some (isaac_reset l) | NumpyMask _ => None end.
(** step_all (isaac_env.py 95-109): done flags outside the mask are cleared; [k] physics steps *)
Definition isaac_done (done mask : list bool) : list bool := map (fun p => andb (fst p) (snd p)) (combine done mask).
Fixpoint physics {W} (world : W -> W) (k : nat) (s : W) : W := match k with O => s | S k' => physics world k' (world s) end.
(** convert_task_observation (isaac_utils.py 4-9) *)
Inductive task_obs (X : Type) := Tens (x : X) | Dict (l : list (task_obs X)).
Arguments Tens {X}. Arguments Dict {X}.
Fixpoint descend {X} (fuel : nat) (o : task_obs X) : option (task_obs X) :=
  match fuel with
  | O => Some o
  | S f => match o with Tens _ => Some o | Dict [] => None | Dict (a :: _) => descend f a end
  end.
Definition task_observation {X} (o : task_obs X) : option (task_obs X) := descend 5 o.

(** Which arrays the classic environments create, keep and overwrite:
    mushroom_rl/environments/{puddle_world,ship_steering,lqr,inverted_pendulum,cart_pole,
    segway,car_on_hill,finite_mdp,grid_world}.py, reset and step.

    Arrays are cells of a heap; an address stands for the Python object.  The new state
    computed by a step (dynamics, integrator, random draws) is an arbitrary function of the
    old one, followed by the corrections the code applies.  Rewards, flags and array data
    types are left out (a state array of integers would truncate the corrections). *)
From Coq Require Import List Arith Lia Reals Bool.
From Verif Require Import Common UtilModel EnvModel.
Import ListNotations.
Local Open Scope R_scope.

(** [Plain]: PuddleWorld, ShipSteering, LQR, CarOnHill, FiniteMDP, grid worlds;
    [Angle]: CartPole and Segway; [Pendulum]: InvertedPendulum. *)
Inductive kind := Plain | Angle | Pendulum.

(** The assignments into the state array: [self._state[0] = normalize_angle(self._state[0])]
    (cart_pole.py 63, 82; segway.py 65, 75; inverted_pendulum.py 66, 79) and
    [self._state[1] = self._bound(...)] (inverted_pendulum.py 67, 80). *)
Definition correct (k : kind) (v : list R) : list R :=
  match k, v with
  | Plain, _ => v
  | _, [] => v
  | Angle, a :: t => normalize_angle a :: t
  | Pendulum, [a] => [normalize_angle a]
  | Pendulum, a :: w :: t => normalize_angle a :: bound w (- max_omega) max_omega :: t
  end.

(** The heap, the address of [self._state] and the array LQR was given as
    [initial_state] (lqr.py 57). *)
Record world := mkW { heap : list (list R); cur : option nat; init : option nat }.

Definition alloc (w : world) (v : list R) : world * nat :=
  (mkW (heap w ++ [v]) (Some (length (heap w))) (init w), length (heap w)).

(** [OReset v]: reset() where [v] is the fresh start state (a copy, a draw or a constant);
    [OGiven a]: reset(state) with the caller's array at [a]; [OStep f]: step, [f] is the
    result of the dynamics; [ONew v]: the caller creates an array. *)
Inductive op := OReset (v : list R) | OGiven (a : nat) | OStep (f : list R -> list R) | ONew (v : list R).

(** The world afterwards and the address of the array that is returned ([ONew]: created).
    - reset(): a new array (puddle_world.py 64, ship_steering.py 61-67, lqr.py 115-116 and
      120-121, inverted_pendulum.py 62, cart_pole.py 60, segway.py 62, car_on_hill.py 47,
      finite_mdp.py 45-48, grid_world.py 41-46), except for LQR with an initial state
      (lqr.py 118-119);
    - reset(state): [self._state = state], then the corrections in place;
    - step: a new array, corrected before it is returned; [None] without a state. *)
Definition do_op (k : kind) (w : world) (o : op) : option (world * nat) :=
  match o with
  | OReset v =>
      match init w with
      | Some a => Some (mkW (heap w) (Some a) (init w), a)
      | None => Some (alloc w v)
      end
  | OGiven a =>
      v <- nth_error (heap w) a ;;
      h <- upd (heap w) a (correct k v) ;;
      Some (mkW h (Some a) (init w), a)
  | OStep f =>
      c <- cur w ;;
      v <- nth_error (heap w) c ;;
      Some (alloc w (correct k (f v)))
  | ONew v => Some (mkW (heap w ++ [v]) (cur w) (init w), length (heap w))
  end.

(** A whole interaction and the addresses returned. *)
Fixpoint run (k : kind) (w : world) (l : list op) : option (world * list nat) :=
  match l with
  | [] => Some (w, [])
  | o :: t =>
      r <- do_op k w o ;;
      s <- run k (fst r) t ;;
      Some (fst s, snd r :: snd s)
  end.

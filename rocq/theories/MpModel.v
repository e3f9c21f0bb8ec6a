(** Model of MultiprocessEnvironment (/repo/mushroom_rl/core/multiprocess_environment.py) as a
    concurrent system: the parent process and one worker process per environment, talking
    through the two FIFO channels of a Pipe.  Any process able to move may move; a run is an
    arbitrary interleaving. *)
From Coq Require Import List Arith Lia Bool Reals.
From Verif Require Import Common.
Import ListNotations.

Section Mp.
Variables E A I : Type.          (* state of an environment object, actions, info dictionaries *)
Variable no_info : I.            (* {} *)

(** The argument of Environment.reset: nothing, a scalar or an array. *)
Inductive init := INone | IScalar (v : R) | IArr (v : list R).
Variable env_step : E -> A -> E * (list R * R * bool * I).
Variable env_reset : E -> init -> E * (list R * I).

(** The messages and the replies; 'seed', 'stop', 'render' have the same shape as 'step' and
    are left out. *)
Inductive msg := MStep (a : A) | MReset (data : option (list R)).
Inductive reply := RStep (s : list R) (r : R) (ab : bool) (i : I) | RReset (s : list R) (i : I).

(** _env_worker 16-30: what a worker does with a message (line 26: data[0]) *)
Definition work (e : E) (m : msg) : E * reply :=
  match m with
  | MStep a => let '(e', (s, r, ab, i)) := env_step e a in (e', RStep s r ab i)
  | MReset data =>
      let arg := match data with Some row => IScalar (nth 0 row 0%R) | None => INone end in
      let '(e', (s, i)) := env_reset e arg in (e', RReset s i)
  end.

(** The configuration of a worker: pending messages, environment, pending replies. *)
Record worker := { w_in : list msg; w_env : E; w_out : list reply }.
Inductive op := Send (i : nat) (m : msg) | Recv (i : nat).
(** The parent: the operations still to be done and the replies received so far. *)
Record config := { workers : nat -> worker; todo : list op; got : nat -> option reply }.

Definition upd_w {X} (f : nat -> X) (i : nat) (x : X) : nat -> X := fun k => if Nat.eqb k i then x else f k.

Inductive step (n : nat) : config -> config -> Prop :=
| step_send : forall c i m rest w, todo c = Send i m :: rest -> w = workers c i ->
    step n c {| workers := upd_w (workers c) i {| w_in := w_in w ++ [m]; w_env := w_env w; w_out := w_out w |}; todo := rest; got := got c |}
| step_recv : forall c i rest r out w, todo c = Recv i :: rest -> w = workers c i -> w_out w = r :: out ->
    step n c {| workers := upd_w (workers c) i {| w_in := w_in w; w_env := w_env w; w_out := out |}; todo := rest; got := upd_w (got c) i (Some r) |}
| step_work : forall c i m inb e' r w, i < n -> w = workers c i -> w_in w = m :: inb -> work (w_env w) m = (e', r) ->
    step n c {| workers := upd_w (workers c) i {| w_in := inb; w_env := e'; w_out := w_out w ++ [r] |}; todo := todo c; got := got c |}.

Inductive run (n : nat) : config -> config -> Prop :=
| run_refl : forall c, run n c c
| run_step : forall c c1 c2, step n c c1 -> run n c1 c2 -> run n c c2.

(** The two loops of reset_all (97-111) and step_all (116-134): send to the masked-in
    workers, then receive from them, in order.  [req i] is the message for worker i. *)
Definition masked (n : nat) (mask : nat -> bool) : list nat := filter mask (seq 0 n).
Definition round_ops (n : nat) (mask : nat -> bool) (req : nat -> msg) : list op :=
  map (fun i => Send i (req i)) (masked n mask) ++ map Recv (masked n mask).
(** 99-100: the message of reset_all *)
Definition reset_req (state : option (nat -> list R)) (i : nat) : msg :=
  MReset (match state with Some st => Some (st i) | None => None end).

(** The arrays returned, row by row.  [states] is self._states before the call, [garbage] the
    content of np.empty. *)
Definition state_of (r : reply) : list R := match r with RStep s _ _ _ => s | RReset s _ => s end.
Definition info_of (r : reply) : I := match r with RStep _ _ _ i => i | RReset _ i => i end.
Definition out_state (mask : nat -> bool) (g : nat -> option reply) (states : nat -> list R) (i : nat) : list R :=
  if mask i then match g i with Some r => state_of r | None => states i end else states i.
Definition out_reward (mask : nat -> bool) (g : nat -> option reply) (garbage : nat -> R) (i : nat) : R :=
  if mask i then match g i with Some (RStep _ r _ _) => r | _ => garbage i end else garbage i.
Definition out_absorbing (mask : nat -> bool) (g : nat -> option reply) (i : nat) : bool :=
  if mask i then match g i with Some (RStep _ _ ab _) => ab | _ => false end else false.
Definition out_info (mask : nat -> bool) (g : nat -> option reply) (i : nat) : I :=
  if mask i then match g i with Some r => info_of r | None => no_info end else no_info.

(** A quiet system: nothing in the channels. *)
Definition quiet (n : nat) (ws : nat -> worker) : Prop := forall i, i < n -> w_in (ws i) = [] /\ w_out (ws i) = [].
Definition start (ws : nat -> worker) (ops : list op) : config := {| workers := ws; todo := ops; got := fun _ => None |}.

(** A session: one call after the other; the parent starts a call when the previous one has
    returned.  Each call is its mask and its messages. *)
Inductive session (n : nat) : (nat -> worker) -> (nat -> list R) -> list ((nat -> bool) * (nat -> msg)) -> (nat -> worker) -> (nat -> list R) -> Prop :=
| sess_nil : forall ws st, session n ws st [] ws st
| sess_cons : forall ws st mask req calls c ws2 st2, run n (start ws (round_ops n mask req)) c -> todo c = [] ->
    session n (workers c) (out_state mask (got c) st) calls ws2 st2 -> session n ws st ((mask, req) :: calls) ws2 st2.
End Mp.

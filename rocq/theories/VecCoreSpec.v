(** Specification vocabulary for a vectorised run: facts about the sequence of
    parallel steps, independent of the core's counters and buffers. *)
From Coq Require Import List Arith Bool.
From Verif Require Import VecCoreModel.
Import ListNotations.

(** A parallel step: time, which environments took part, which episodes ended. *)
Definition pstep := (nat * list bool * list bool)%type.
Definition took (j : nat) (p : pstep) : bool := nth j (snd (fst p)) false.
Definition ended (j : nat) (p : pstep) : bool := nth j (snd p) false.

Definition steps_of (log : list vevent) : list pstep :=
  flat_map (fun e => match e with VStep t m l => [(t, m, l)] | _ => [] end) log.
Definition vfits_of (log : list vevent) : list (list cell) :=
  flat_map (fun e => match e with VFit d => [d] | _ => [] end) log.

(** Number of environment steps executed / of episodes completed. *)
Definition n_steps_run (st : list pstep) : nat := list_sum (map (fun p => cnt (snd (fst p))) st).
Definition n_eps_done (st : list pstep) : nat := list_sum (map (fun p => cnt (snd p)) st).

(** Steps executed by environment j in its episode in progress. *)
Definition age (j : nat) (st : list pstep) : nat :=
  fold_left (fun a p => if ended j p then 0 else if took j p then a + 1 else a) st 0.
Definition in_progress (j : nat) (st : list pstep) : Prop := 1 <= age j st.

(** Parallel steps since the last fit, and those between consecutive fits. *)
Fixpoint batches (cur : list pstep) (log : list vevent) : list (list pstep) * list pstep :=
  match log with
  | [] => ([], cur)
  | VStep t m l :: r => batches (cur ++ [(t, m, l)]) r
  | VFit _ :: r => let (bs, c) := batches [] r in (cur :: bs, c)
  end.
Definition fit_batches (log : list vevent) : list (list pstep) := fst (batches [] log).
Definition since_fit (log : list vevent) : list pstep := snd (batches [] log).

(** The transitions of a list of parallel steps, environment by environment. *)
Definition cells_of_env (st : list pstep) (j : nat) : list cell :=
  flat_map (fun p => if took j p then [(fst (fst p), j, ended j p)] else []) st.
Definition transitions (n : nat) (st : list pstep) : list cell :=
  flat_map (cells_of_env st) (seq 0 n).

(** A batch whose final parallel step is flagged as ending every episode (a fit
    on a step schedule cuts the episodes in progress). *)
Definition cut (st : list pstep) : list pstep :=
  match rev st with
  | [] => []
  | (t, m, l) :: r => rev ((t, m, map (fun _ => true) l) :: r)
  end.

(** A run of the environments: in every parallel step some environment takes
    part, every environment with an episode in progress takes part, only
    participating environments end, and an episode ends exactly when the
    environment reports an absorbing state or makes its horizon-th step. *)
Definition well_scheduled (W : vworld) (st : list pstep) : Prop :=
  forall pre t m l post, st = pre ++ (t, m, l) :: post ->
    t = length pre /\ length m = n_envs W /\ length l = n_envs W /\ 1 <= cnt m /\
    forall j, j < n_envs W ->
      (in_progress j pre -> nth j m false = true) /\
      (nth j l false = true <->
         nth j m false = true /\
         (absb W t j = true \/ exists h, vhorizon W = Some h /\ h <= age j pre + 1)).

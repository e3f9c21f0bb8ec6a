(** Composition: [VectorCore] (VecCoreModel.v: schedule, masks, buffers) with environments that
    have states, an agent that draws a batch of actions, and a fit that changes the agent.

    Cited code: core/vectorized_core.py 42-69 (learn), 100-138 (_run), 140-175 (_step), 177-205
    (_reset); core/multiprocess_environment.py 95-133 (reset_all, step_all); core/dataset.py
    590-632 (flatten).

    The schedule is that of VecCoreModel: its transitions are cells (iteration, environment, last
    flag), here replaced by the values stored at that place.  In contrast to VecPreModel the
    replies of the environments and of the agent are not given beforehand: they depend on the
    states that the run itself produced.

    Simplifications: no core preprocessors (C100 says what happens with them), so that the core's
    [_state] is the buffer of the environments; policies without a state of their own; no
    parameters theta; episode_start_vectorized leaves the agent as it is (agents with such a
    policy, agent.py 106-133); rendering, recording and callbacks left out.  The values stored for
    an environment that does not take part in an iteration are masked out; they are [None] here,
    and reading one would make the model fail. *)
From Coq Require Import List Arith Bool Reals.
From Verif Require Import Common VecCoreModel.
From Verif Require CoreModel.
Import ListNotations.

Section VecLearn.
Context {E X A Ag : Type}.
Notation vsample := (CoreModel.sample X A R unit).
Variable n : nat.                                    (* env.number *)
Variable hor : option nat.                           (* env.info.horizon *)
Variable garb : nat -> nat -> nat -> bool.           (* np.empty masks *)
(** One environment, run by a worker process (multiprocess_environment.py 8-40). *)
Variable e_reset : E -> E * X.
Variable e_step : E -> A -> E * X * R * bool.
(** agent.draw_action on the batch of states; agent.fit. *)
Variable draw : Ag -> list X -> Ag * list A.
Variable fitf : Ag -> list vsample -> Ag.

Definition with_last (x : vsample) (l : bool) : vsample :=
  CoreModel.mkS (CoreModel.state x) (CoreModel.action x) (CoreModel.reward x) (CoreModel.next_state x)
                (CoreModel.absorbing x) l (CoreModel.pstate x) (CoreModel.pnext x).

(** What happens in a run: environments are reset, all take a step ([None]: does not take part),
    the agent is fitted. *)
Inductive xevent :=
| XReset (m : list bool)
| XStep (row : list (option vsample))
| XFit (d : list vsample).

(** State of the run: the schedule, the environments with their entry of the buffer of
    observations, the agent, all rows so far, the log. *)
Record xst := mkX { x_r : vrun; x_env : list (E * X); x_ag : Ag; x_tab : list (list (option vsample)); x_ev : list xevent }.

(** The world of VecCoreModel for one iteration in which the environments report [ab]. *)
Definition W_of (ab : list bool) : vworld := mkVW n hor (fun _ j => nth j ab false) garb.

(** reset_all (multiprocess_environment.py 95-111) *)
Definition reset_envs (m : list bool) (es : list (E * X)) : list (E * X) :=
  map (fun p => if fst p : bool then e_reset (fst (snd p)) else snd p) (combine m es).

(** step_all (multiprocess_environment.py 113-133) and the row of _step (vectorized_core.py
    152-175), the last flags missing. *)
Definition step_envs (m : list bool) (acts : list A) (es : list (E * X)) : list ((E * X) * option vsample) :=
  map (fun p => let '(mj, (a, (e, o))) := p in
                if mj : bool then
                  let '(e', o', rw, ab) := e_step e a in ((e', o'), Some (CoreModel.mkS o a rw o' ab false tt tt))
                else ((e, o), None))
      (combine m (combine acts es)).

Definition absorbs (o : option vsample) : bool := match o with Some x => CoreModel.absorbing x | None => false end.

(** Value of a cell of the flattened dataset. *)
Definition read_cell (tab : list (list (option vsample))) (c : cell) : option vsample :=
  let '(t, j, l) := c in
  match nth j (nth t tab []) None with Some x => Some (with_last x l) | None => None end.
Fixpoint read_all (tab : list (list (option vsample))) (d : list cell) : option (list vsample) :=
  match d with
  | [] => Some []
  | c :: d' => x <- read_cell tab c ;; xs <- read_all tab d' ;; Some (x :: xs)
  end.

(** The parts of one iteration (vectorized_core.py 106-131), [r1] being the schedule after
    get_mask: the environments reset, all environments after _reset, the reply of the agent, that
    of the environments, the absorbing flags, the row appended to the dataset. *)
Definition xrm (s : xst) (r1 : vrun) : list bool := vand (v_last (x_r s)) (v_mask r1).
Definition xes (s : xst) (r1 : vrun) : list (E * X) :=
  if vany (v_last (x_r s)) then reset_envs (xrm s r1) (x_env s) else x_env s.
Definition xdraw (s : xst) (r1 : vrun) : Ag * list A := draw (x_ag s) (map snd (xes s r1)).
Definition xouts (s : xst) (r1 : vrun) : list ((E * X) * option vsample) :=
  step_envs (v_mask r1) (snd (xdraw s r1)) (xes s r1).
Definition xab (s : xst) (r1 : vrun) : list bool := map (fun q => absorbs (snd q)) (xouts s r1).
Definition xrow (s : xst) (r1 : vrun) : list (option vsample) :=
  map (fun p => match fst p with Some x => Some (with_last x (snd p)) | None => None end)
      (combine (map snd (xouts s r1)) (v_last (vstep (W_of (xab s r1)) r1))).

Definition xiterate (cap : nat) (s : xst) : option xst :=
  r1 <- vreset (W_of []) (x_r s) ;;
  let tab := x_tab s ++ [xrow s r1] in
  let ev := x_ev s ++ (if vany (v_last (x_r s)) then [XReset (xrm s r1)] else []) ++ [XStep (xrow s r1)] in
  r' <- viterate (W_of (xab s r1)) cap (x_r s) ;;
  match rev (v_events r') with
  | VFit d :: _ =>
      ds <- read_all tab d ;;
      Some (mkX r' (map fst (xouts s r1)) (fitf (fst (xdraw s r1)) ds) tab (ev ++ [XFit ds]))
  | _ => Some (mkX r' (map fst (xouts s r1)) (fst (xdraw s r1)) tab ev)
  end.

Inductive xoutcome := XDone (s : xst) | XCrash | XOutOfFuel.

Fixpoint xloop (fuel cap : nat) (s : xst) : xoutcome :=
  match CoreModel.move_required (vl (v_log (x_r s))) with
  | None => XCrash
  | Some false => XDone s
  | Some true =>
      match fuel with
      | O => XOutOfFuel
      | S f => match xiterate cap s with None => XCrash | Some s' => xloop f cap s' end
      end
  end.

(** VectorCore.learn (vectorized_core.py 42-69): environments [es], whose buffer holds anything. *)
Definition xlearn (fuel : nat) (l : CoreModel.logic) (es : list (E * X)) (a : Ag) (ns ne spf epf : option nat) : xoutcome :=
  match CoreModel.initialize_learn l spf epf with
  | None => XCrash
  | Some l1 =>
      match vcapacity (W_of []) spf epf, CoreModel.initialize_run l1 ns ne (@None (list nat)) with
      | Some cap, Some l2 => xloop fuel cap (mkX (vstart (W_of []) cap l2) es a [] [])
      | _, _ => XCrash
      end
  end.
End VecLearn.
Arguments xevent : clear implicits.
Arguments XReset {X A}. Arguments XStep {X A}. Arguments XFit {X A}.
Arguments xst : clear implicits.

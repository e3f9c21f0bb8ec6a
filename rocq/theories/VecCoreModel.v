(** Model of [VectorCore] and [VectorizedCoreLogic]
    (/repo/mushroom_rl/core/vectorized_core.py,
     /repo/mushroom_rl/core/_impl/vectorized_core_logic.py), with the row buffer
    of [VectorizedDataset] (/repo/mushroom_rl/core/dataset.py 544-649,
    /repo/mushroom_rl/core/_impl/numpy_dataset.py).

    What the environments and the agent compute is irrelevant to the schedule
    except for the absorbing flags.  They are an arbitrary oracle
    [absb t j]: "environment j reports an absorbing state at iteration t".
    A transition is identified by its iteration and environment.
    Uninitialised memory ([np.empty]) is an arbitrary oracle too. *)
From Coq Require Import List Arith Lia Bool.
From Verif Require Import Common CoreModel.
Import ListNotations.

(** Boolean vectors. *)
Definition cnt (l : list bool) : nat := count_occ bool_dec l true.
Definition vand (a b : list bool) : list bool := map (fun p => fst p && snd p) (combine a b).
Definition vnot (a : list bool) : list bool := map negb a.
Definition vany (a : list bool) : bool := existsb (fun b => b) a.

(** numpy [mask[last] = vals] for [vals] with as many entries as [last] has True. *)
Fixpoint scatter (last vals mask : list bool) : list bool :=
  match last, mask with
  | true :: l, _ :: m => match vals with v :: vs => v :: scatter l vs m | [] => false :: scatter l [] m end
  | false :: l, b :: m => b :: scatter l vals m
  | _, _ => []
  end.

(** A transition: iteration, environment, last flag. *)
Definition cell := (nat * nat * bool)%type.

(** VectorizedCoreLogic: the attributes of CoreLogic plus [_running_envs]
    (vectorized_core_logic.py 6-11). *)
Record vlogic := mkVL { vl : logic; running : list bool }.

Record vworld := mkVW {
  n_envs : nat;                       (* env.number *)
  vhorizon : option nat;              (* env.info.horizon *)
  absb : nat -> nat -> bool;          (* absorbing flags returned by step_all *)
  garbage : nat -> nat -> nat -> bool  (* i-th np.empty mask array, row, environment *)
}.

Inductive vevent :=
| VStep (t : nat) (mask last : list bool)   (* t-th env.step_all(mask, ..), resulting last flags *)
| VFit (d : list cell).               (* agent.fit *)

Section Vec.
Variable W : vworld.
Notation n := (n_envs W).

(** vectorized_core_logic.py 13-45.  [None] is numpy's shape-mismatch error;
    a value array of length one is broadcast. *)
Definition get_mask (v : vlogic) (last : list bool) : option (list bool * vlogic) :=
  let term0 := cnt (vand last (running v)) in
  let runn := cnt (vand (vnot last) (running v)) in
  let first_batch := (runn =? 0) && (term0 =? 0) in
  let term := if first_batch then n else term0 in
  let mr1 := match n_episodes (vl v) with
             | Some N => Nat.min (N - tot_ep (vl v) - runn) term | None => term end in
  let mr2 := match n_episodes_per_fit (vl v) with
             | Some k => Nat.min (k - cur_ep (vl v) - runn) mr1 | None => mr1 end in
  let new_mask := repeat true mr2 ++ repeat false (term - mr2) in
  if first_batch then Some (new_mask, mkVL (vl v) new_mask)
  else if cnt last =? term then
    let m := scatter last new_mask (running v) in Some (m, mkVL (vl v) m)
  else if term =? 1 then
    let m := scatter last (repeat (hd false new_mask) n) (running v) in Some (m, mkVL (vl v) m)
  else None.

(** vectorized_core_logic.py 55-64 *)
Definition vafter_step (v : vlogic) (lastmask : list bool) : vlogic :=
  let l := vl v in
  let a := cnt (running v) in let c := cnt lastmask in
  mkVL (mkL (fit_req l) (move_req l) (n_steps l) (n_episodes l) (n_steps_per_fit l) (n_episodes_per_fit l)
            (tot_ep l + c) (tot_st l + a) (cur_ep l + c) (cur_st l + a)) (running v).

(** vectorized_core_logic.py 66-72 *)
Definition after_fit_vectorized (v : vlogic) (last : list bool) : vlogic * list bool :=
  let l := after_fit (vl v) in
  match n_episodes_per_fit l with
  | Some _ => (mkVL l (repeat false n), repeat true n)
  | None => (mkVL l (running v), last)
  end.

(** A freshly allocated mask array (numpy_dataset.py 31, 179). *)
Definition np_empty (cap a : nat) : list (list bool) :=
  map (fun i => map (garbage W a i) (seq 0 n)) (seq 0 cap).

(** VectorizedDataset data part: rows written so far, the whole mask array
    ([cap] rows, numpy_dataset.py 28-31), number of arrays allocated. *)
Record vdata := mkVD { vrows : list (list cell); maskarr : list (list bool); allocs : nat }.

(** numpy_dataset.py 110-133 with a mask; rows beyond the allocated ones are an
    IndexError; with a single environment [_mask] is None (dataset.py 91-96) and
    the mask assignment raises. *)
Definition vappend (cap : nat) (d : vdata) (row : list cell) (mask : list bool) : option vdata :=
  if (length (vrows d) <? cap) && negb (n =? 1) then
    Some (mkVD (vrows d ++ [row]) (setnth (maskarr d) (length (vrows d)) mask) (allocs d))
  else None.

Definition dmask (d : vdata) : list (list bool) := firstn (length (vrows d)) (maskarr d).

(** dataset.py 600-601: [last_padded[-1,:] = True], in place. *)
Definition close_last_row (rows : list (list cell)) : list (list cell) :=
  match rev rows with
  | [] => []
  | r :: rs => rev (map (fun c => (fst c, true)) r :: rs)
  end.

(** array_backend.py 271-275: column-major flattening, then boolean selection. *)
Definition pack (rows : list (list cell)) (masks : list (list bool)) : list cell :=
  flat_map (fun j =>
    flat_map (fun rm => if nth j (snd rm) false then [nth j (fst rm) (0, 0, false)] else [])
             (combine rows masks))
    (seq 0 n).

(** dataset.py 590-632: the flattened dataset and the in-place change. *)
Definition flatten (d : vdata) (spf : option nat) : list cell * vdata :=
  let rows := close_last_row (vrows d) in
  let d' := mkVD rows (maskarr d) (allocs d) in
  let flat := pack rows (dmask d) in
  (match spf with Some k => firstn k flat | None => flat end, d').

(** dataset.py 562-588.  [get_view(slice(-p, None), copy=True)] takes the last p
    written rows of the data but the last p rows of the whole mask array
    (numpy_dataset.py 160, 178-180); [mask.flatten()[..] = False] changes a
    copy (dataset.py 576), hence has no effect.
    NumpyDataset.clear (135-147) does not touch [_mask]. *)
Definition ceil_div (a b : nat) : nat := (a + b - 1) / b.

Definition vclear (cap : nat) (d : vdata) (spf : option nat) : vdata :=
  let plain := mkVD [] (maskarr d) (allocs d) in
  match spf with
  | None => plain
  | Some k =>
      let total := list_sum (map cnt (dmask d)) in
      if k <? total then
        let p := ceil_div (total - k) n in
        let rows := lastn p (vrows d) in
        mkVD rows
             (firstn (length rows) (lastn p (maskarr d)) ++ skipn (length rows) (np_empty cap (S (allocs d))))
             (S (allocs d))
      else plain
  end.

(** VectorCore._run state. *)
Record vrun := mkVR {
  v_log : vlogic; v_t : nat; v_last : list bool; v_mask : list bool;
  v_esteps : list nat; v_ds : vdata; v_events : list vevent }.

Inductive voutcome := VDone (r : vrun) (out : list cell) | VCrash | VOutOfFuel.

(** vectorized_core.py 107-112, 177-202: [_episode_steps[last] = 0]. *)
Definition vreset (r : vrun) : option vrun :=
  if vany (v_last r) then
    match get_mask (v_log r) (v_last r) with
    | None => None
    | Some (m, v') =>
        Some (mkVR v' (v_t r) (v_last r) m
                   (map (fun p => if fst p : bool then 0 else snd p) (combine (v_last r) (v_esteps r)))
                   (v_ds r) (v_events r))
    end
  else Some r.

(** vectorized_core.py 140-175 *)
Definition vstep (r : vrun) : vrun :=
  let es := map (fun p => if fst p : bool then snd p + 1 else snd p) (combine (v_mask r) (v_esteps r)) in
  let ab := map (fun p => fst p && absb W (v_t r) (snd p)) (combine (v_mask r) (seq 0 n)) in
  let last := map (fun p => fst p || match vhorizon W with Some h => h <=? snd p | None => false end)
                  (combine ab es) in
  mkVR (v_log r) (S (v_t r)) last (v_mask r) es (v_ds r) (v_events r ++ [VStep (v_t r) (v_mask r) last]).

(** The row appended to the dataset (vectorized_core.py 119). *)
Definition row_of (t : nat) (last : list bool) : list cell :=
  map (fun p => (t, fst p, snd p)) (combine (seq 0 n) last).

(** vectorized_core.py 106-131, one iteration. *)
Definition viterate (cap : nat) (r0 : vrun) : option vrun :=
  r1 <- vreset r0 ;;
  let r2 := vstep r1 in
  let lg := vafter_step (v_log r2) (vand (v_last r2) (v_mask r2)) in
  ds <- vappend cap (v_ds r2) (row_of (v_t r1) (v_last r2)) (v_mask r2) ;;
  match fit_required (vl lg) with
  | None => None
  | Some true =>
      let (flat, ds') := flatten ds (n_steps_per_fit (vl lg)) in
      let (lg', last') := after_fit_vectorized lg (v_last r2) in
      Some (mkVR lg' (v_t r2) last' (v_mask r2) (v_esteps r2)
                 (vclear cap ds' (n_steps_per_fit (vl lg)))
                 (v_events r2 ++ [VFit flat]))
  | Some false =>
      Some (mkVR lg (v_t r2) (v_last r2) (v_mask r2) (v_esteps r2) ds (v_events r2))
  end.

Fixpoint vloop (fuel : nat) (cap : nat) (r : vrun) : voutcome :=
  match move_required (vl (v_log r)) with
  | None => VCrash
  | Some false => VDone r (fst (flatten (v_ds r) None))
  | Some true =>
      match fuel with
      | O => VOutOfFuel
      | S f => match viterate cap r with None => VCrash | Some r' => vloop f cap r' end
      end
  end.

(** vectorized_core_logic.py 74-76: counters and running environments. *)
Definition vstart (cap : nat) (l : logic) : vrun :=
  mkVR (mkVL l (repeat false n)) 0 (repeat true n) (repeat false n) (repeat 0 n)
       (mkVD [] (np_empty cap 0) 0) [].

(** dataset.py 78-89 *)
Definition vcapacity (ns ne : option nat) : option nat :=
  match ns, ne with
  | Some k, None => Some k
  | None, Some k => match vhorizon W with Some h => Some (h * k) | None => None end
  | _, _ => None
  end.

(** vectorized_core.py 42-69, 100-138 *)
Definition vlearn (fuel : nat) (l : logic) (ns ne spf epf : option nat) : voutcome :=
  match initialize_learn l spf epf with
  | None => VCrash
  | Some l1 =>
      match vcapacity spf epf, initialize_run l1 ns ne (@None (list nat)) with
      | Some cap, Some l2 => vloop fuel cap (vstart cap l2)
      | _, _ => VCrash
      end
  end.

(** vectorized_core.py 71-98, without [initial_states]. *)
Definition vevaluate (fuel : nat) (l : logic) (ns ne : option nat) : voutcome :=
  match vcapacity ns ne, initialize_run (initialize_evaluate l) ns ne (@None (list nat)) with
  | Some cap, Some l2 => vloop fuel cap (vstart cap l2)
  | _, _ => VCrash
  end.

(** CoreLogic.__init__ (core_logic.py 5-20). *)
Definition fresh_logic : logic := mkL FitNever MoveSteps None None None None 0 0 0 0.

End Vec.

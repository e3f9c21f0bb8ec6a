(** Model of VectorPolicy (/repo/mushroom_rl/policy/vector_policy.py).  Policy objects live in a
    heap; the vector is a list of references, so that aliasing of entries is visible.  The
    wrapped policy is arbitrary: [P] is the content of a policy object, [draw] its
    draw_action (which may advance the object, for instance its random generator), [rst] its
    reset, [setw]/[getw] its weight accessors. *)
From Coq Require Import List Arith Lia Bool ZArith.
From Verif Require Import Common.
Import ListNotations.

Section VectorPolicy.
  Variables P S A W Q : Type.
  Variable draw : P -> S -> option Q -> P * A * option Q.
  Variable rst : P -> P * option Q.
  Variable setw : P -> W -> P.
  Variable getw : P -> W.

  Definition heap := list P.
  (** The state of a vector policy: the heap and the list of references. *)
  Record vp := { vh : heap; vrefs : list nat }.

  (** __init__ (8-20): [deepcopy(policy) for _ in range(n_envs)] *)
  Definition vp_new (h : heap) (p : P) (n : nat) : vp := {| vh := h ++ repeat p n; vrefs := seq (length h) n |}.

  (** draw_action (22-35).  A policy returning a state makes the call raise: arrays have no
      append.  The list of next states stays empty, the second result is None.  [None] models
      an exception: too few rows (IndexError) or the append. *)
  Fixpoint draw_loop (h : heap) (refs : list nat) (i : nat) (st : list S) (pst : option (list Q)) (acc : list A) : option (heap * list A) :=
    match refs with
    | [] => Some (h, acc)
    | r :: refs' =>
        match nth_error h r, nth_error st i, (match pst with None => Some None | Some l => match nth_error l i with Some q => Some (Some q) | None => None end end) with
        | Some p, Some s, Some ps =>
            let '(p', a, q) := draw p s ps in
            match q with
            | Some _ => None
            | None => draw_loop (setnth h r p') refs' (1 + i) st pst (acc ++ [a])
            end
        | _, _, _ => None
        end
    end.
  Definition vp_draw (v : vp) (st : list S) (pst : option (list Q)) : option (vp * list A * option (list Q)) :=
    match draw_loop (vh v) (vrefs v) 0 st pst [] with
    | Some (h, acts) => Some ({| vh := h; vrefs := vrefs v |}, acts, None)
    | None => None
    end.

  (** set_n (37-42): the two comparisons are inverted; n_envs - len(self) is negative in the
      second branch and range of a negative number is empty. *)
  Definition set_n (v : vp) (n : nat) : vp :=
    let refs1 := if length (vrefs v) <? n then firstn n (vrefs v) else vrefs v in
    let refs2 := if n <? length refs1
                 then let n_missing := (Z.of_nat n - Z.of_nat (length refs1))%Z in
                      refs1 ++ map (fun _ => nth 0 refs1 0) (seq 0 (Z.to_nat n_missing))
                 else refs1 in
    {| vh := vh v; vrefs := refs2 |}.

  (** set_weights (47-57) *)
  Fixpoint setw_loop (h : heap) (refs : list nat) (i : nat) (ws : list W) : option heap :=
    match refs with
    | [] => Some h
    | r :: refs' =>
        match nth_error h r, nth_error ws i with
        | Some p, Some w => setw_loop (setnth h r (setw p w)) refs' (1 + i) ws
        | _, _ => None
        end
    end.
  Definition vp_set_weights (v : vp) (ws : list W) : option vp :=
    match setw_loop (vh v) (vrefs v) 0 ws with Some h => Some {| vh := h; vrefs := vrefs v |} | None => None end.
  (** get_weights (59-73) *)
  Definition vp_get_weights (v : vp) : list (option W) := map (fun r => match nth_error (vh v) r with Some p => Some (getw p) | None => None end) (vrefs v).

  (** reset (86-105) for a policy with states; [garbage] is the content of np.empty.  A reset
      returning None there makes numpy raise. *)
  Fixpoint reset_loop (h : heap) (refs : list nat) (i : nat) (mask : option (list bool)) (acc : list Q) : option (heap * list Q) :=
    match refs with
    | [] => Some (h, acc)
    | r :: refs' =>
        match (match mask with None => Some true | Some m => nth_error m i end) with
        | None => Some (h, acc)
        | Some false => reset_loop h refs' (1 + i) mask acc
        | Some true =>
            match nth_error h r with
            | None => None
            | Some p =>
                match rst p with
                | (p', Some q) => reset_loop (setnth h r p') refs' (1 + i) mask (setnth acc i q)
                | (_, None) => None
                end
            end
        end
    end.
  Definition vp_reset (v : vp) (mask : option (list bool)) (garbage : list Q) : option (vp * list Q) :=
    match reset_loop (vh v) (vrefs v) 0 mask garbage with Some (h, qs) => Some ({| vh := h; vrefs := vrefs v |}, qs) | None => None end.
End VectorPolicy.
Arguments vh {P}. Arguments vrefs {P}.

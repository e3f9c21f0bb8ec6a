(** Model of the dataset containers and of the statistics of [Dataset]
    (/repo/mushroom_rl/core/dataset.py, core/_impl/numpy_dataset.py,
    core/_impl/list_dataset.py, utils/callbacks/collect_dataset.py).

    Simplifications: the parallel column arrays of a NumpyDataset are one list of
    rows of the length of the allocation; the policy-state columns, which are
    indexed differently by [get_view], are kept as a separate list.  Rewards are
    real numbers.  [np.empty] memory is an argument of the functions that
    allocate.  TorchDataset has the same code as NumpyDataset (torch_dataset.py
    103-215) and is covered by the same definitions.  The extra-info dictionaries
    and theta lists carried by Dataset are not part of this model. *)
From Coq Require Import List Arith ZArith Lia Reals Bool.
From Verif Require Import Common.
Import ListNotations.

(** Python's conversion of an integer index into a sequence of length [n]. *)
Definition pyindex (n : nat) (i : Z) : option nat :=
  if (0 <=? i)%Z then if (i <? Z.of_nat n)%Z then Some (Z.to_nat i) else None
  else if (0 <=? Z.of_nat n + i)%Z then Some (Z.to_nat (Z.of_nat n + i)) else None.

(** Python's clamping of a slice bound for a sequence of length [n]. *)
Definition pybound (n : nat) (i : Z) : nat :=
  if (0 <=? i)%Z then Nat.min (Z.to_nat i) n else Z.to_nat (Z.of_nat n + i).

(** [l[a:b]] with optional bounds (step 1). *)
Definition pyslice {A} (l : list A) (a b : option Z) : list A :=
  slice (match a with Some a => pybound (length l) a | None => 0 end)
        (match b with Some b => pybound (length l) b | None => length l end) l.

(** [l[idx]] for an integer array [idx]. *)
Fixpoint pytake {A} (l : list A) (idx : list Z) : option (list A) :=
  match idx with
  | [] => Some []
  | i :: t => j <- pyindex (length l) i ;; x <- nth_error l j ;; r <- pytake l t ;; Some (x :: r)
  end.

Section Dataset.
Variables St Ac Ps : Type.

(** One row (numpy_dataset.py 13-26). *)
Record row := mkRow {
  r_state : St; r_action : Ac; r_reward : R; r_next : St; r_abs : bool; r_last : bool }.

Definition set_last (x : row) (b : bool) : row :=
  mkRow (r_state x) (r_action x) (r_reward x) (r_next x) (r_abs x) b.

(** Attributes of NumpyDataset: allocated rows, allocated policy-state rows
    ([None] when not stateful), and [_len]. *)
Record nds := mkNds { nd_buf : list row; nd_pol : option (list Ps); nd_len : nat }.

(** The properties [state], [action], ... : the first [_len] rows
    (numpy_dataset.py 221-251). *)
Definition rows (d : nds) : list row := firstn (nd_len d) (nd_buf d).
Definition pols (d : nds) : option (list Ps) := option_map (firstn (nd_len d)) (nd_pol d).

(** append (numpy_dataset.py 113-133): [None] is IndexError on a full buffer, or
    the failed assertion when a policy state is given to a stateless dataset. *)
Definition nd_append (d : nds) (x : row) (p : option Ps) : option nds :=
  b <- upd (nd_buf d) (nd_len d) x ;;
  match nd_pol d, p with
  | Some l, Some s => l' <- upd l (nd_len d) s ;; Some (mkNds b (Some l') (nd_len d + 1))
  | None, None => Some (mkNds b None (nd_len d + 1))
  | _, _ => None
  end.

(** clear (numpy_dataset.py 135-147); [gb], [gp] are the fresh np.empty arrays. *)
Definition nd_clear (d : nds) (gb : nat -> row) (gp : nat -> Ps) : nds :=
  mkNds (map gb (seq 0 (length (nd_buf d))))
        (option_map (fun l => map gp (seq 0 (length l))) (nd_pol d)) 0.

(** The index argument of [get_view]. *)
Inductive index := ISlice (a b : option Z) | IArray (l : list Z).

Definition apply_index {A} (l : list A) (ix : index) : option (list A) :=
  match ix with ISlice a b => Some (pyslice l a b) | IArray t => pytake l t end.

(** get_view with copy=False (numpy_dataset.py 181-195): the transition columns
    are indexed after truncation to [_len], the policy columns are indexed as
    allocated. *)
Definition nd_view (d : nds) (ix : index) : option nds :=
  b <- apply_index (rows d) ix ;;
  match nd_pol d with
  | None => Some (mkNds b None (length b))
  | Some l => p <- apply_index l ix ;; Some (mkNds b (Some p) (length b))
  end.

(** Dataset.__getitem__ with an int (dataset.py 266-272, numpy_dataset.py
    199-201): the bound check uses [_len], the access uses the allocated array. *)
Definition nd_getitem (d : nds) (i : Z) : option row :=
  if (i <? Z.of_nat (nd_len d))%Z then j <- pyindex (length (nd_buf d)) i ;; nth_error (nd_buf d) j
  else None.

(** [result._last[n-1] = True] for Python index n-1 (numpy_dataset.py 211). *)
Definition force_last (l : list row) (n : nat) : option (list row) :=
  j <- pyindex (length l) (Z.of_nat n - 1) ;;
  x <- nth_error l j ;; upd l j (set_last x true).

(** __add__ (numpy_dataset.py 203-219). *)
Definition nd_add (d e : nds) : option nds :=
  l <- force_last (rows d ++ rows e) (nd_len d) ;;
  match nd_pol d with
  | None => Some (mkNds l None (nd_len d + nd_len e))
  | Some p => q <- nd_pol e ;;
      Some (mkNds l (Some (firstn (nd_len d) p ++ firstn (nd_len e) q)) (nd_len d + nd_len e))
  end.

(** ** ListDataset (list_dataset.py) *)

(** Attributes: [_dataset] and [_policy_dataset] are [None] in an instance made
    by [create_new_instance] (list_dataset.py 21-42). *)
Record lds := mkLds {
  ld_data : option (list row); ld_pol : option (list Ps); ld_stateful : bool }.

Definition ld_init (stateful : bool) : lds := mkLds (Some []) (Some []) stateful.
Definition ld_new (d : lds) : lds := mkLds None None (ld_stateful d).

(** append (list_dataset.py 64-71). *)
Definition ld_append (d : lds) (x : row) (p : option Ps) : option lds :=
  l <- ld_data d ;;
  if ld_stateful d then
    q <- ld_pol d ;; s <- p ;; Some (mkLds (Some (l ++ [x])) (Some (q ++ [s])) true)
  else Some (mkLds (Some (l ++ [x])) (ld_pol d) false).

(** clear (list_dataset.py 73-74). *)
Definition ld_clear (d : lds) : lds := mkLds (Some []) (ld_pol d) (ld_stateful d).

(** get_view without mask (list_dataset.py 76-95). *)
Definition ld_view (d : lds) (ix : index) : option lds :=
  l <- ld_data d ;; v <- apply_index l ix ;; Some (mkLds (Some v) None (ld_stateful d)).

(** __getitem__ (dataset.py 266-272, list_dataset.py 97-98). *)
Definition ld_getitem (d : lds) (i : Z) : option row :=
  l <- ld_data d ;;
  if (i <? Z.of_nat (length l))%Z then j <- pyindex (length l) i ;; nth_error l j else None.

(** Item assignment [x._dataset[-1] = v]: TypeError when [_dataset] is None. *)
Definition ld_setlast (d : lds) (x : row) : option lds :=
  l <- ld_data d ;; j <- pyindex (length l) (-1) ;; l' <- upd l j x ;;
  Some (mkLds (Some l') (ld_pol d) (ld_stateful d)).

(** __add__ (list_dataset.py 100-108), statement by statement. *)
Definition ld_add (d e : lds) : option lds :=
  let result := ld_new d in
  l <- ld_data d ;;
  j <- pyindex (length l) (-1) ;; last_step <- nth_error l j ;;
  result <- ld_setlast result (set_last last_step true) ;;
  m <- ld_data e ;;
  p <- ld_pol d ;; q <- ld_pol e ;;
  Some (mkLds (Some (l ++ m)) (Some (p ++ q)) (ld_stateful result)).

(** policy_state (list_dataset.py 134-136): [step[6]] of stored 6-tuples raises
    IndexError as soon as there is a step. *)
Definition ld_policy_state (d : lds) : option (list Ps) :=
  l <- ld_data d ;; match l with [] => Some [] | _ :: _ => None end.

(** ** Statistics of Dataset: functions of the visible rows *)

(** episodes_length (dataset.py 331-348). *)
Fixpoint ep_len_loop (l : list row) (n : nat) : list nat :=
  match l with
  | [] => []
  | x :: t => if r_last x then (n + 1) :: ep_len_loop t 0 else ep_len_loop t (n + 1)
  end.
Definition episodes_length (l : list row) : list nat := ep_len_loop l 0.

(** n_episodes (numpy_dataset.py 265-272): IndexError on an empty dataset. *)
Definition n_episodes (l : list row) : option nat :=
  let s := length (filter r_last l) in
  j <- pyindex (length l) (-1) ;; x <- nth_error l j ;;
  Some (if r_last x then s else s + 1).

(** np.argwhere(self.last).ravel() *)
Fixpoint argwhere_last (l : list row) (i : nat) : list nat :=
  match l with
  | [] => []
  | x :: t => if r_last x then i :: argwhere_last t (i + 1) else argwhere_last t (i + 1)
  end.

(** select_first_episodes (dataset.py 399-413). *)
Definition select_first_episodes (l : list row) (n : nat) : option (list row) :=
  if 0 <? n then
    i <- nth_error (argwhere_last l 0) (n - 1) ;;
    Some (pyslice l None (Some (Z.of_nat (i + 1))))
  else None.

(** get_init_states (dataset.py 437-451). *)
Fixpoint init_loop (l : list row) (pick : bool) : list St :=
  match l with
  | [] => []
  | x :: t => if pick then r_state x :: init_loop t (r_last x) else init_loop t (r_last x)
  end.
Definition get_init_states (l : list row) : list St := init_loop l true.

(** compute_J (dataset.py 453-479). *)
Fixpoint J_loop (g : R) (l : list row) (j : R) (k : nat) : list R :=
  match l with
  | [] => []
  | x :: t =>
      let j' := (j + g ^ k * r_reward x)%R in
      if r_last x || match t with [] => true | _ => false end
      then j' :: J_loop g t 0 0 else J_loop g t j' (k + 1)
  end.
Definition compute_J (g : R) (l : list row) : list R :=
  match J_loop g l 0 0 with [] => [0%R] | js => js end.

(** compute_metrics (dataset.py 481-511): [cut l] is the value of [i] after the
    reversed loop. *)
Fixpoint cut (l : list row) (n : nat) : nat :=
  match n with
  | O => O
  | S k => match nth_error l k with
           | Some x => if r_last x then k + 1 else match k with O => O | _ => cut l k end
           | None => O
           end
  end.

Definition Rmin_list (l : list R) : R := match l with [] => 0%R | x :: t => fold_left Rmin t x end.
Definition Rmax_list (l : list R) : R := match l with [] => 0%R | x :: t => fold_left Rmax t x end.

(** The backend's median is an arbitrary function (numpy and torch differ). *)
Definition compute_metrics (median : list R -> R) (g : R) (l : list row) : R * R * R * R * nat :=
  let d := pyslice l None (Some (Z.of_nat (cut l (length l)))) in
  match d with
  | [] => (0, 0, 0, 0, 0%nat)%R
  | _ => let J := compute_J g d in
         (Rmin_list J, Rmax_list J, (rsum J / INR (length J))%R, median J, length J)
  end.

(** ** CollectDataset (collect_dataset.py 6-30) on flat datasets *)
Definition collect_call (c : option nds) (d : nds) : option (option nds) :=
  match c with
  | None => Some (Some d)
  | Some c => r <- nd_add c d ;; Some (Some r)
  end.

Definition collect_clean (c : option nds) (gb : nat -> row) (gp : nat -> Ps) : option (option nds) :=
  match c with None => None | Some c => Some (Some (nd_clear c gb gp)) end.

Fixpoint collect_all (c : option nds) (l : list nds) : option (option nds) :=
  match l with
  | [] => Some c
  | d :: t => c' <- collect_call c d ;; collect_all c' t
  end.

End Dataset.

Arguments mkRow {St Ac}. Arguments r_state {St Ac}. Arguments r_action {St Ac}.
Arguments r_reward {St Ac}. Arguments r_next {St Ac}. Arguments r_abs {St Ac}.
Arguments r_last {St Ac}. Arguments set_last {St Ac}.
Arguments mkNds {St Ac Ps}. Arguments nd_buf {St Ac Ps}. Arguments nd_pol {St Ac Ps}.
Arguments nd_len {St Ac Ps}. Arguments rows {St Ac Ps}. Arguments pols {St Ac Ps}.
Arguments nd_append {St Ac Ps}. Arguments nd_clear {St Ac Ps}. Arguments nd_view {St Ac Ps}.
Arguments nd_getitem {St Ac Ps}. Arguments force_last {St Ac}. Arguments nd_add {St Ac Ps}.
Arguments ld_data {St Ac Ps}. Arguments ld_pol {St Ac Ps}. Arguments ld_stateful {St Ac Ps}.
Arguments mkLds {St Ac Ps}. Arguments ld_init {St Ac Ps}. Arguments ld_new {St Ac Ps}.
Arguments ld_append {St Ac Ps}. Arguments ld_clear {St Ac Ps}. Arguments ld_view {St Ac Ps}.
Arguments ld_getitem {St Ac Ps}. Arguments ld_setlast {St Ac Ps}. Arguments ld_add {St Ac Ps}.
Arguments ld_policy_state {St Ac Ps}.
Arguments episodes_length {St Ac}. Arguments n_episodes {St Ac}. Arguments argwhere_last {St Ac}.
Arguments select_first_episodes {St Ac}. Arguments get_init_states {St Ac}.
Arguments J_loop {St Ac}. Arguments compute_J {St Ac}. Arguments cut {St Ac}.
Arguments compute_metrics {St Ac}. Arguments ep_len_loop {St Ac}. Arguments init_loop {St Ac}.
Arguments collect_call {St Ac Ps}. Arguments collect_clean {St Ac Ps}. Arguments collect_all {St Ac Ps}.

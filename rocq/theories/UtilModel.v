(** Model of running statistics, preprocessors, minibatches and angles
    (/repo/mushroom_rl/rl_utils/running_stats.py, rl_utils/preprocessors.py,
    utils/minibatches.py, utils/angles.py).

    Statistics are modelled for one component of the data (the code works
    component-wise); floats are real numbers. *)
From Coq Require Import List Arith Lia Reals Bool.
From Verif Require Import Common.
Import ListNotations.

(** RunningStandardization (running_stats.py 6-84) *)
Record rstd := { rs_n : nat; rs_m : R; rs_s : R }.

Definition rs_init : rstd := {| rs_n := 1; rs_m := 0%R; rs_s := 1%R |}.

Definition bmean (v : list R) : R := (rsum v / INR (length v))%R.

(** update_stats (running_stats.py 52-66); [amin] is the minimum learning rate *)
Definition rs_update (amin : R) (st : rstd) (v : list R) : rstd :=
  let n := rs_n st + length v in
  let alpha := Rmax (INR (length v) / INR n) amin in
  let new_m := ((1 - alpha) * rs_m st + alpha * bmean v)%R in
  let new_s := (rs_s st + (bmean v - rs_m st) * (bmean v - new_m))%R in
  {| rs_n := n; rs_m := new_m; rs_s := new_s |}.

Definition rs_var (st : rstd) : R := (rs_s st / INR (rs_n st))%R.
Definition rs_std (st : rstd) : R := sqrt (rs_var st).

(** RunningExpWeightedAverage.update_stats (running_stats.py 129-140) *)
Definition ew_update (alpha : R) (avg : R) (v : list R) : R :=
  fold_left (fun a x => ((1 - alpha) * a + alpha * x)%R) v avg.

(** RunningAveragedWindow (running_stats.py 152-211): the deque starts with the
    initial value and drops its oldest element when longer than the window. *)
Definition dq_append (w : nat) (buf : list R) (x : R) : list R := lastn w (buf ++ [x]).
Definition win_init (w : nat) (init : R) : list R := lastn w [init].
Definition win_update (w : nat) (buf : list R) (v : list R) : list R := fold_left (dq_append w) v buf.
Definition win_mean (buf : list R) : R := bmean buf.

(** StandardizationPreprocessor.__call__ (preprocessors.py 70-77) *)
Definition clip (lo hi x : R) : R := Rmin (Rmax x lo) hi.
Definition std_call (c : R) (st : rstd) (x : R) : R := clip (- c) c ((x - rs_m st) / rs_std st)%R.

(** MinMaxPreprocessor (preprocessors.py 83-141). Bounds are pairs (low, high); None
    stands for a bound of absolute value at least 1e20. *)
Record minmax := { mm_mask : list nat; mm_run : bool; mm_mean : list R; mm_delta : list R }.

Definition bounded (b : option (R * R)) : bool := match b with Some _ => true | None => false end.
Definition mm_indices (bs : list (option (R * R))) : list nat :=
  filter (fun i => bounded (nth i bs None)) (seq 0 (length bs)).

(** __init__ (preprocessors.py 90-127). The assertion sums the indices kept by
    where(), and len() of the squeezed index array raises when there is one index. *)
Definition mm_init (bs : list (option (R * R))) : option minmax :=
  let mask := mm_indices bs in
  if Nat.eqb (fold_right plus 0 mask) 0 then None
  else if Nat.eqb (length mask) 1 then None
  else Some {| mm_mask := mask; mm_run := negb (Nat.eqb (length mask) (length bs));
               mm_mean := map (fun b => match b with Some (l, h) => (h + l) / 2 | None => 0 end)%R bs;
               mm_delta := map (fun b => match b with Some (l, h) => (h - l) / 2 | None => 1 end)%R bs |}.

(** __call__ (preprocessors.py 130-141): returns the processed observation and the
    content of the caller's array afterwards. [sts] holds the running statistics of
    each component. *)
Definition mm_call (c : R) (p : minmax) (sts : list rstd) (obs : list R) : list R * list R :=
  let base := if mm_run p
              then map (fun q => std_call c (fst q) (snd q)) (combine sts obs)
              else obs in
  let out := fold_left (fun o i => setnth o i ((nth i obs 0 - nth i (mm_mean p) 0) / nth i (mm_delta p) 0)%R)
               (mm_mask p) base in
  (out, if mm_run p then obs else out).

(** minibatch_number (minibatches.py 4-16): ceil(size / batch_size) *)
Definition minibatch_number (size bs : nat) : nat := (size + bs - 1) / bs.

(** minibatch_generator (minibatches.py 19-43): [perm] is the shuffled index array *)
Definition minibatches {A} (d : A) (bs : nat) (perm : list nat) (arrays : list (list A)) : list (list (list A)) :=
  let size := match arrays with [] => 0 | a :: _ => length a end in
  map (fun i => let idx := slice (i * bs) (Nat.min size ((i + 1) * bs)) perm in
                map (fun arr => map (fun j => nth j arr d) idx) arrays)
      (seq 0 (minibatch_number size bs)).

(** math.fmod: the remainder with the sign of the dividend *)
Definition trunc (z : R) : Z := if Rle_dec 0 z then Int_part z else (- Int_part (- z))%Z.
Definition fmod (x y : R) : R := (x - IZR (trunc (x / y)) * y)%R.

(** normalize_angle_positive (angles.py 40-53) *)
Definition normalize_angle_positive (a : R) : R := fmod (fmod a (2 * PI) + 2 * PI) (2 * PI).

(** normalize_angle (angles.py 56-71) *)
Definition normalize_angle (a : R) : R :=
  let b := normalize_angle_positive a in if Rlt_dec PI b then (b - 2 * PI)%R else b.

(** shortest_angular_distance (angles.py 74-86) *)
Definition shortest_angular_distance (from to : R) : R := normalize_angle (to - from).

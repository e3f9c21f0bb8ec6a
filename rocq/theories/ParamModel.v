(** Model of [Table] indexing (/repo/mushroom_rl/approximators/table.py 25-43),
    [Parameter], [LinearParameter], [DecayParameter]
    (/repo/mushroom_rl/rl_utils/parameters.py) and of the variance parameters
    (/repo/mushroom_rl/rl_utils/variance_parameters.py).

    Simplifications: a table is the list of its entries in C order and an index is
    the position in that list; an index outside the table is an IndexError
    ([None]); indices that select a whole row are not modelled; visit counts are
    natural numbers; [n ** exp] is [Rpower]. *)
From Coq Require Import List Arith Lia Reals Bool.
From Verif Require Import Common.
Import ListNotations.

(** table.py 25-43: a table with one entry ignores the index. *)
Definition tbl_pos (len i : nat) : nat := if len =? 1 then 0 else i.
Definition tbl_get {A} (t : list A) (i : nat) : option A := nth_error t (tbl_pos (length t) i).
Definition tbl_set {A} (t : list A) (i : nat) (x : A) : option (list A) := upd t (tbl_pos (length t) i) x.

Inductive kind := KConst | KLinear (coeff : R) | KDecay (exp : R).

(** Attributes of Parameter (parameters.py 33-36) and the subclass data. *)
Record param := mkP {
  p_v0 : R; p_min : option R; p_max : option R; p_n : list nat; p_kind : kind }.

(** np.clip with optional bounds. *)
Definition np_clip (mn mx : option R) (x : R) : R :=
  let y := match mn with Some m => Rmax x m | None => x end in
  match mx with Some m => Rmin y m | None => y end.

(** parameters.py 33-36 *)
Definition param_init (v0 : R) (mn mx : option R) (size : nat) : param :=
  mkP v0 mn mx (repeat 0 size) KConst.

(** LinearParameter.__init__ (parameters.py 140-147). [None]: division by zero. *)
Definition linear_init (v0 th : R) (n size : nat) : option param :=
  if n =? 0 then None else
  let c := ((th - v0) / INR n)%R in
  Some (if Rle_dec 0 c then mkP v0 None (Some th) (repeat 0 size) (KLinear c)
        else mkP v0 (Some th) None (repeat 0 size) (KLinear c)).

(** DecayParameter.__init__ (parameters.py 179-183). *)
Definition decay_init (v0 exp : R) (mn mx : option R) (size : nat) : param :=
  mkP v0 mn mx (repeat 0 size) (KDecay exp).

(** _compute of the three classes (parameters.py 83-89, 151-152, 185-188). *)
Definition p_compute (p : param) (i : nat) : option R :=
  match p_kind p with
  | KConst => Some (p_v0 p)
  | KLinear c => k <- tbl_get (p_n p) i ;; Some (c * INR k + p_v0 p)%R
  | KDecay e => k <- tbl_get (p_n p) i ;; Some (p_v0 p / Rpower (INR (Nat.max k 1)) e)%R
  end.

(** get_value (parameters.py 64-81). *)
Definition p_get (p : param) (i : nat) : option R :=
  v <- p_compute p i ;; Some (np_clip (p_min p) (p_max p) v).

(** update (parameters.py 91-99). *)
Definition p_update (p : param) (i : nat) : option param :=
  k <- tbl_get (p_n p) i ;; t <- tbl_set (p_n p) i (k + 1) ;;
  Some (mkP (p_v0 p) (p_min p) (p_max p) t (p_kind p)).

(** __call__ (parameters.py 45-62). *)
Definition p_call (p : param) (i : nat) : option (R * param) :=
  q <- p_update p i ;; v <- p_get q i ;; Some (v, q).

(** A sequence of calls. *)
Fixpoint p_calls (p : param) (l : list nat) : option (list R * param) :=
  match l with
  | [] => Some ([], p)
  | i :: t => r <- p_call p i ;; s <- p_calls (snd r) t ;; Some (fst r :: fst s, snd s)
  end.

(** ** VarianceParameter, size (1,) (variance_parameters.py 13-80).
    The call super().__init__(value, min_value, size) makes the size the maximum
    value: the counter table always has one entry and the value is clipped at 1. *)
Record vparam := mkVP {
  vp_v0 : R; vp_min : option R; vp_max : option R; vp_tol : R;
  vp_n : nat; vp_w : R; vp_x : R; vp_x2 : R; vp_val : R }.

Definition vp_init (v0 : R) (mn : option R) (tol : R) (size : nat) : vparam :=
  mkVP v0 mn (Some (INR size)) tol 0 0 0 0 0.

Definition vp_counters (size : nat) : nat := 1.

(** VarianceIncreasingParameter, VarianceDecreasingParameter with
    exponential=False (variance_parameters.py 86-112). *)
Definition incr_value (tol sigma : R) : R := (sigma / (sigma + tol))%R.
Definition decr_value (tol sigma : R) : R := (1 / (sigma + tol))%R.

(** update (variance_parameters.py 42-80); [f] is _compute_parameter. *)
Definition vp_update (f : R -> R) (p : vparam) (x factor : R) : vparam :=
  let n := vp_n p in
  let n' := n + 1 in
  let v := if n <? 2 then vp_v0 p
           else f (INR n * (vp_x2 p - vp_x p * vp_x p) / (INR n - 1) * vp_w p)%R in
  mkVP (vp_v0 p) (vp_min p) (vp_max p) (vp_tol p) n'
       ((1 - factor * v) * (1 - factor * v) * vp_w p + factor * v * (factor * v))%R
       (vp_x p + (x - vp_x p) / INR n')%R
       (vp_x2 p + (x * x - vp_x2 p) / INR n')%R v.

Definition vp_value (p : vparam) : R := np_clip (vp_min p) (vp_max p) (vp_val p).

Fixpoint vp_updates (f : R -> R) (p : vparam) (l : list (R * R)) : vparam :=
  match l with [] => p | (x, a) :: t => vp_updates f (vp_update f p x a) t end.

(** ** WindowedVarianceParameter, size (1,) (variance_parameters.py 121-199).
    [_samples] has shape (1, window).  Because the counter table has one entry the
    index is empty, and [self._samples[(index,)] = x] selects a row of the first
    axis (table.py 35-43): row [index] of a table with one row. *)
Record wparam := mkWP { wp_window : nat; wp_index : nat; wp_samples : list (list R) }.

Definition wp_init (window : nat) : wparam := mkWP window 0 [repeat 0%R window].

(** Lines 180-187 for window >= 2; the assignment fills the selected row. *)
Definition wp_store (p : wparam) (x : R) : option wparam :=
  s <- upd (wp_samples p) (wp_index p) (repeat x (wp_window p)) ;;
  let i := wp_index p + 1 in
  Some (mkWP (wp_window p) (if wp_window p <=? i then 0 else i) s).

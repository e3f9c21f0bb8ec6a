(** Model of what is shown of a run: the callbacks that collect lists (callbacks/callback.py, collect_q.py, collect_max_q.py, collect_parameters.py),
    PlotDataset (callbacks/plot_dataset.py), the data buffers, plots and window (utils/plots), mean and confidence (utils/plot.py),
    the video recorder (utils/record.py), the 2D viewer (utils/viewer.py) and the console logger (core/logger/console_logger.py).
    None is a raised exception. Qt, pygame and cv2 are not modelled, only the calls made to them. *)
From Coq Require Import List Arith Reals Bool Lia ZArith.
From Verif Require Import Common.
Import ListNotations.
Local Open Scope nat_scope.

(** * Lists of collected values *)
(** an entry of the list: a copy of the table, or the table itself, which shows later changes *)
Inductive entry (T : Type) := Copied (t : T) | Shared.
Arguments Copied {T}. Arguments Shared {T}.
Definition read {T} (now : T) (e : entry T) : T := match e with Copied t => t | Shared => now end.
(** what happens around a callback: the learner writes the table, the core calls the callback, the user cleans it *)
Inductive event (T : Type) := Learn (t : T) | Call | Clean.
Arguments Learn {T}. Arguments Call {T}. Arguments Clean {T}.
(** CallbackList (callback.py 34-56): the lists made so far, the last one is the current one; get hands out the current list, clean makes a new one *)
Record coll (T E : Type) := mkColl { c_now : T; c_old : list (list E); c_list : list E }.
Arguments mkColl {T E}. Arguments c_now {T E}. Arguments c_old {T E}. Arguments c_list {T E}.
Definition coll_init {T E} (t : T) : coll T E := mkColl t [] [].
Definition coll_event {T E} (take : T -> E) (c : coll T E) (e : event T) : coll T E :=
  match e with
  | Learn t => mkColl t (c_old c) (c_list c)
  | Call => mkColl (c_now c) (c_old c) (c_list c ++ [take (c_now c)])
  | Clean => mkColl (c_now c) (c_old c ++ [c_list c]) []
  end.
Definition coll_run {T E} (take : T -> E) (t0 : T) (ev : list (event T)) : coll T E := fold_left (coll_event take) ev (coll_init t0).
(** CollectQ (collect_q.py 27-34): a deep copy of the table, or the mean of the tables of the ensemble, a new array *)
Definition table := list (list R).
Definition vadd (a b : list R) : list R := map (fun p => (fst p + snd p)%R) (combine a b).
Definition tadd (a b : table) : table := map (fun p => vadd (fst p) (snd p)) (combine a b).
Definition tables_mean (qs : list table) : table :=
  match qs with [] => [] | q :: r => map (map (fun x => (x / INR (length qs))%R)) (fold_left tadd r q) end.
Definition collect_q (t : table) : entry table := Copied t.
Definition collect_q_ensemble (ts : list table) : entry table := Copied (tables_mean ts).
(** CollectMaxQ (collect_max_q.py 25-29): np.max of the prediction in the state *)
Definition maxl (l : list R) : R := match l with [] => 0%R | x :: r => fold_left Rmax r x end.
Definition collect_max_q (predict : table -> list R) (t : table) : entry R := Copied (maxl (predict t)).
(** CollectParameters (collect_parameters.py 27-31): the value, copied when it is an array *)
Definition collect_parameter {P V} (value : P -> V) (p : P) : entry V := Copied (value p).

(** * Data buffers and the dataset plot *)
(** DataBuffer.update (databuffer.py 37-46): a queue with optional maximal length *)
Definition trim {A} (w : option nat) (l : list A) : list A := match w with None => l | Some n => lastn n l end.
Definition buf_update {A} (w : option nat) (tracking : bool) (b data : list A) : list A := if tracking then trim w (b ++ data) else b.
Record psample := { s_obs : list R; s_act : list R; s_rew : R; s_last : bool }.
Record pdata := { d_act : list (list R); d_obs : list (list R); d_instant : list R; d_rewards : list R; d_lens : list nat; d_rsum : R; d_len : nat }.
(** __init__ (plot_dataset.py 41-52, 100-101) *)
Definition pd_init (na no : nat) : pdata :=
  {| d_act := repeat [] na; d_obs := repeat [] no; d_instant := []; d_rewards := []; d_lens := []; d_rsum := 0; d_len := 0 |}.
Definition upd_all (w : nat) (tr : bool) (bs : list (list R)) (v : list R) : list (list R) :=
  map (fun p => buf_update (Some w) tr (fst p) [snd p]) (combine bs v).
(** __call__ (plot_dataset.py 103-126); [tr] says which of the rewards per step, actions and observations are tracked (Window) *)
Definition pd_call (w : nat) (tr : bool * bool * bool) (d : pdata) (s : psample) : pdata :=
  let '(tr_r, tr_a, tr_o) := tr in
  let rs := (d_rsum d + s_rew s)%R in let n := S (d_len d) in
  {| d_act := upd_all w tr_a (d_act d) (s_act s); d_obs := upd_all w tr_o (d_obs d) (s_obs s);
     d_instant := buf_update (Some w) tr_r (d_instant d) [s_rew s];
     d_rewards := if s_last s then buf_update None true (d_rewards d) [rs] else d_rewards d;
     d_lens := if s_last s then buf_update None true (d_lens d) [n] else d_lens d;
     d_rsum := if s_last s then 0%R else rs; d_len := if s_last s then 0 else n |}.
Definition pd_run (w : nat) (tr : bool * bool * bool) (d : pdata) (ss : list psample) : pdata := fold_left (pd_call w tr) ss d.

(** * Window *)
(** a plot: its item is green, the items of its curves are green, its buffers are tracked, it is refreshed, track_if_deactivated *)
Record plot := mkPlot { p_green : bool; p_curves : list bool; p_track : bool; p_refresh : bool; p_keep : bool }.
Record window := mkWin { w_all : bool; w_plots : list plot }.
(** __init__ (window.py 18-88, 190-194): every plot is deactivated; a single flag (the default) cannot be indexed. The names are assumed distinct. *)
Definition plot_init (p : bool * nat) : plot := mkPlot false (repeat false (snd p)) (fst p) false (fst p).
Definition window_init (flags : option (list bool)) (curves : list nat) : option window :=
  match flags with
  | None => match curves with [] => Some (mkWin false []) | _ => None end
  | Some fs => if Nat.leb (length curves) (length fs) then Some (mkWin false (map plot_init (combine fs curves))) else None
  end.
(** activate, deactivate of a plot (window.py 124-157, 190-199) *)
Definition activate (p : plot) : plot :=
  if p_green p then p else mkPlot true (p_curves p) (match p_curves p with [] => p_track p | _ => true end)
                             (match p_curves p with [] => p_refresh p | _ => true end) (p_keep p).
Definition deactivate (p : plot) : plot :=
  if p_green p then mkPlot false (map (fun _ => false) (p_curves p)) (if p_keep p then p_track p else false) false (p_keep p) else p.
Definition flip_curve (j : nat) (p : plot) : plot :=
  mkPlot (p_green p) (map (fun x => if Nat.eqb (fst x) j then negb (snd x) else snd x) (combine (seq 0 (length (p_curves p))) (p_curves p)))
    (p_track p) (p_refresh p) (p_keep p).
Definition set_curves (b : bool) (p : plot) : plot := mkPlot (p_green p) (map (fun _ => b) (p_curves p)) (p_track p) (p_refresh p) (p_keep p).
Inductive click := ClickAll | ClickPlot (i : nat) | ClickCurve (i j : nat).
Definition map_at {A} (i : nat) (f : A -> A) (l : list A) : list A :=
  map (fun x => if Nat.eqb (fst x) i then f (snd x) else snd x) (combine (seq 0 (length l)) l).
(** clicked (window.py 159-188) *)
Definition clicked (w : window) (c : click) : window :=
  match c with
  | ClickAll => if w_all w then mkWin false (map (fun p => set_curves false (deactivate p)) (w_plots w))
                else mkWin true (map (fun p => set_curves true (activate p)) (w_plots w))
  | ClickPlot i => mkWin (w_all w) (map_at i (fun p => if p_green p then deactivate p else activate p) (w_plots w))
  | ClickCurve i j => mkWin (w_all w) (map_at i (flip_curve j) (w_plots w))
  end.

(** * Colours *)
(** get_n_colors (plot_item_buffer.py 151-175): the cube root rounded down, then a sample without repetition of the grid points. [d] is max - min. *)
Definition side (d n : nat) : nat := match find (fun s => Nat.leb (s * s * s * n) (d * d * d)) (rev (seq 0 (S d))) with Some s => s | None => 0 end.
(** np.arange(min, max, side): None is the division by zero *)
Definition grid_points (d n : nat) : option nat := let s := side d n in if Nat.eqb s 0 then None else Some ((d + s - 1) / s).
(** the colours of the curves (plot_item_buffer.py 37-46): every curve takes its entry of a sample of its own *)
Definition curve_colors {C} (d : C) (samples : nat -> list C) (n : nat) : list C := map (fun k => nth k (samples k) d) (seq 0 n).

(** * Mean and confidence *)
(** get_mean_and_confidence (plot.py 5-21) on one epoch; [q] is the 0.975 quantile of the t distribution by degrees of freedom; nan (None) for
    fewer than two runs *)
Definition mean (l : list R) : R := (rsum l / INR (length l))%R.
Definition sem (l : list R) : option R :=
  if Nat.leb 2 (length l) then
    Some (sqrt (rsum (map (fun x => (x - mean l) ^ 2) l) / INR (length l - 1) / INR (length l)))%R
  else None.
Definition mean_conf (q : nat -> R) (l : list R) : R * option R := (mean l, option_map (fun s => (q (length l - 1)%nat * s)%R) (sem l)).

(** * Video recorder *)
(** record.py 12-69: finished files (number in the name, frames), the number of the next one, the open writer *)
Record recorder (F : Type) := mkRec { r_files : list (nat * list F); r_counter : nat; r_writer : option (list F) }.
Arguments mkRec {F}. Arguments r_files {F}. Arguments r_counter {F}. Arguments r_writer {F}.
Definition rec_init {F} : recorder F := mkRec [] 0 None.
Definition rec_frame {F} (r : recorder F) (f : F) : recorder F :=
  mkRec (r_files r) (r_counter r) (Some (match r_writer r with None => [f] | Some w => w ++ [f] end)).
Definition rec_stop {F} (r : recorder F) : option (recorder F) :=
  match r_writer r with None => None | Some w => Some (mkRec (r_files r ++ [(r_counter r, w)]) (S (r_counter r)) None) end.
Definition record_run {F} (r : recorder F) (frames : list F) : option (recorder F) := rec_stop (fold_left rec_frame frames r).

(** * Viewer *)
(** _rotate, _transform (viewer.py 360-367); astype(int) rounds towards zero *)
Definition rotate (p : R * R) (theta : R) : R * R := (cos theta * fst p - sin theta * snd p, sin theta * fst p + cos theta * snd p)%R.
Definition to_int (x : R) : Z := if Rle_dec 0 x then Int_part x else (- Int_part (- x))%Z.
Definition transform (ratio : R * R) (height : R) (p : R * R) : Z * Z := (to_int (fst p * fst ratio), to_int (height - snd p * snd ratio))%R.
(** polygon (viewer.py 169-190): the corners on the screen *)
Definition corners (center : R * R) (angle : R) (points : list (R * R)) : list (R * R) :=
  map (fun p => let q := rotate p angle in (fst q + fst center, snd q + snd center)%R) points.
(** torque_arrow (viewer.py 256-287): the value of the caller's array [center] afterwards; None: nothing drawn *)
Definition torque_center (center : R * R) (torque max_torque max_radius ratio : R) : R * R :=
  let radius := (Rabs torque / max_torque * max_radius)%R in
  let sign := if Rlt_dec 0 torque then 1%R else if Rlt_dec torque 0 then (-1)%R else 0%R in
  if Z.eqb (to_int (radius * ratio)) 0 then center else (fst center, snd center - radius * sign)%R.

(** * Console logger *)
(** the logging module keeps one logger per name, with its handlers; a handler is a console or a file, with its level *)
Record handler := mkH { h_file : option nat; h_level : nat }.
Record named := mkNamed { n_level : nat; n_handlers : list handler }.
Definition registry := nat -> named.
Definition regset (r : registry) (k : nat) (v : named) : registry := fun i => if Nat.eqb i k then v else r i.
(** ConsoleLogger.__init__ (console_logger.py 26-65), __del__ (140-141) *)
Definition logger_new (r : registry) (id : nat) (file : option nat) (lc lf : nat) : registry :=
  regset r id (mkNamed (Nat.min lc lf) (n_handlers (r id) ++ mkH None lc :: match file with Some f => [mkH (Some f) lf] | None => [] end)).
Definition logger_del (r : registry) (id : nat) : registry := regset r id (mkNamed (n_level (r id)) []).
(** a message of a level: where it is written, in order *)
Definition emitted (r : registry) (id level : nat) : list (option nat) :=
  if Nat.leb (n_level (r id)) level then map h_file (filter (fun h => Nat.leb (h_level h) level) (n_handlers (r id))) else [].

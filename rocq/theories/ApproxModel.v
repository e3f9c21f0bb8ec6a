(** Model of the linear, tile-coding, action-wise and ensemble approximators
    (/repo/mushroom_rl/approximators/parametric/linear.py, parametric/cmac.py,
    _implementations/action_regressor.py, _implementations/q_regressor.py, regressor.py,
    ensemble.py).  Floats are real numbers.  Weight matrices are lists of rows, one per output. *)
From Coq Require Import List Arith Lia Reals Bool.
From Verif Require Import Common FeatModel TdModel.
Import ListNotations.

(** * LinearApproximator (linear.py); inputs are given by their feature vectors *)

(** predict (linear.py 69-75): row i is phi_i . W^T *)
Definition lin_row (W : list (list R)) (phi : list R) : list R := map (fun w => dot phi w) W.
Definition lin_predict (W : list (list R)) (phis : list (list R)) : list (list R) := map (lin_row W) phis.

(** get_weights (linear.py 93): flatten, row by row *)
Definition lin_get (W : list (list R)) : list R := concat W.
Definition n_phi (W : list (list R)) : nat := length (hd [] W).

(** numpy reshape of a flat array into [r] rows of [c] entries *)
Fixpoint chunk (r c : nat) (w : list R) : list (list R) :=
  match r with O => [] | S r' => firstn c w :: chunk r' c (skipn c w) end.
(** set_weights (linear.py 103): ValueError if the sizes differ *)
Definition lin_set (W : list (list R)) (w : list R) : option (list (list R)) :=
  if Nat.eqb (length w) (length W * n_phi W) then Some (chunk (length W) (n_phi W) w) else None.

(** z[start:start + length f] = f *)
Definition set_slice (z : list R) (start : nat) (f : list R) : list R :=
  firstn start z ++ f ++ skipn (start + length f) z.

(** diff (linear.py 124-147): a vector, or the list of the columns of a matrix.  The slice
    assignment of an action outside the range raises ValueError. *)
Inductive grad := GVec (g : list R) | GCols (g : list (list R)).
Definition lin_diff (W : list (list R)) (phi : list R) (action : option nat) : option grad :=
  if Nat.eqb (length W) 1 then Some (GVec phi) else
  let z := repeat 0%R (n_phi W * length W) in
  match action with
  | None => Some (GCols (map (fun i => set_slice z (i * n_phi W) phi) (seq 0 (length W))))
  | Some a => if Nat.ltb a (length W) then Some (GVec (set_slice z (a * n_phi W) phi)) else None
  end.

(** fit (linear.py 53-54), entry (o, j) of the new weights; [P] is np.linalg.pinv(phi),
    [N] the number of samples, [y i o] the targets. *)
Definition lin_fit (N : nat) (P : nat -> nat -> R) (y : nat -> nat -> R) (o j : nat) : R :=
  rsum (map (fun i => P j i * y i o)%R (seq 0 N)).

(** * CMAC (cmac.py): tilings are their size and lookup function *)
Definition tilings X := list (nat * (X -> option nat)).
Definition answers {X} (ts : tilings X) (x : X) : list (nat * option nat) := map (fun t => (fst t, snd t x)) ts.
Definition cmac_phi {X} (ts : tilings X) (x : X) : list R := tf_call (answers ts x).
Definition cmac_indexes {X} (ts : tilings X) (x : X) : list nat := tf_indexes (answers ts x) 0.

(** predict (cmac.py 70-79) before the squeeze: np.sum(self._w[:, idx], axis=-1) *)
Definition cmac_row {X} (ts : tilings X) (W : list (list R)) (x : X) : list R :=
  map (fun w => rsum (map (fun j => nth j w 0%R) (cmac_indexes ts x))) W.

(** Results of predict: a number, a vector or a matrix; numpy squeeze (cmac.py 79) *)
Inductive arr := A0 (v : R) | A1 (v : list R) | A2 (m : list (list R)).
Definition squeeze (m : list (list R)) : arr :=
  match m with
  | [[v]] => A0 v
  | [r] => A1 r
  | _ => if forallb (fun r => Nat.eqb (length r) 1) m then A1 (map (fun r => nth 0 r 0%R) m) else A2 m
  end.
Definition cmac_predict {X} (ts : tilings X) (W : list (list R)) (xs : list X) : arr := squeeze (map (cmac_row ts W) xs).

(** fit (cmac.py 44-57): the new weights; [ys o] are the targets of output [o].
    [None] when some input is outside every tiling: the division by n = 0 (line 52) fills the
    weights with NaN. *)
Definition cmac_delta {X} (ts : tilings X) (w : list R) (xs : list X) (y : list R) : list R :=
  map (fun p => snd p - rsum (map (fun j => nth j w 0%R) (cmac_indexes ts (fst p))))%R (combine xs y).
Definition cmac_dw {X} (ts : tilings X) (xs : list X) (delta : list R) (j : nat) : R :=
  let sum_phi := rsum (map (fun x => nth j (cmac_phi ts x) 0%R) xs) in
  (rsum (map (fun p => snd p * (nth j (cmac_phi ts (fst p)) 0 / rsum (cmac_phi ts (fst p))))%R (combine xs delta))
   / (if Req_EM_T sum_phi 0 then 1 else sum_phi))%R.
Definition cmac_fit {X} (ts : tilings X) (alpha : R) (W : list (list R)) (xs : list X) (ys : list (list R)) : option (list (list R)) :=
  if forallb (fun x => if Req_EM_T (rsum (cmac_phi ts x)) 0 then false else true) xs then
    Some (map (fun p => map (fun j => nth j (fst p) 0 + alpha * cmac_dw ts xs (cmac_delta ts (fst p) xs (snd p)) j)%R
                            (seq 0 (length (fst p)))) (combine W ys))
  else None.

(** diff (cmac.py 93-94): the features are computed here and once more by the super class.
    The state space is the one of the feature vectors as well: R^k as lists. *)
Definition cmac_diff (ts : tilings (list R)) (W : list (list R)) (x : list R) (action : option nat) : option grad :=
  lin_diff W (cmac_phi ts (cmac_phi ts x)) action.

(** * ActionRegressor (action_regressor.py): one model per action.
      The model class is given by its point-wise prediction and its fit. *)
Section ActionReg.
Variables M X : Type.
Variable pred : M -> X -> R.
Variable fit1 : M -> list X -> list R -> M.
Variables (dx : X) (dm : M).

(** np.argwhere((action == i)[:, 0]).ravel() *)
Definition idxs_of (actions : list nat) (i : nat) : list nat :=
  filter (fun k => Nat.eqb (nth k actions 0) i) (seq 0 (length actions)).
Definition gather {A} (d : A) (l : list A) (ks : list nat) : list A := map (fun k => nth k l d) ks.
(** q[idxs] = v *)
Definition scatter (q : list R) (ks : list nat) (v : list R) : list R :=
  fold_left (fun q p => setnth q (fst p) (snd p)) (combine ks v) q.

(** fit (action_regressor.py 45-49) *)
Definition ar_fit (ms : list M) (states : list X) (actions : list nat) (q : list R) : list M :=
  fold_left (fun ms i =>
      let ks := idxs_of actions i in
      if Nat.eqb (length ks) 0 then ms else setnth ms i (fit1 (nth i ms dm) (gather dx states ks) (gather 0%R q ks)))
    (seq 0 (length ms)) ms.

(** predict with actions (action_regressor.py 71-78) *)
Definition ar_predict_sa (ms : list M) (states : list X) (actions : list nat) : list R :=
  fold_left (fun q i =>
      let ks := idxs_of actions i in
      if Nat.eqb (length ks) 0 then q else scatter q ks (map (pred (nth i ms dm)) (gather dx states ks)))
    (seq 0 (length ms)) (repeat 0%R (length states)).
(** predict of all actions (action_regressor.py 79-84): rows, after the columns are assigned *)
Definition ar_predict_s (ms : list M) (states : list X) : list (list R) :=
  map (fun s => map (fun i => pred (nth i ms dm) s) (seq 0 (length ms))) states.
End ActionReg.

(** get_weights and set_weights with linear models (action_regressor.py 105-117) *)
Definition ar_get (ms : list (list (list R))) : list R := concat (map lin_get ms).
Definition weights_size (W : list (list R)) : nat := length W * n_phi W.
Fixpoint ar_set_loop (size i : nat) (ms : list (list (list R))) (w : list R) : option (list (list (list R))) :=
  match ms with
  | [] => Some []
  | m :: ms' =>
      match lin_set m (slice (i * size) (i * size + size) w) with
      | None => None
      | Some m' => match ar_set_loop size (S i) ms' w with Some r => Some (m' :: r) | None => None end
      end
  end.
Definition ar_set (ms : list (list (list R))) (w : list R) : option (list (list (list R))) :=
  ar_set_loop (weights_size (hd [] ms)) 0 ms w.
(** diff with an action (action_regressor.py 127-132), linear models with one output *)
Definition ar_diff (ms : list (list (list R))) (phi : list R) (a : nat) : list R :=
  let s := weights_size (nth a ms []) in
  set_slice (repeat 0%R (s * length ms)) (s * a) phi.

(** * QRegressor.predict (q_regressor.py 62-72) on the result of the model *)
Definition q_select (q : arr) (actions : list nat) : option (list R) :=
  match q with
  | A0 _ => None
  | A1 q => Some (map (fun a => nth a q 0%R) actions)
  | A2 m => Some (map (fun p => nth (snd p) (fst p) 0%R) (combine m actions))
  end.
(** Regressor.predict for a single state (regressor.py 122-127): the first entry of the batch result *)
Definition reg_single (q : arr) : option arr :=
  match q with
  | A0 _ => None
  | A1 v => match v with [] => None | x :: _ => Some (A0 x) end
  | A2 m => match m with [] => None | r :: _ => Some (A1 r) end
  end.

(** * Ensemble.predict (ensemble.py 72-112), numpy predictions of one entry over the models *)
Inductive ens_mode := EMean | ESum | EMin | EMax.
Definition lmin (l : list R) : R := fold_left Rmin (tl l) (hd 0%R l).
Definition lmax (l : list R) : R := fold_left Rmax (tl l) (hd 0%R l).
Definition ens_predict (mode : ens_mode) (preds : list R) : R :=
  match mode with
  | EMean => rsum preds / INR (length preds)
  | ESum => rsum preds
  | EMin => lmin preds
  | EMax => lmax preds
  end.
(** predictions.var(0): numpy divides by n, torch by n - 1 *)
Definition ens_var (torch : bool) (preds : list R) : R :=
  let m := (rsum preds / INR (length preds))%R in
  (rsum (map (fun p => (p - m) ^ 2)%R preds) / (if torch then INR (length preds) - 1 else INR (length preds)))%R.

(** * Buffers: reshape gives a view, so an approximator shares its weights with the array it
      was given.  A heap maps addresses to flat arrays. *)
Definition heap := nat -> list R.
Record view := { v_addr : nat; v_rows : nat; v_cols : nat }.
(** set_weights (linear.py 103) *)
Definition view_set (v : view) (addr : nat) : view := {| v_addr := addr; v_rows := v_rows v; v_cols := v_cols v |}.
Definition view_rows (h : heap) (v : view) : list (list R) := chunk (v_rows v) (v_cols v) (h (v_addr v)).
(** self._w += alpha * delta_w (cmac.py 57): in place *)
Definition view_fit {X} (ts : tilings X) (alpha : R) (h : heap) (v : view) (xs : list X) (ys : list (list R)) : option heap :=
  match cmac_fit ts alpha (view_rows h v) xs ys with
  | Some W => Some (fun a => if Nat.eqb a (v_addr v) then concat W else h a)
  | None => None
  end.

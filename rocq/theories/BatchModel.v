(** Batch value methods: algorithms/value/batch_td/{fqi,double_fqi,boosted_fqi,lspi}.py.

    A regressor is an abstract model with a function [fit] (model, states, actions, targets) and
    a function [pred] giving the values of all actions in a state; both are arbitrary.  The
    batch prediction is the list of the predictions.  Floats are reals.  The number of
    iterations is the value of the parameter at the beginning of [fit].  numpy.linalg.solve and
    pinv are one argument of LSPI; the while loop has a fuel.  The progress bar is not modelled. *)
From Coq Require Import List Arith Lia Reals Bool.
From Verif Require Import Common FeatModel TdModel DqnModel ApproxModel Mat.
Import ListNotations.
Local Open Scope R_scope.

Record bsample (X : Type) := { b_s : X; b_a : nat; b_r : R; b_s' : X; b_abs : bool }.
Arguments b_s {X}. Arguments b_a {X}. Arguments b_r {X}. Arguments b_s' {X}. Arguments b_abs {X}.

Section Fqi.
Context {X M : Type}.
Variable pred : M -> X -> list R.
Variable fit : M -> list X -> list nat -> list R -> M.
Variable gamma : R.

Definition add_targets (r q : list R) : list R := map (fun p => fst p + gamma * snd p) (combine r q).

(** Body of the loop of FQI.fit (fqi.py 38-49); the state is the approximator and self._target.
    Lines 42-46 are those of DQN._next_q. *)
Definition fqi_iter (D : list (bsample X)) (st : M * option (list R)) : M * option (list R) :=
  let '(m, target) := st in
  let target' := match target with
    | None => map b_r D
    | Some _ => add_targets (map b_r D) (dqn_next_q (map (fun x => pred m (b_s' x)) D) (map b_abs D))
    end in
  (fit m (map b_s D) (map b_a D) target', Some target').
Fixpoint fqi_fit (n : nat) (D : list (bsample X)) (st : M * option (list R)) : M * option (list R) :=
  match n with O => st | S n' => fqi_fit n' D (fqi_iter D st) end.

(** DoubleFQI.fit (double_fqi.py 23-56): two models; the dataset slices of lines 31-33 *)
Definition dfqi_part (D : list (bsample X)) (i : nat) : list (bsample X) :=
  let half := (length D / 2)%nat in slice (i * half) ((i + 1) * half) D.
Definition dfqi_iter (D : list (bsample X)) (st : (M * M) * option (list R * list R)) : (M * M) * option (list R * list R) :=
  let '((m0, m1), target) := st in
  let D0 := dfqi_part D 0 in
  let D1 := dfqi_part D 1 in
  let q m (Di : list (bsample X)) := map (fun x => pred m (b_s' x)) Di in
  let '(t0, t1) := match target with
    | None => (map b_r D0, map b_r D1)
    | Some _ => (add_targets (map b_r D0) (double_next_q (q m0 D0) (q m1 D0) (map b_abs D0)),
                 add_targets (map b_r D1) (double_next_q (q m1 D1) (q m0 D1) (map b_abs D1)))
    end in
  ((fit m0 (map b_s D0) (map b_a D0) t0, fit m1 (map b_s D1) (map b_a D1) t1), Some (t0, t1)).
Fixpoint dfqi_fit (n : nat) (D : list (bsample X)) (st : (M * M) * option (list R * list R)) : (M * M) * option (list R * list R) :=
  match n with O => st | S n' => dfqi_fit n' D (dfqi_iter D st) end.

(** BoostedFQI.fit (boosted_fqi.py 34-57); lines 37-46 are in [boosted_targets].  [f_pred] and [f_nextq] are None while they are the
    scalar 0. of the constructor.  A model index outside the ensemble is an IndexError. *)
Record boosted := { f_models : list M; f_target : option (list R); f_pred : option (list R);
                    f_nextq : option (list (list R)); f_idx : nat }.
Definition badd (a : option (list (list R))) (b : list (list R)) : list (list R) :=
  match a with None => b | Some a => map (fun p => TdModel.vadd (fst p) (snd p)) (combine a b) end.
Definition bmask (absorbing : list bool) (q : list (list R)) : list (list R) :=
  if existsb (fun b => b) absorbing then map (fun qa => map (fun x => x * (1 - flag (snd qa))) (fst qa)) (combine q absorbing) else q.
Definition bsub (t : list R) (p : option (list R)) : list R :=
  match p with None => t | Some p => map (fun x => fst x - snd x) (combine t p) end.
Definition baddv (p : option (list R)) (t : list R) : list R :=
  match p with None => t | Some p => TdModel.vadd p t end.
Definition boosted_targets (D : list (bsample X)) (st : boosted) : option (list R * option (list (list R))) :=
  match f_target st with
  | None => Some (map b_r D, f_nextq st)
  | Some _ =>
      match nth_error (f_models st) (f_idx st - 1) with
      | None => None
      | Some m =>
          let q := bmask (map b_abs D) (badd (f_nextq st) (map (fun x => pred m (b_s' x)) D)) in
          Some (add_targets (map b_r D) (map rowmax q), Some q)
      end
  end.
Definition boosted_iter (D : list (bsample X)) (st : boosted) : option boosted :=
  match boosted_targets D st with None => None | Some tq =>
  let t := bsub (fst tq) (f_pred st) in
  match nth_error (f_models st) (f_idx st) with
  | None => None
  | Some m => Some {| f_models := setnth (f_models st) (f_idx st) (fit m (map b_s D) (map b_a D) t);
                      f_target := Some t; f_pred := Some (baddv (f_pred st) t);
                      f_nextq := snd tq; f_idx := S (f_idx st) |}
  end end.
Fixpoint boosted_fit (n : nat) (D : list (bsample X)) (st : boosted) : option boosted :=
  match n with O => Some st | S n' => match boosted_iter D st with None => None | Some st' => boosted_fit n' D st' end end.
Definition boosted_init (ms : list M) : boosted :=
  {| f_models := ms; f_target := None; f_pred := None; f_nextq := None; f_idx := 0 |}.
End Fqi.

(** * LSPI.fit (lspi.py 31-58); [phi] the features of a state, all of the same length; the weights
    of the linear approximator are the flat vector [w] (get_weights, set_weights), one block per
    action; [solve A b] stands for lines 52-55. *)
Section Lspi.
Context {X : Type}.
Variable phi : X -> list R.
Variables (nphi n_actions : nat).
Variable gamma : R.
Variable solve : mat -> vec -> vec.

Definition lspi_dim : nat := (n_actions * nphi)%nat.
(** predict (linear.py 69-75) on the reshaped weights *)
Definition lspi_q (w : vec) (x : X) : list R :=
  lin_row (map (fun a => map (fun k => w (a * nphi + k)%nat) (seq 0 nphi)) (seq 0 n_actions)) (phi x).
(** get_action_features *)
Definition lspi_phi (x : X) (a : nat) : vec := fun k => nth k (action_features (phi x) a n_actions) 0.
(** Lines 41-45: the next action *)
Definition lspi_next (D : list (bsample X)) (w : vec) (x : bsample X) : nat :=
  let q := lspi_q w (b_s' x) in
  argmax (if existsb b_abs D then map (fun v => v * (1 - flag (b_abs x))) q else q).
(** Lines 46-49 *)
Definition lspi_A (D : list (bsample X)) (w : vec) : mat :=
  fun j k => rsum (map (fun x => lspi_phi (b_s x) (b_a x) j * (lspi_phi (b_s x) (b_a x) k - gamma * lspi_phi (b_s' x) (lspi_next D w x) k)) D).
Definition lspi_b (D : list (bsample X)) : vec :=
  fun j => rsum (map (fun x => lspi_phi (b_s x) (b_a x) j * b_r x) D).
Definition lspi_step (D : list (bsample X)) (w : vec) : vec := solve (lspi_A D w) (lspi_b D).
Definition vnorm (v : vec) : R := sqrt (sm lspi_dim (fun k => v k ^ 2)).
(** The loop: entered with an infinite norm; result: the last weights and those before them *)
Fixpoint lspi_loop (fuel : nat) (eps : R) (D : list (bsample X)) (w : vec) : option (vec * vec) :=
  match fuel with
  | O => None
  | S f => let w' := lspi_step D w in
           if Rlt_dec eps (vnorm (vsub w' w)) then lspi_loop f eps D w' else Some (w', w)
  end.
End Lspi.

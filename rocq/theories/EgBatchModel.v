(** EpsGreedy.draw_action on a batch of states, as [VectorCore._step] calls it
    (/repo/mushroom_rl/policy/td_policy.py 82-93, /repo/mushroom_rl/core/vectorized_core.py 151-153,
    /repo/mushroom_rl/core/multiprocess_environment.py 113-116).

    [q] is the prediction of the approximator: one row per state, one column per action.  [u] is
    np.random.uniform(), [c] the position np.random.choice takes, [r] the random action. *)
From Coq Require Import List Arith Lia Reals Bool.
From Verif Require Import Common PolicyModel.
Import ListNotations.

(** np.max of the matrix *)
Definition mat_max (q : list (list R)) : R := qmax (concat q).
Definition entry (q : list (list R)) (i j : nat) : R := nth j (nth i q []) 0%R.
(** np.argwhere(q == np.max(q)).ravel(): row and column of each maximal entry, row by row *)
Definition argwhere_ravel (q : list (list R)) : list nat :=
  flat_map (fun i => flat_map (fun j => if Req_EM_T (entry q i j) (mat_max q) then [i; j] else []) (seq 0 (length (nth i q [])))) (seq 0 (length q)).
(** draw_action: a one-dimensional array *)
Definition eg_draw_batch (q : list (list R)) (eps u : R) (c r : nat) : list nat :=
  if Rlt_dec u eps then [r]
  else let max_a := argwhere_ravel q in
       if 1 <? length max_a then [nth c max_a 0] else max_a.

(** The action array of a step: one dimension, or one row per environment *)
Inductive actions := OneDim (a : list nat) | TwoDim (a : list (list nat)).
(** step_all sends action[i, :] to the environment [i] of the mask; None is the IndexError *)
Definition sent (a : actions) (i : nat) : option (list nat) :=
  match a with OneDim _ => None | TwoDim l => nth_error l i end.
Fixpoint step_all (a : actions) (i : nat) (mask : list bool) : option (list (option (list nat))) :=
  match mask with
  | [] => Some []
  | b :: t => match (if b then option_map Some (sent a i) else Some None), step_all a (S i) t with
              | Some x, Some l => Some (x :: l)
              | _, _ => None
              end
  end.
Definition eg_vector_step (q : list (list R)) (eps u : R) (c r : nat) (mask : list bool) := step_all (OneDim (eg_draw_batch q eps u c r)) 0 mask.

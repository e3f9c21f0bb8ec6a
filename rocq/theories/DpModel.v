(** Dynamic programming solvers (mushroom_rl/solvers/dynamic_programming.py).
    Arrays of shape (n, m, n) are functions of three indices, value vectors are lists of
    length n, reals are ideal. *)
From Coq Require Import List Arith Lia Reals Bool.
From Verif Require Import Common.
Import ListNotations.

Section Mdp.
Variables (n m : nat) (p r : nat -> nat -> nat -> R) (gamma : R).

(** dynamic_programming.py 31-32, 83: prob_state_action.T.dot(reward_state_action + gamma * value) *)
Definition backup (v : list R) (s a : nat) : R :=
  rsum (map (fun j => p s a j * (r s a j + gamma * nth j v 0))%R (seq 0 n)).

(** dynamic_programming.py 27-33: vmax = -inf (None); vmax = max(va, vmax) *)
Definition best (v : list R) (s : nat) : option R :=
  fold_left (fun vmax a => let va := backup v s a in Some (match vmax with None => va | Some x => Rmax va x end)) (seq 0 m) None.

(** dynamic_programming.py 26-35: one sweep, reading value_old and writing value in place.
    Without actions the entry would be -inf; 0 is written instead and the theorems ask
    for at least one action. *)
Definition vi_sweep (value_old : list R) : list R :=
  fold_left (fun value s => setnth value s (match best value_old s with Some x => x | None => 0%R end)) (seq 0 n) value_old.

(** np.linalg.norm(value - value_old) *)
Definition norm_diff (v w : list R) : R := sqrt (rsum (map (fun s => (nth s v 0 - nth s w 0) ^ 2)%R (seq 0 n))).

(** dynamic_programming.py 23-37 (while True); None when the fuel is exhausted *)
Fixpoint vi_loop (eps : R) (fuel : nat) (value : list R) : option (list R) :=
  match fuel with
  | 0 => None
  | S f => let value' := vi_sweep value in
           if Rle_dec (norm_diff value' value) eps then Some value' else vi_loop eps f value'
  end.
Definition value_iteration (eps : R) (fuel : nat) : option (list R) := vi_loop eps fuel (repeat 0%R n).

(** np.isclose(a, b) with the default tolerances *)
Definition isclose (a b : R) : bool :=
  if Rle_dec (Rabs (a - b)) (/ 100000000 + / 100000 * Rabs b) then true else false.

(** dynamic_programming.py 60-72: i - gamma * p_pi and r_pi *)
Definition pi_matrix (pol : list nat) (s j : nat) : R :=
  ((if Nat.eqb s j then 1 else 0) - gamma * p s (nth s pol 0%nat) j)%R.
Definition pi_reward (pol : list nat) (s : nat) : R :=
  rsum (map (fun j => p s (nth s pol 0%nat) j * r s (nth s pol 0%nat) j)%R (seq 0 n)).

(** dynamic_programming.py 78-88: the loop over the actions of one state. The state of
    the loop is (policy[state], vmax, changed). *)
Definition improve_action (v : list R) (s : nat) (st : nat * R * bool) (a : nat) : nat * R * bool :=
  let '(cur, vmax, changed) := st in
  if Nat.eqb a cur then st
  else let va := backup v s a in
       if Rlt_dec vmax va then if isclose va vmax then st else (a, va, true) else st.
Definition improve_state (v : list R) (pc : list nat * bool) (s : nat) : list nat * bool :=
  let '(cur, _, changed) := fold_left (improve_action v s) (seq 0 m) (nth s (fst pc) 0, nth s v 0%R, snd pc) in
  (setnth (fst pc) s cur, changed).
Definition improve (v : list R) (pol : list nat) : list nat * bool := fold_left (improve_state v) (seq 0 n) (pol, false).

(** dynamic_programming.py 57-90. [solve] is np.linalg.solve. *)
Variable solve : (nat -> nat -> R) -> (nat -> R) -> list R.
Fixpoint pi_loop (fuel : nat) (pol : list nat) : option (list R * list nat) :=
  match fuel with
  | 0 => None
  | S f => let v := solve (pi_matrix pol) (pi_reward pol) in
           let '(pol', changed) := improve v pol in
           if changed then pi_loop f pol' else Some (v, pol')
  end.
Definition policy_iteration (fuel : nat) : option (list R * list nat) := pi_loop fuel (repeat 0 n).
End Mdp.

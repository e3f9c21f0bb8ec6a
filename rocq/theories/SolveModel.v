(** The solver of the Car-on-Hill environment
    (/repo/mushroom_rl/solvers/car_on_hill.py) and the numerical gradients
    (/repo/mushroom_rl/utils/numerical_gradient.py).
    Floats are reals. The environment is [coh_step] of EnvModel.v: the integrator is an
    arbitrary function of the state and of the force. *)
From Coq Require Import List Arith Lia Reals Lra Bool ZArith.
From Verif Require Import Common EnvModel.
Import ListNotations.
Local Open Scope R_scope.

Section Car.
Variable ode : pt -> R -> pt.

(** step (1-16): reset to the state, then one step; the solver reads the next state and
    the reward *)
Definition car_step (s : pt) (a : nat) : pt * R := fst (coh_step ode s a).

(** The loop of bfs over the frontier (39-50); [None] is the return with success *)
Fixpoint expand (frontier : list pt) : option (list pt) :=
  match frontier with
  | [] => Some []
  | f :: rest =>
      let '(s0, r0) := car_step f 0 in
      if Req_EM_T r0 1 then None else
      let new0 := if Req_EM_T r0 0 then [s0] else [] in
      let '(s1, r1) := car_step f 1 in
      if Req_EM_T r1 1 then None else
      let new1 := if Req_EM_T r1 0 then [s1] else [] in
      match expand rest with
      | None => None
      | Some l => Some (new0 ++ new1 ++ l)
      end
  end.

(** bfs (19-52); the result is the flag and the depth. [None]: the recursion did not end
    within the fuel. *)
Fixpoint bfs (fuel : nat) (frontier : list pt) (k max_k : nat) : option (bool * nat) :=
  match frontier with
  | [] => Some (false, k)
  | _ =>
      if Nat.eqb k max_k then Some (false, k)
      else match expand frontier with
           | None => Some (true, k)
           | Some new => match fuel with O => None | S f => bfs f new (S k) max_k end
           end
  end.

(** solve_car_on_hill (55-92), one state and action *)
Definition car_search (fuel max_k : nat) (s : pt) (a : nat) : option (bool * nat) :=
  let '(s', r) := car_step s a in
  if Req_EM_T r 1 then Some (true, 1%nat)
  else if Req_EM_T r (-1) then Some (false, 1%nat)
  else bfs fuel [s'] 2 max_k.
Definition car_q (gamma : R) (fuel max_k : nat) (s : pt) (a : nat) : option R :=
  match car_search fuel max_k s a with
  | None => None
  | Some (true, k) => Some (gamma ^ (k - 1))
  | Some (false, k) => Some (- gamma ^ (k - 1))
  end.
Fixpoint solve_car (gamma : R) (fuel max_k : nat) (sas : list (pt * nat)) : option (list R) :=
  match sas with
  | [] => Some []
  | (s, a) :: rest =>
      q <- car_q gamma fuel max_k s a ;;
      qs <- solve_car gamma fuel max_k rest ;;
      Some (q :: qs)
  end.
End Car.

(** * Numerical gradients *)

(** np.zeros(n) with entry i set to eps *)
Definition unit_at (n i : nat) (eps : R) : list R := map (fun j => if Nat.eqb j i then eps else 0) (seq 0 n).
Definition ladd (a b : list R) : list R := map (fun p => fst p + snd p) (combine a b).
Definition lsub (a b : list R) : list R := map (fun p => fst p - snd p) (combine a b).

Section Numerical.
(** a policy or a distribution: an object with parameters; [eval] is its value in the
    given state and action *)
Context {P : Type}.
Variable getw : P -> list R.
Variable setw : P -> list R -> P.
Variable eval : P -> R.

(** numerical_diff_policy (4-36) and numerical_diff_dist (39-70): the loop carries the
    object *)
Fixpoint num_loop (eps : R) (w : list R) (p : P) (is : list nat) : P * list R :=
  match is with
  | [] => (p, [])
  | i :: is' =>
      let p1 := setw p (lsub w (unit_at (length w) i eps)) in
      let v1 := eval p1 in
      let p2 := setw p1 (ladd w (unit_at (length w) i eps)) in
      let v2 := eval p2 in
      let '(p3, g) := num_loop eps w p2 is' in
      (p3, (v2 - v1) / (2 * eps) :: g)
  end.
Definition num_diff (eps : R) (p : P) : P * list R :=
  let w := getw p in
  let '(p', g) := num_loop eps w p (seq 0 (length w)) in
  (setw p' w, g).
End Numerical.

(** numerical_diff_function (73-102).  The gradient array has the type of the parameters
    (np.zeros_like): with integer parameters every entry is truncated towards zero when it
    is stored. *)
Definition truncate (x : R) : R := if Rlt_dec x 0 then - IZR (Int_part (- x)) else IZR (Int_part x).
Definition num_diff_function (integer : bool) (eps : R) (f : list R -> R) (w : list R) : list R :=
  map (fun i => let g := (f (ladd w (unit_at (length w) i eps)) - f (lsub w (unit_at (length w) i eps))) / (2 * eps) in
                if integer then truncate g else g)
      (seq 0 (length w)).

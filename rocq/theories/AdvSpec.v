(** Specification of the advantage estimators. *)
From Coq Require Import List Arith Lia Reals Bool.
From Verif Require Import Common AdvModel.
Import ListNotations.

(** The steps from the first of [l] to the end of its episode (or of the data). *)
Fixpoint to_end (l : list step) : list step :=
  match l with
  | [] => []
  | x :: t => if g_last x then [x] else x :: to_end t
  end.

(** Temporal-difference error, with no value after an absorbing step. *)
Definition td_error (gamma : R) (x : step) : R :=
  (g_r x + gamma * (if g_abs x then 0 else g_vn x) - g_v x)%R.

(** sum of c^i * f(x_i) *)
Definition dsum (c : R) (f : step -> R) (l : list step) : R :=
  rsum (map (fun p => (c ^ fst p * f (snd p))%R) (combine (seq 0 (length l)) l)).

(** Discounted return of a stretch of steps, followed by the value of the state
    reached unless it is absorbing. *)
Definition boot_return (gamma : R) (l : list step) : R :=
  (dsum gamma g_r l + gamma ^ length l * match rev l with [] => 0 | x :: _ => if g_abs x then 0 else g_vn x end)%R.

(** An episode that reaches an absorbing state ends there. *)
Definition absorbing_is_last (l : list step) : Prop := Forall (fun x => g_abs x = true -> g_last x = true) l.

(** Parameter schedules, stated directly. *)
From Coq Require Import List Arith Lia Reals Bool.
From Verif Require Import Common.
Import ListNotations.

(** Visits of entry [i] in a sequence of calls on a table of [size] entries (all
    calls visit the same entry if there is only one). *)
Definition visits (size i : nat) (l : list nat) : nat :=
  if size =? 1 then length l else count_occ Nat.eq_dec l i.

(** The straight line from v0 at 0 to th at n, constant afterwards. *)
Definition line (v0 th : R) (n k : nat) : R :=
  if n <=? k then th else (v0 + (th - v0) * (INR k / INR n))%R.

Definition mean (l : list R) : R := (rsum l / INR (length l))%R.

(** Unbiased sample variance. *)
Definition svar (l : list R) : R :=
  (rsum (map (fun x => (x - mean l) * (x - mean l)) l) / (INR (length l) - 1))%R.

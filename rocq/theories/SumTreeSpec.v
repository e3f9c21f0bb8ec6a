(** Independent specification of the sum tree and of sequence sampling. *)
From Coq Require Import List Arith Lia Reals Bool.
From Verif Require Import Common ReplayModel SumTreeModel.
Import ListNotations.

(** Every internal node is the sum of its two children ([n] leaves). *)
Definition heap_ok (n : nat) (t : list R) : Prop :=
  length t = 2 * n - 1 /\
  forall i, i < n - 1 -> at_ t i = (at_ t (2 * i + 1) + at_ t (2 * i + 2))%R.

(** Leaf [k] of a tree with [n] leaves. *)
Definition leaf (n : nat) (t : list R) (k : nat) : R := at_ t (n - 1 + k).

(** Leaf indices below node [i], from left to right. *)
Fixpoint leaves_under (fuel n i : nat) : list nat :=
  match fuel with
  | O => []
  | S f => if i <? n - 1 then leaves_under f n (2 * i + 1) ++ leaves_under f n (2 * i + 2) else [i]
  end.

(** The left-to-right order of all leaves. *)
Definition leaf_order (n : nat) : list nat := leaves_under (2 * n) n 0.

(** No two siblings carry the same mass. *)
Definition no_ties (n : nat) (t : list R) : Prop :=
  forall i, i < n - 1 -> at_ t (2 * i + 1) <> at_ t (2 * i + 2).

(** Only leaves tie: siblings with the same mass are both leaves. *)
Definition leaf_ties (n : nat) (t : list R) : Prop :=
  forall i, i < n - 1 -> at_ t (2 * i + 1) = at_ t (2 * i + 2) -> n - 1 <= 2 * i + 1.

(** The leaf found for mass owned by [j]: [j], or one of the two equal siblings as the coin of
    their parent says. *)
Definition toss (t : list R) (choice : nat -> bool) (j : nat) : nat :=
  let i := (j - 1) / 2 in
  if Req_EM_T (at_ t (2 * i + 1)) (at_ t (2 * i + 2)) then if choice i then 2 * i + 1 else 2 * i + 2 else j.


(** Indices handed to update are leaf indices, as returned by get. *)
Definition op_ok {St Ac Ps} (n : nat) (o : st_op St Ac Ps) : Prop :=
  match o with
  | StAdd ds prio k g => 1 <= k /\ length prio = length ds /\ Forall (fun p => 0 < p)%R prio
  | StUpdate idx ps => length idx = length ps /\ Forall (fun i => n - 1 <= i < 2 * n - 1) idx
  end.

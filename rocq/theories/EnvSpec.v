(** Vocabulary for C43, C44, C62. *)
From Coq Require Import List Arith Lia Reals Bool.
From Verif Require Import Common.
Import ListNotations.
Local Open Scope R_scope.

Definition between (lo hi x : R) : Prop := lo <= x <= hi.
(** Membership in a Box space given by its bounds. *)
Definition in_box (low high x : list R) : Prop :=
  length x = length low /\ forall i, (i < length low)%nat -> nth i low 0 <= nth i x 0 <= nth i high 0.

(** Two segments share a point. *)
Definition segments_meet (a b c d : R * R) : Prop :=
  exists t u, 0 <= t <= 1 /\ 0 <= u <= 1 /\
    fst a + t * (fst b - fst a) = fst c + u * (fst d - fst c) /\ snd a + t * (snd b - snd a) = snd c + u * (snd d - snd c).
(** The directions of the segments are not parallel. *)
Definition parallel (a b c d : R * R) : Prop :=
  (fst b - fst a) * (snd d - snd c) = (snd b - snd a) * (fst d - fst c).

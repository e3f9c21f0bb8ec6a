(** The entropy coefficient of TRPO as a parameter: every evaluation of the loss calls it
    (/repo/mushroom_rl/algorithms/actor_critic/deep_actor_critic/trpo.py 101, 171, 186-190), so the
    evaluations of one fit read successive values of its schedule.  They are the [cs] of
    TrpoFitModel.v. *)
From Coq Require Import List Arith Lia Reals Bool.
From Verif Require Import Common ParamModel.
Import ListNotations.

(** The value read by the evaluation number [i] (from 0) of the loss, with the parameter as it was
    when the fit began *)
Definition coeff_read (p : param) (i : nat) : R :=
  match p_calls p (repeat 0 (S i)) with Some (l, _) => nth i l 0%R | None => 0%R end.

(** Theorems C138: the trust region of ConstrainedREPS under a scheduled eps. *)
From Coq Require Import List Arith Lia Reals Bool Lra.
From Verif Require Import Common Mat GaussModel BboProps RepsProps ConRepsModel ConRepsSpec ConRepsProps ParamModel ParamSpec ParamProofs ParamProps Td3NoiseModel Td3NoiseProps CrepsSchedModel.
Import ListNotations.
Local Open Scope R_scope.

(** In update [k] (from 0) of every run, the weights stay within the schedule's value at step 2k+1
    of the uniform distribution, and the new mean within its value at step 2k+2 of the old one:
    an update takes two steps of the schedule, and the two bounds of one update differ. *)
Theorem creps_schedule : forall s p o1 o2 n sigma S ld mu us lb, build s = Some p -> 0 < lb -> pd n sigma -> meq n (mm n sigma S) eye ->
  exists outs q, creps_run o1 o2 n sigma S ld p mu us = Some (outs, q) /\ length outs = length us /\
    forall k u, nth_error us k = Some u -> (1 <= cd_n u)%nat ->
      exists w m, nth_error outs k = Some (w, m) /\
        let e1 := at_step s (2 * k + 1) in let e2 := at_step s (2 * k + 2) in
        let prev := nth k (mu :: map snd outs) mu in
        let f1 := reps_dual (cd_n u) e1 (cd_J u) in let f2 := gd_dual n (cd_n u) w (cd_theta u) prev sigma S ld e2 in
        local_min1 lb f1 (o1 f1) ->
        kl_unif (cd_n u) (fun i => w i / sm (cd_n u) w) <= e1 /\
        (local_min1 lb f2 (o2 f2) -> kl_constraint n prev m sigma S ld ld <= e2).
Proof.
  intros s p o1 o2 n sigma S ld mu us lb B Hlb PD MI. destruct (sched_call _ _ B) as [E C].
  assert (R : forall us mu j, exists outs q, creps_run o1 o2 n sigma S ld (at_count p j) mu us = Some (outs, q) /\ length outs = length us /\
    forall k u, nth_error us k = Some u -> (1 <= cd_n u)%nat ->
      exists w m, nth_error outs k = Some (w, m) /\
        let e1 := at_step s (j + (2 * k + 1)) in let e2 := at_step s (j + (2 * k + 2)) in
        let prev := nth k (mu :: map snd outs) mu in
        let f1 := reps_dual (cd_n u) e1 (cd_J u) in let f2 := gd_dual n (cd_n u) w (cd_theta u) prev sigma S ld e2 in
        local_min1 lb f1 (o1 f1) ->
        kl_unif (cd_n u) (fun i => w i / sm (cd_n u) w) <= e1 /\
        (local_min1 lb f2 (o2 f2) -> kl_constraint n prev m sigma S ld ld <= e2)).
  { clear us mu E. induction us as [|u t IH]; intros mu j.
    - exists [], (at_count p j). repeat split. intros [|k] u H; discriminate.
    - cbn [creps_run]. destruct (C j) as [C1 _]. destruct (C (Datatypes.S j)) as [C2 _]. rewrite C1. cbn [obind fst snd]. rewrite C2. cbn [obind fst snd].
      set (w := creps_weights o1 _ _ _). set (m := gd_con_wmle _ _ _ _ _ _ _ _ _ _).
      destruct (IH m (Datatypes.S (Datatypes.S j))) as (outs & q & N1 & N2 & N3). rewrite N1. cbn [obind fst snd].
      eexists _, _. split; [reflexivity|]. split; [simpl; lia|]. intros [|k] u' H HN; cbn [nth_error] in H |- *.
      + injection H as <-. exists w, m. split; [reflexivity|]. replace (j + (2 * 0 + 1))%nat with (Datatypes.S j) by lia.
        replace (j + (2 * 0 + 2))%nat with (Datatypes.S (Datatypes.S j)) by lia. set (e1 := at_step s (Datatypes.S j)). set (e2 := at_step s (Datatypes.S (Datatypes.S j))). cbv zeta. intros L1.
        destruct (creps_weights_bound o1 (cd_n u) (cd_J u) e1 lb HN Hlb L1) as (W1 & _ & _ & W4). split; [exact W4|]. intros L2.
        destruct (gd_con_wmle_optimal o2 n (cd_n u) mu sigma S ld (cd_theta u) w e2 lb Hlb PD MI (fun i Hi => Rlt_le _ _ (proj1 (W1 i Hi))) L2) as (_ & G & _). exact G.
      + destruct (N3 k u' H HN) as (w' & m' & O1 & O2). exists w', m'. split; [exact O1|].
        replace (j + (2 * Datatypes.S k + 1))%nat with (Datatypes.S (Datatypes.S j) + (2 * k + 1))%nat by lia.
        replace (j + (2 * Datatypes.S k + 2))%nat with (Datatypes.S (Datatypes.S j) + (2 * k + 2))%nat by lia.
        cbn [map snd]. change (nth (Datatypes.S k) (mu :: m :: map snd outs) mu) with (nth k (m :: map snd outs) mu).
        assert (LK : (k < length (m :: map snd outs))%nat).
        { cbn [length]. rewrite map_length, N2. assert (k < length t)%nat by (apply nth_error_Some; congruence). lia. }
        rewrite (nth_indep (m :: map snd outs) mu m LK). exact O2. }
  destruct (R us mu 0%nat) as (outs & q & H). rewrite <- E in H. exists outs, q. exact H.
Qed.

(** So a LinearParameter over [n] steps is spent after n/2 updates: from then on every new mean is
    within the final value [th] of the old one, however far the schedule should still have been. *)
Theorem creps_schedule_ends : forall v th n' p o1 o2 n sigma S ld mu us lb, build (Lin v th n') = Some p -> 0 < lb -> pd n sigma -> meq n (mm n sigma S) eye ->
  exists outs q, creps_run o1 o2 n sigma S ld p mu us = Some (outs, q) /\
    forall k u, nth_error us k = Some u -> (1 <= cd_n u)%nat -> (n' <= 2 * k + 1)%nat ->
      exists w m, nth_error outs k = Some (w, m) /\
        let prev := nth k (mu :: map snd outs) mu in
        let f1 := reps_dual (cd_n u) th (cd_J u) in let f2 := gd_dual n (cd_n u) w (cd_theta u) prev sigma S ld th in
        local_min1 lb f1 (o1 f1) -> local_min1 lb f2 (o2 f2) -> kl_constraint n prev m sigma S ld ld <= th.
Proof.
  intros v th n' p o1 o2 n sigma S ld mu us lb B Hlb PD MI.
  destruct (creps_schedule _ _ o1 o2 n sigma S ld mu us lb B Hlb PD MI) as (outs & q & A1 & _ & A3). exists outs, q. split; [exact A1|].
  intros k u H HN HK. destruct (A3 k u H HN) as (w & m & W1 & W2). exists w, m. split; [exact W1|].
  cbn [at_step] in W2. unfold line in W2. rewrite (proj2 (Nat.leb_le n' (2 * k + 1))) in W2 by lia. rewrite (proj2 (Nat.leb_le n' (2 * k + 2))) in W2 by lia.
  intros prev f1 f2 L1 L2. apply (proj2 (W2 L1) L2).
Qed.

(** eps from 1 to 1/2 over 4 steps: the first update weighs the episodes with 7/8 and fits the mean
    with 3/4; the second one fits with the final 1/2. *)
Example creps_ex : forall o1 o2 n sigma S ld mu u u', exists p outs q w m w' m', build (Lin 1 (1/2) 4) = Some p /\
  creps_run o1 o2 n sigma S ld p mu [u; u'] = Some (outs, q) /\ outs = [(w, m); (w', m')] /\
  w = creps_weights o1 (cd_n u) (cd_J u) (7/8) /\ m = gd_con_wmle o2 n (cd_n u) mu sigma S ld (cd_theta u) w (3/4) /\
  w' = creps_weights o1 (cd_n u') (cd_J u') (5/8) /\ m' = gd_con_wmle o2 n (cd_n u') m sigma S ld (cd_theta u') w' (1/2).
Proof.
  intros. destruct (linear_init_size 1 (1/2) 4 1 ltac:(lia)) as (p & B & _). destruct (sched_call (Lin 1 (1/2) 4) p B) as [E C].
  assert (V : at_step (Lin 1 (1/2) 4) 1 = 7/8 /\ at_step (Lin 1 (1/2) 4) 2 = 3/4 /\ at_step (Lin 1 (1/2) 4) 3 = 5/8 /\ at_step (Lin 1 (1/2) 4) 4 = 1/2)
    by (unfold at_step, line; simpl; repeat split; lra).
  destruct V as (V1 & V2 & V3 & V4). exists p. do 6 eexists. split; [exact B|]. split.
  - etransitivity; [exact (f_equal (fun p0 => creps_run o1 o2 n sigma S ld p0 mu [u; u']) E)|]. cbn beta. cbn [creps_run]. rewrite (proj1 (C 0%nat)). cbn [obind fst snd]. rewrite (proj1 (C 1%nat)). cbn [obind fst snd].
    rewrite (proj1 (C 2%nat)). cbn [obind fst snd]. rewrite (proj1 (C 3%nat)). cbn [obind fst snd]. rewrite V1, V2, V3, V4. reflexivity.
  - repeat split; reflexivity.
Qed.

Print Assumptions creps_schedule.
Print Assumptions creps_schedule_ends.

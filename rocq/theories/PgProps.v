(** Theorem C40. *)
From Coq Require Import List Arith Lia Reals Bool Lra FunctionalExtensionality.
From Verif Require Import Common EpisodeSpec PgModel PgSpec PgProofs UtilProofs.
Import ListNotations.
Local Open Scope R_scope.

(** Every gradient REINFORCE computes depends only on the complete episodes of the
    dataset of that fit, also when datasets end in the middle of an episode. *)
Theorem reinforce_gradients : forall gamma dss, Forall (fun ds => (1 < length (complete lst ds))%nat) dss ->
  Forall2 (fun ds g => exists v, g = Some v /\ forall i, v i = reinforce_gradient gamma (complete lst ds) i) dss (pg_fits gamma reinforce rf0 dss).
Proof.
  intros gamma dss. assert (C : rf_clean rf0) by (repeat split). revert C. generalize rf0. induction dss as [|ds dss IH]; intros s C F; cbn [pg_fits]; [constructor|].
  inversion F; subst. destruct (rf_fit gamma s ds C) as (s' & gr & E & C' & G); auto. rewrite E. constructor; eauto.
Qed.

(** A fit that fails its assertion leaves scores behind: the next gradient pairs the
    returns with the scores of other episodes. *)
Definition step (sc r : R) (l : bool) : sample := {| score := fun _ => sc; rew := r; phi_c := [1]; lst := l |}.
Theorem reinforce_after_failed_fit_refuted : exists gamma bad ds,
  length (complete lst bad) = 1%nat /\ length (complete lst ds) = 2%nat /\
  exists v, nth 1 (pg_fits gamma reinforce rf0 [bad; ds]) None = Some v /\ v 0%nat <> reinforce_gradient gamma (complete lst ds) 0.
Proof.
  exists 1, [step 1 5 true], [step 1 1 true; step 2 1 true]. split; [reflexivity|]. split; [reflexivity|].
  unfold pg_fits, pg_fit. cbn -[Rmult Rplus Rdiv Rminus INR vmean ratio complete].
  eexists. split; [reflexivity|]. unfold vmean, reinforce_gradient, reinforce_baseline, return_, score_of, complete, vscale, vsquare, ratio, quotient, vadd, vzero.
  cbn -[INR]. cbn [INR].
  repeat match goal with |- context [Req_EM_T ?a ?b] => destruct (Req_EM_T a b); try lra end.
Qed.

(** GPOMDP: the same as long as every dataset ends with an episode end. *)
Theorem gpomdp_gradients_partial : forall gamma dss,
  Forall (fun ds => (1 < length (complete lst ds))%nat /\ unfinished lst ds = []) dss ->
  Forall2 (fun ds g => exists v, g = Some v /\ forall i, v i = gpomdp_gradient gamma (complete lst ds) (complete lst ds) i) dss (pg_fits gamma gpomdp gp0 dss).
Proof.
  intros gamma dss. assert (C : gp_clean gp0) by (repeat split). revert C. generalize gp0. induction dss as [|ds dss IH]; intros s C F; cbn [pg_fits]; [constructor|].
  inversion F as [|? ? [L U] F']; subst. destruct (gp_fit gamma s ds C) as (s' & gr & E & C' & G); auto. rewrite E. constructor.
  - exists gr. split; auto. intros i. rewrite G, U. unfold gpomdp_gradient. f_equal. apply rsum_map_ext. intros e _. apply rsum_map_ext. intros t _.
    f_equal. f_equal. unfold gpomdp_baseline. rewrite filter_app. cbn [filter length]. rewrite app_nil_r. reflexivity.
  - apply IH; auto.
Qed.

(** The first fit of a fresh agent: an unfinished trajectory only enters the baselines. *)
Theorem gpomdp_first_gradient : forall gamma ds, (1 < length (complete lst ds))%nat ->
  exists v, snd (pg_fit gamma gpomdp gp0 ds) = Some v /\
    forall i, v i = gpomdp_gradient gamma (complete lst ds) (complete lst ds ++ [unfinished lst ds]) i.
Proof.
  intros gamma ds L. destruct (gp_fit gamma gp0 ds ltac:(repeat split) L) as (s' & gr & E & _ & G). rewrite E. exists gr. split; auto.
Qed.

(** After a dataset ending inside an episode, the next fit pairs the scores of its first
    episode with the rewards of the unfinished trajectory of the previous dataset. *)
Theorem gpomdp_stale_rewards_refuted : exists gamma ds1 ds2,
  (1 < length (complete lst ds1))%nat /\ (1 < length (complete lst ds2))%nat /\ unfinished lst ds2 = [] /\
  exists v, nth 1 (pg_fits gamma gpomdp gp0 [ds1; ds2]) None = Some v /\ v 0%nat <> gpomdp_gradient gamma (complete lst ds2) (complete lst ds2) 0.
Proof.
  exists 1, [step 1 0 true; step 1 0 true; step 1 7 false], [step 1 1 true; step 2 1 true].
  split; [cbn; lia|]. split; [cbn; lia|]. split; [reflexivity|].
  unfold pg_fits, pg_fit. cbn -[Rmult Rplus Rdiv Rminus INR vmean ratio complete].
  eexists. split; [reflexivity|]. unfold vmean, gpomdp_gradient, gpomdp_baseline, reward_at, score_upto, score_of, complete, vscale, vsquare, ratio, quotient, vadd, vzero.
  cbn -[INR]. cbn [INR].
  repeat match goal with |- context [Req_EM_T ?a ?b] => destruct (Req_EM_T a b); try lra end.
Qed.

(** eNAC: every least squares problem has one row per complete episode of the dataset
    of that fit: discounted score and critic features of the first state, return. *)
Theorem enac_systems : forall gamma dss, Forall (fun ds => (1 < length (complete lst ds))%nat) dss ->
  Forall2 (fun ds g => let eps := complete lst ds in exists psi, g = Some (psi, map (return_ gamma) eps) /\ length psi = length eps /\
     forall k e x, nth_error eps k = Some (x :: e) -> exists v, nth_error psi k = Some (v, phi_c x) /\ forall i, v i = discounted_score gamma (x :: e) i)
    dss (pg_fits gamma enac en0 dss).
Proof.
  intros gamma dss. assert (C : en_list en0 = []) by reflexivity. revert C. generalize en0. induction dss as [|ds dss IH]; intros s C F; cbn [pg_fits]; [constructor|].
  inversion F as [|? ? L F']; subst. rewrite fit_episodes. cbv zeta. rewrite (proj2 (Nat.ltb_lt _ _) L).
  assert (NE : Forall (fun e => e <> []) (complete lst ds)).
  { eapply Forall_impl; [|apply split_complete]. intros e (b & x & -> & _). destruct b; discriminate. }
  cbn [a_grad enac en_grad]. unfold en_grad. cbn [en_list].
  assert (EL : forall e df s0, en_list (steps gamma enac df e s0) = en_list s0).
  { induction e as [|x e IHe]; intros df s0; cbn [steps]; auto. rewrite IHe. reflexivity. }
  rewrite EL, en_episodes by (try reflexivity; auto). cbn [en_list a_init enac en_init]. rewrite C. cbn [app].
  constructor; [|apply IH; auto].
  eexists. split; [reflexivity|]. split; [apply map_length|]. intros k e x H. rewrite nth_error_map, H. cbn [option_map hd]. eexists. split; [reflexivity|]. auto.
Qed.

(** * Concrete cases *)
Example split_demo : complete lst [step 1 1 false; step 2 1 true; step 3 1 true; step 4 1 false] = [[step 1 1 false; step 2 1 true]; [step 3 1 true]].
Proof. reflexivity. Qed.
Example gradient_demo : reinforce_gradient 1 [[step 1 1 true]; [step 2 2 true]] 0 = - (1 / 5).
Proof.
  unfold reinforce_gradient, reinforce_baseline, return_, score_of, quotient. cbn -[INR]. cbn [INR].
  repeat match goal with |- context [Req_EM_T ?a ?b] => destruct (Req_EM_T a b); try lra end.
Qed.

Print Assumptions reinforce_gradients.
Print Assumptions reinforce_after_failed_fit_refuted.
Print Assumptions gpomdp_gradients_partial.
Print Assumptions gpomdp_first_gradient.
Print Assumptions gpomdp_stale_rewards_refuted.
Print Assumptions enac_systems.

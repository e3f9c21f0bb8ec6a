(** Theorems C28 and C29: advantage estimators. *)
From Coq Require Import List Arith Lia Reals Bool Lra.
From Verif Require Import Common AdvModel AdvSpec AdvProofs.
Import ListNotations.

(** GAE: at every position, the (gamma*lambda)-discounted sum of the TD errors of the
    rest of the same episode; the target is advantage plus value. *)
Theorem gae_is_discounted_td_errors : forall gamma lam l, absorbing_is_last l ->
  let (target, adv) := compute_gae gamma lam l in
  length adv = length l /\ length target = length l /\
  forall k, k < length l ->
    nth k adv 0%R = dsum (gamma * lam) (td_error gamma) (to_end (skipn k l)) /\
    forall d, nth k target 0%R = (nth k adv 0 + g_v (nth k l d))%R.
Proof.
  intros gamma lam l H. unfold compute_gae. rewrite map_length, combine_length, gae_length, Nat.min_id.
  split; auto. split; auto. intros k Hk. split.
  - rewrite <- (Nat.add_0_r k) at 1. rewrite <- nth_skipn, gae_skipn.
    assert (HS : absorbing_is_last (skipn k l)).
    { unfold absorbing_is_last in *. rewrite <- (firstn_skipn k l) in H. apply Forall_app in H. tauto. }
    destruct (skipn k l) as [|x t] eqn:E.
    + exfalso. apply (f_equal (@length _)) in E. rewrite skipn_length in E. simpl in E. lia.
    + rewrite <- gae_head by auto. reflexivity.
  - intros d. rewrite (nth_indep _ 0%R ((fun p : R * step => (fst p + g_v (snd p))%R) (0%R, d)))
      by (rewrite map_length, combine_length, gae_length; lia).
    rewrite (map_nth (fun p : R * step => (fst p + g_v (snd p))%R)), combine_nth by apply gae_length. reflexivity.
Qed.

(** An episode's advantages do not depend on what follows its last step. *)
Theorem gae_episode_local : forall gamma lam a x b b', g_last x = true ->
  firstn (length (a ++ [x])) (gae gamma lam (a ++ x :: b)) = firstn (length (a ++ [x])) (gae gamma lam (a ++ x :: b')).
Proof.
  intros gamma lam a x b b' H. induction a as [|y a IH].
  - simpl. rewrite H. reflexivity.
  - cbn [app length firstn gae]. rewrite IH. f_equal.
    assert (HD : hd 0%R (gae gamma lam (a ++ x :: b)) = hd 0%R (gae gamma lam (a ++ x :: b'))).
    { destruct a; simpl in *; [rewrite H; reflexivity|]. injection IH as E _. exact E. }
    rewrite HD. destruct a; reflexivity.
Qed.

(** With lambda = 0 it is the one-step estimator. *)
Theorem gae_lambda_zero : forall gamma l, absorbing_is_last l ->
  compute_gae gamma 0 l = compute_advantage gamma l.
Proof.
  intros gamma l H. unfold compute_gae, compute_advantage.
  assert (E : gae gamma 0 l = map (td_error gamma) l).
  { induction l as [|x l IH]; auto. inversion H as [|? ? HX HT]; subst. cbn [gae map]. rewrite IH by auto. f_equal.
    unfold td_error. destruct (g_last x); cbn [orb]; [destruct (g_abs x); ring|].
    destruct (g_abs x); [discriminate HX; auto|]. destruct l; ring. }
  rewrite E. f_equal.
  - clear. induction l as [|x l IH]; auto. cbn [map combine]. rewrite IH. f_equal. unfold td_error. simpl. destruct (g_abs x); ring.
  - clear. induction l as [|x l IH]; auto. cbn [map combine]. rewrite IH. f_equal. unfold td_error. simpl. destruct (g_abs x); ring.
Qed.

(** With lambda = 1, on consecutive steps of episodes, the target is the discounted
    return of the rest of the episode, bootstrapped if it was cut. *)
Theorem gae_lambda_one : forall gamma l, absorbing_is_last l ->
  (forall k d, S k < length l -> g_last (nth k l d) = false -> g_vn (nth k l d) = g_v (nth (S k) l d)) ->
  forall k, k < length l -> nth k (fst (compute_gae gamma 1 l)) 0%R = boot_return gamma (to_end (skipn k l)).
Proof.
  intros gamma l H C k Hk.
  pose proof (gae_is_discounted_td_errors gamma 1 l H) as G. destruct (compute_gae gamma 1 l) as [tg adv]. cbn [fst].
  destruct G as (_ & _ & G). destruct (G k Hk) as [G1 G2]. destruct l as [|d l0] eqn:EL; [simpl in Hk; lia|]. rewrite <- EL in *.
  rewrite (G2 d), G1. rewrite Rmult_1_r. clear G G1 G2.
  assert (K : forall t x, absorbing_is_last (x :: t) ->
    (forall k, S k < length (x :: t) -> g_last (nth k (x :: t) d) = false -> g_vn (nth k (x :: t) d) = g_v (nth (S k) (x :: t) d)) ->
    (dsum gamma (td_error gamma) (to_end (x :: t)) + g_v x = boot_return gamma (to_end (x :: t)))%R).
  { clear. induction t as [|y t IH]; intros x H C; inversion H as [|? ? HX HT]; subst.
    - replace (to_end [x]) with [x] by (simpl; destruct (g_last x); auto). rewrite boot_single. unfold dsum, td_error. simpl. ring.
    - destruct (g_last x) eqn:L.
      + replace (to_end (x :: y :: t)) with [x] by (simpl; rewrite L; auto). rewrite boot_single. unfold dsum, td_error. simpl. ring.
      + rewrite boot_to_end by auto. rewrite <- IH; auto.
        * replace (to_end (x :: y :: t)) with (x :: to_end (y :: t)) by (simpl; rewrite L; auto). rewrite dsum_cons.
          unfold td_error at 1. destruct (g_abs x); [discriminate HX; auto|].
          pose proof (C 0 ltac:(simpl; lia) L) as E. simpl in E. rewrite E. ring.
        * intros j Hj Lj. apply (C (S j)); auto. simpl in *. lia. }
  assert (SK : skipn k l = nth k l d :: skipn (S k) l) by (apply skipn_S_nth; auto).
  rewrite SK. apply K; rewrite <- SK.
  - unfold absorbing_is_last in *. rewrite <- (firstn_skipn k l) in H. apply Forall_app in H. tauto.
  - intros j Hj. rewrite !nth_skipn. rewrite skipn_length in Hj. replace (k + S j) with (S (k + j)) by lia. apply C. lia.
Qed.

(** Monte Carlo advantages are the returns of the rest of the episode when every
    episode but the last ends in an absorbing state. *)
Theorem mc_advantage_partial : forall gamma l, 2 <= length l -> absorbing_is_last l ->
  Forall (fun x => g_last x = true -> g_abs x = true) (removelast l) ->
  exists q adv, compute_advantage_mc gamma l = Some (q, adv) /\ length q = length l /\ length adv = length l /\
    forall k d, k < length l ->
      nth k q 0%R = boot_return gamma (to_end (skipn k l)) /\
      nth k adv 0%R = (nth k q 0 - g_v (nth k l d))%R.
Proof.
  intros gamma l HL HA HB. destruct l as [|x [|y l]]; try (simpl in HL; lia). unfold compute_advantage_mc.
  set (L := x :: y :: l) in *. set (qi := g_vn (last L x)) in *.
  eexists. eexists. split; [reflexivity|]. rewrite map_length, combine_length, mc_q_length, Nat.min_id. split; auto. split; auto.
  intros k d Hk. split.
  - rewrite <- (Nat.add_0_r k) at 1. rewrite <- nth_skipn, mc_skipn.
    pose proof (skipn_S_nth _ L k d Hk) as SK. rewrite SK.
    assert (LST : last (nth k L d :: skipn (S k) L) (nth k L d) = last L x).
    { rewrite <- SK. rewrite <- (firstn_skipn k L) at 3. 
      assert (NE : skipn k L <> []) by (rewrite SK; discriminate).
      destruct (exists_last NE) as (z & w & ->). rewrite app_assoc, !last_last. reflexivity. }
    transitivity (hd qi (mc_q gamma qi (nth k L d :: skipn (S k) L))); [reflexivity|].
    apply mc_head.
    + rewrite <- SK. unfold absorbing_is_last in *. rewrite <- (firstn_skipn k L) in HA. apply Forall_app in HA. tauto.
    + rewrite <- SK. assert (NE : skipn k L <> []) by (rewrite SK; discriminate).
      rewrite <- (firstn_skipn k L) in HB. rewrite removelast_app in HB by auto. apply Forall_app in HB. tauto.
    + rewrite LST. reflexivity.
  - rewrite (nth_indep _ 0%R ((fun p : R * step => (fst p - g_v (snd p))%R) (0%R, d)))
      by (rewrite map_length, combine_length, mc_q_length; lia).
    rewrite (map_nth (fun p : R * step => (fst p - g_v (snd p))%R)), combine_nth by apply mc_q_length. reflexivity.
Qed.

(** When an episode is cut without reaching an absorbing state, the returns of the
    following episode leak into it: the estimator ignores the end of episodes. *)
Theorem mc_advantage_boundary_refuted : exists l q adv, absorbing_is_last l /\
  compute_advantage_mc 1 l = Some (q, adv) /\
  nth 0 q 0%R <> boot_return 1 (to_end l) /\ nth 0 q 0%R = 101%R /\ boot_return 1 (to_end l) = 1%R.
Proof.
  exists [{| g_v := 0; g_vn := 0; g_r := 1; g_abs := false; g_last := true |};
     {| g_v := 0; g_vn := 0; g_r := 100; g_abs := true; g_last := true |}].
  eexists. eexists. split; [repeat constructor; simpl; congruence|]. split; [reflexivity|].
  unfold boot_return, dsum. simpl. repeat split; lra.
Qed.

Example gae_demo : snd (compute_gae (1/2) 1
  [{| g_v := 1; g_vn := 2; g_r := 3; g_abs := false; g_last := false |};
   {| g_v := 2; g_vn := 8; g_r := 1; g_abs := false; g_last := true |};
   {| g_v := 5; g_vn := 9; g_r := 7; g_abs := true; g_last := true |}]) = [9/2; 3; 2]%R.
Proof. unfold compute_gae. simpl. f_equal; [lra|]. f_equal; [lra|]. f_equal; lra. Qed.

Print Assumptions gae_is_discounted_td_errors.
Print Assumptions gae_episode_local.
Print Assumptions gae_lambda_zero.
Print Assumptions gae_lambda_one.
Print Assumptions mc_advantage_partial.
Print Assumptions mc_advantage_boundary_refuted.

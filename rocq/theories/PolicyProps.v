(** Theorems C24: value-based policies. *)
From Coq Require Import List Arith Lia Reals Bool Lra Psatz.
From Verif Require Import Common ParamModel ParamSpec ParamProofs ParamProps PolicyModel PolicySpec PolicyProofs.
Import ListNotations.

(** Maximising actions get eps/n + (1-eps)/m, the others eps/n, and the
    probabilities form a distribution. *)
Theorem eps_greedy_distribution : forall q eps, q <> [] -> (0 <= eps <= 1)%R ->
  distribution (eg_probs q eps) /\ length (eg_probs q eps) = length q /\
  (forall a, a < length q -> nth a (eg_probs q eps) 0%R = eg_prob q eps a) /\
  exists m, 1 <= m <= length q /\
    forall a, a < length q ->
      (maximal q a -> eg_prob q eps a = (eps / INR (length q) + (1 - eps) / INR m)%R) /\
      (~ maximal q a -> eg_prob q eps a = (eps / INR (length q))%R).
Proof.
  intros q eps NE He.
  destruct (fold_add ((1 - eps) / INR (length (argmaxs q)))%R (argmaxs q) (repeat (eps / INR (length q))%R (length q)) (argmaxs_NoDup q)) as [A B].
  { intros a Ha. rewrite repeat_length. apply argmaxs_range; auto. }
  fold (eg_probs q eps) in A, B. rewrite repeat_length in A.
  assert (N : forall a, a < length q -> nth a (eg_probs q eps) 0%R = eg_prob q eps a).
  { intros a Ha. rewrite B. unfold eg_prob. rewrite (nth_indep _ 0%R (eps / INR (length q))%R) by (rewrite repeat_length; auto).
    rewrite nth_repeat. reflexivity. }
  pose proof (len_pos _ _ NE) as LP. pose proof (len_pos _ _ (argmaxs_nonempty q NE)) as MP.
  assert (E : eg_probs q eps = map (eg_prob q eps) (seq 0 (length q))).
  { apply nth_ext with (d := 0%R) (d' := eg_prob q eps 0); [rewrite map_length, seq_length; auto|].
    intros i Hi. rewrite A in Hi. rewrite N by auto. rewrite map_nth, seq_nth by auto. reflexivity. }
  split; [split|].
  - intros x Hx. rewrite E in Hx. apply in_map_iff in Hx. destruct Hx as (a & <- & _). rewrite eg_prob_eq.
    assert (0 <= eps / INR (length q))%R by (apply Rmult_le_pos; [lra|left; apply Rinv_0_lt_compat; auto]).
    destruct (existsb _ _); [|lra].
    assert (0 <= (1 - eps) / INR (length (argmaxs q)))%R by (apply Rmult_le_pos; [lra|left; apply Rinv_0_lt_compat; auto]). lra.
  - rewrite E. apply eg_sum; auto.
  - split; auto. split; auto. exists (length (argmaxs q)). split.
    + split.
      * destruct (argmaxs q) eqn:Q; [exfalso; eapply argmaxs_nonempty; eauto|simpl; lia].
      * rewrite <- (seq_length (length q) 0). apply NoDup_incl_length; [apply argmaxs_NoDup|].
        intros a Ha. apply in_seq. apply argmaxs_range in Ha. lia.
    + intros a Ha. unfold eg_prob. split; intros M.
      * rewrite (proj2 (existsb_In _ _)); auto. apply argmaxs_In; auto.
      * destruct (existsb (Nat.eqb a) (argmaxs q)) eqn:Q; auto. apply existsb_In, argmaxs_In in Q; auto. contradiction.
Qed.

(** draw_action explores exactly when the uniform draw is below eps and otherwise
    returns a maximising action; weighting the two cases by eps and 1-eps and the
    inner choices equally gives the probabilities reported by the policy. *)
Theorem eps_greedy_sampler : forall q eps, q <> [] ->
  (forall u c r, (u < eps)%R -> eg_draw q eps u c r = r) /\
  (forall u c r, (eps <= u)%R -> c < length (argmaxs q) -> maximal q (eg_draw q eps u c r)) /\
  (forall a u v, a < length q -> (u < eps <= v)%R ->
     eg_prob q eps a = (eps * fraction (length q) (fun r => eg_draw q eps u 0 r) a +
                       (1 - eps) * fraction (length (argmaxs q)) (fun c => eg_draw q eps v c 0) a)%R).
Proof.
  intros q eps NE.
  assert (G : forall v c r, (eps <= v)%R -> c < length (argmaxs q) -> eg_draw q eps v c r = nth c (argmaxs q) 0).
  { intros v c r Hv Hc. unfold eg_draw. destruct (Rlt_dec v eps); [lra|].
    destruct (argmaxs q) as [|a [|b t]]; auto. simpl in Hc. assert (c = 0) by lia. subst. reflexivity. }
  split; [|split].
  - intros. unfold eg_draw. destruct (Rlt_dec u eps); auto. contradiction.
  - intros u c r Hu Hc. rewrite G by auto. apply argmaxs_In; auto. apply nth_In; auto.
  - intros a u v Ha Huv. unfold fraction.
    assert (E1 : map (fun r => eg_draw q eps u 0 r) (seq 0 (length q)) = seq 0 (length q)).
    { rewrite <- (map_id (seq 0 (length q))) at 2. apply map_ext. intros r. unfold eg_draw.
      destruct (Rlt_dec u eps); auto. lra. }
    assert (E2 : map (fun c => eg_draw q eps v c 0) (seq 0 (length (argmaxs q))) = argmaxs q).
    { apply nth_ext with (d := nth 0 (argmaxs q) 0) (d' := 0); [rewrite map_length, seq_length; auto|].
      intros i Hi. rewrite map_length, seq_length in Hi.
      rewrite (nth_indep _ _ (eg_draw q eps v 0 0)) by (rewrite map_length, seq_length; auto).
      rewrite (map_nth (fun c => eg_draw q eps v c 0) _ 0 i), seq_nth by auto. apply G; auto. lra. }
    rewrite E1, E2. 
    assert (C1 : count_occ Nat.eq_dec (seq 0 (length q)) a = 1).
    { apply NoDup_count_occ'; [apply seq_NoDup|]. apply in_seq. lia. }
    rewrite C1, eg_prob_eq. simpl (INR 1).
    assert (C2 : INR (count_occ Nat.eq_dec (argmaxs q) a) = if existsb (Nat.eqb a) (argmaxs q) then 1%R else 0%R).
    { destruct (existsb (Nat.eqb a) (argmaxs q)) eqn:Q.
      - rewrite (proj1 (NoDup_count_occ' Nat.eq_dec (argmaxs q)) (argmaxs_NoDup q)); auto. apply existsb_In; auto.
      - rewrite (proj1 (count_occ_not_In Nat.eq_dec (argmaxs q) a)); auto.
        intros X. apply existsb_In in X. congruence. }
    rewrite C2. destruct (existsb _ _); unfold Rdiv; ring.
Qed.

(** Boltzmann: a strictly positive distribution, equal to the softmax of beta*q,
    unchanged by adding a constant to q. *)
Theorem boltzmann_distribution : forall q beta, q <> [] ->
  length (bz_probs q beta) = length q /\ rsum (bz_probs q beta) = 1%R /\
  (forall x, In x (bz_probs q beta) -> (0 < x)%R) /\
  (forall a, a < length q -> nth a (bz_probs q beta) 0%R = softmax q beta a /\ bz_prob q beta a = softmax q beta a) /\
  (forall a c, a < length q -> bz_prob (map (fun x => x + c)%R q) beta a = bz_prob q beta a).
Proof.
  intros q beta NE. pose proof (exps_pos q beta NE) as EP.
  destruct (bz_exps_eq q beta) as (c & C & E).
  assert (SP : (0 < rsum (bz_exps q beta))%R).
  { rewrite E, (rsum_map_scal _ (fun x => exp (beta * x)) c). apply Rmult_lt_0_compat; auto. }
  unfold bz_probs. split; [rewrite map_length; apply bz_exps_length|]. split; [|split; [|split]].
  - rewrite rsum_div. field. lra.
  - intros x Hx. apply in_map_iff in Hx. destruct Hx as (y & <- & Hy). rewrite E in Hy.
    apply in_map_iff in Hy. destruct Hy as (z & <- & _). apply Rdiv_lt_0_compat; auto.
    apply Rmult_lt_0_compat; auto. apply exp_pos.
  - intros a Ha. split; [|apply bz_softmax; auto]. rewrite <- bz_softmax by auto. unfold bz_prob.
    rewrite (nth_indep _ 0%R (0 / rsum (bz_exps q beta))%R) by (rewrite map_length, bz_exps_length; auto).
    rewrite (map_nth (fun e => e / rsum (bz_exps q beta))%R). reflexivity.
  - intros a d Ha. rewrite !bz_softmax; auto.
    2:{ destruct q; simpl; congruence. } 2:{ rewrite map_length; auto. }
    unfold softmax. rewrite (nth_indep _ 0%R (0 + d)%R) by (rewrite map_length; auto).
    rewrite (map_nth (fun x => x + d)%R), map_map.
    rewrite (map_ext (fun x => exp (beta * (x + d))) (fun x => exp (beta * d) * exp (beta * x))%R).
    2:{ intros x. rewrite <- exp_plus. f_equal. ring. }
    rewrite (rsum_map_scal _ (fun x => exp (beta * x)) (exp (beta * d))).
    replace (beta * (nth a q 0 + d))%R with (beta * d + beta * nth a q 0)%R by ring. rewrite exp_plus.
    pose proof (exp_pos (beta * d)). field. lra.
Qed.

(** Higher values get no smaller probability when beta >= 0, strictly higher ones
    a strictly higher probability when beta > 0, and beta = 0 is uniform. *)
Theorem boltzmann_monotone : forall q beta a b, a < length q -> b < length q ->
  ((0 <= beta -> nth a q 0 <= nth b q 0 -> bz_prob q beta a <= bz_prob q beta b) /\
   (0 < beta -> nth a q 0 < nth b q 0 -> bz_prob q beta a < bz_prob q beta b) /\
   bz_prob q 0 a = 1 / INR (length q))%R.
Proof.
  intros q beta a b Ha Hb. assert (NE : q <> []) by (destruct q; simpl in *; [lia|congruence]).
  pose proof (exps_pos q beta NE) as EP. rewrite !bz_softmax by auto. unfold softmax. repeat split.
  - intros HB H. apply Rmult_le_compat_r; [left; apply Rinv_0_lt_compat; auto|].
    destruct (Rmult_le_compat_l beta _ _ HB H) as [L|L]; [left; apply exp_increasing; auto|right; f_equal; auto].
  - intros HB H. apply Rmult_lt_compat_r; [apply Rinv_0_lt_compat; auto|].
    apply exp_increasing. apply Rmult_lt_compat_l; auto.
  - rewrite Rmult_0_l, exp_0.
    rewrite (map_ext (fun x => exp (0 * x)) (fun _ => 1%R)) by (intros; rewrite Rmult_0_l; apply exp_0).
    rewrite rsum_map_const. rewrite Rmult_1_r. reflexivity.
Qed.

(** Asking a Boltzmann policy for a probability changes its temperature: two
    identical queries give different answers, and the answers for the actions of
    one state need not sum to one. *)
Theorem boltzmann_query_not_pure_refuted : exists beta p1 p2 b1 b2,
  linear_init 0 2 2 1 = Some beta /\
  bz_eval [0; 1]%R beta 0 0 = Some (p1, b1) /\ bz_eval [0; 1]%R b1 0 1 = Some (p2, b2) /\
  (p1 + p2 <> 1)%R /\ bz_eval [0; 1]%R b1 0 0 <> bz_eval [0; 1]%R beta 0 0.
Proof.
  destruct (linear_parameter_schedule 0 2 2 1 [0; 0]) as (p & outs & q & A & B & C & D); try lia; [repeat constructor|].
  destruct outs as [|v1 [|v2 [|? ?]]]; try discriminate.
  pose proof (D 0 0 eq_refl) as D0. pose proof (D 1 0 eq_refl) as D1. cbn in D0, D1.
  inversion D0 as [V1]. inversion D1 as [V2]. unfold line in V1, V2; simpl in V1, V2.
  assert (W1 : v1 = 1%R) by lra. assert (W2 : v2 = 2%R) by lra.
  clear D D0 D1 V1 V2. cbn [p_calls] in B. destruct (p_call p 0) as [[u1 q1]|] eqn:Q1; [|discriminate].
  cbn [obind fst snd] in B. destruct (p_call q1 0) as [[u2 q2]|] eqn:Q2; [|discriminate]. cbn [obind fst snd] in B.
  injection B as E1 E2 E3. rewrite W1 in E1. rewrite W2 in E2. subst u1 u2.
  exists p, (bz_prob [0; 1]%R 1 0), (bz_prob [0; 1]%R 2 1), q1, q2. unfold bz_eval. rewrite Q1, Q2. cbn [obind fst snd].
  assert (NE : [0; 1]%R <> []) by discriminate.
  rewrite (bz_softmax _ 1 0 NE), (bz_softmax _ 2 1 NE), (bz_softmax _ 2 0 NE) by (simpl; lia).
  unfold softmax. simpl. rewrite !Rmult_0_r, !Rmult_1_r, exp_0.
  pose proof (exp_pos 1) as P1. pose proof (exp_pos 2) as P2.
  assert (L : (exp 1 < exp 2)%R) by (apply exp_increasing; lra).
  split; auto. split; auto. split; auto. split.
  - intros X. assert (Y : (exp 1 = exp 2)%R); [|lra].
    replace (exp 1 + 0)%R with (exp 1) in X by ring. replace (exp 2 + 0)%R with (exp 2) in X by ring.
    assert (Z : (1 / (1 + exp 1) = 1 / (1 + exp 2))%R).
    { replace (1 / (1 + exp 2))%R with (1 - exp 2 / (1 + exp 2))%R by (field; lra). lra. }
    apply (f_equal Rinv) in Z. unfold Rdiv in Z. rewrite !Rmult_1_l, !Rinv_inv in Z. lra.
  - intros X. injection X as X _. rewrite !Rplus_0_r in X.
    apply (f_equal Rinv) in X. unfold Rdiv in X. rewrite !Rmult_1_l, !Rinv_inv in X. lra.
Qed.

(** Mellowmax lies between the mean and the maximum of the values. *)
Theorem mellowmax_between : forall q omega, q <> [] -> (0 < omega)%R ->
  (rsum q / INR (length q) <= mellow q omega <= qmax q)%R.
Proof.
  intros q w NE Hw. pose proof (len_pos _ _ NE) as LP. unfold mellow. set (n := INR (length q)) in *.
  assert (SP : (0 < rsum (map (fun x => exp (x * w)) q))%R).
  { rewrite (rsum_map_ext _ _ (fun x => exp (w * x))) by (intros; f_equal; ring). apply exps_pos; auto. }
  set (S := rsum (map (fun x => exp (x * w)) q)) in *. split.
  - set (m := (rsum q / n)%R).
    assert (J : (n * exp (m * w) <= S)%R).
    { assert (E : (rsum (map (fun x => exp (m * w) * (1 + (x - m) * w)) q) = n * exp (m * w))%R).
      { rewrite (rsum_map_scal _ (fun x => 1 + (x - m) * w)%R).
        assert (Q : forall l, (rsum (map (fun x => 1 + (x - m) * w) l) = INR (length l) + (rsum l - INR (length l) * m) * w)%R).
        { induction l as [|y l IH]; [simpl; ring|]. cbn [map rsum length]. rewrite IH, S_INR. ring. }
        rewrite Q. fold n. unfold m. field. unfold n in *. lra. }
      rewrite <- E. unfold S. apply rsum_map_le. intros x _.
      replace (x * w)%R with (m * w + (x - m) * w)%R by ring. rewrite exp_plus.
      apply Rmult_le_compat_l; [left; apply exp_pos|]. apply exp_ineq1_le. }
    assert (L : (ln n + m * w <= ln S)%R).
    { rewrite <- (ln_exp (m * w)), <- ln_mult by (try apply exp_pos; auto).
      destruct J as [J|J]; [left; apply ln_increasing; auto|right; f_equal; auto].
      apply Rmult_lt_0_compat; auto. apply exp_pos. }
    apply (Rmult_le_reg_r w); auto. unfold Rdiv. rewrite Rmult_assoc, Rinv_l by lra. lra.
  - destruct (qmax_spec q NE) as [_ M].
    assert (U : (S <= n * exp (qmax q * w))%R).
    { unfold S, n. rewrite <- (rsum_map_const _ (exp (qmax q * w)) q). apply rsum_map_le. intros x Hx.
      specialize (M x Hx). destruct (Rmult_le_compat_r w _ _ (Rlt_le _ _ Hw) M) as [L|L];
        [left; apply exp_increasing; auto|right; f_equal; auto]. }
    assert (L : (ln S <= ln n + qmax q * w)%R).
    { rewrite <- (ln_exp (qmax q * w)), <- ln_mult by (try apply exp_pos; auto).
      destruct U as [J|J]; [left; apply ln_increasing; auto|right; f_equal; auto]. }
    apply (Rmult_le_reg_r w); auto. unfold Rdiv. rewrite Rmult_assoc, Rinv_l by lra. lra.
Qed.

(** If the root finder returns a root beta, the Boltzmann policy with this beta has
    the mellowmax as its expected value. *)
Theorem mellowmax_expected_value : forall q mm beta, q <> [] -> mellow_f q mm beta = 0%R ->
  rsum (map (fun a => softmax q beta a * nth a q 0)%R (seq 0 (length q))) = mm.
Proof.
  intros q mm beta NE H. pose proof (exps_pos q beta NE) as EP. unfold mellow_f in H. rewrite map_map in H.
  set (K := qmax _) in H.
  rewrite (rsum_map_ext _ _ (fun x => exp (- (beta * mm) - K) * (exp (beta * x) * (x - mm)))%R) in H.
  2:{ intros x _. rewrite <- Rmult_assoc, <- exp_plus. f_equal. f_equal. ring. }
  rewrite (rsum_map_scal _ (fun x => exp (beta * x) * (x - mm))%R) in H.
  apply Rmult_integral in H. destruct H as [H|H]; [pose proof (exp_pos (- (beta * mm) - K)); lra|].
  rewrite (rsum_map_ext _ _ (fun x => exp (beta * x) * x + (- mm) * exp (beta * x))%R) in H by (intros; ring).
  rewrite (rsum_map_plus _ (fun x => exp (beta * x) * x)%R), (rsum_map_scal _ (fun x => exp (beta * x))) in H.
  unfold softmax. set (Z := rsum (map (fun x => exp (beta * x)) q)) in *.
  rewrite (rsum_map_ext _ _ (fun a => / Z * ((fun x => exp (beta * x) * x) (nth a q 0)))%R) by (intros; unfold Rdiv; ring).
  rewrite (rsum_map_scal _ (fun a => (fun x => exp (beta * x) * x)%R (nth a q 0%R))).
  rewrite <- (rsum_map_seq (fun x => exp (beta * x) * x)%R). 
  replace (rsum (map (fun x => exp (beta * x) * x)%R q)) with (mm * Z)%R by lra. field. lra.
Qed.

Example eg_demo : eg_prob [1; 3; 3; 0]%R (1/5) 1 = (9/20)%R /\ eg_prob [1; 3; 3; 0]%R (1/5) 3 = (1/20)%R.
Proof.
  destruct (eps_greedy_distribution [1; 3; 3; 0]%R (1/5)) as (_ & _ & _ & m & _ & H); [discriminate|lra|].
  assert (A : argmaxs [1; 3; 3; 0]%R = [1; 2]).
  { unfold argmaxs, qmax. simpl.
    replace (Rmax (Rmax (Rmax 1 3) 3) 0) with 3%R.
    2:{ unfold Rmax. repeat destruct (Rle_dec _ _); lra. }
    repeat (destruct (Req_EM_T _ _); try lra). reflexivity. }
  unfold eg_prob. rewrite A. simpl. split; lra.
Qed.

Example bz_demo : bz_prob [0; ln 3]%R 1 1 = (3/4)%R.
Proof.
  rewrite bz_softmax; [|discriminate|simpl; lia]. unfold softmax. simpl. rewrite !Rmult_0_r, !Rmult_1_l, exp_0, exp_ln by lra. field.
Qed.

Print Assumptions eps_greedy_distribution.
Print Assumptions eps_greedy_sampler.
Print Assumptions boltzmann_distribution.
Print Assumptions boltzmann_monotone.
Print Assumptions boltzmann_query_not_pure_refuted.
Print Assumptions mellowmax_between.
Print Assumptions mellowmax_expected_value.

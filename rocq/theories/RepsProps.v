(** Properties C51 (REPS dual), C52 (MORE) and the PGPE gradient estimate. *)
From Coq Require Import List Arith Lia Reals Lra FunctionalExtensionality.
From Verif Require Import Common FeatModel FeatSpec FeatProofs FeatProps Mat LqrGrad LqrModel LqrProps GaussModel GaussProofs BboProps.
Import ListNotations.
Local Open Scope R_scope.

(** * REPS *)
(** Kullback-Leibler divergence of a distribution over the samples from the uniform one
    (the logarithm of 0 is 0 in the library, so an absent sample contributes nothing) *)
Definition kl_unif (N : nat) (q : vec) : R := sm N (fun i => q i * (ln (q i) + ln (INR N))).
Definition prob (N : nat) (q : vec) : Prop := (forall i, (i < N)%nat -> 0 <= q i) /\ sm N q = 1.
(** The distribution proportional to the weights *)
Definition reps_dist (N : nat) (eta : R) (J : vec) : vec := fun i => reps_weights N eta J i / sm N (reps_weights N eta J).

Lemma reps_sum_pos : forall N eta J, (1 <= N)%nat -> 0 < sm N (reps_weights N eta J).
Proof.
  intros [|N] eta J HN; [lia|]. rewrite sm_S. assert (0 <= sm N (reps_weights (S N) eta J)) by (apply sm_nonneg; intros; left; apply exp_pos).
  pose proof (exp_pos ((J N - vmax (S N) J) / eta)). unfold reps_weights at 2. lra.
Qed.

Theorem reps_dual_derivative : forall N eps J eta, (1 <= N)%nat -> 0 < eta ->
  derivable_pt_lim (reps_dual N eps J) eta (reps_dual_diff N eps J eta).
Proof.
  intros N eps J eta HN He. set (r := fun i => J i - vmax N J).
  assert (HI : 0 < INR N) by (apply lt_0_INR; lia).
  pose proof (reps_sum_pos N eta J HN) as HS.
  assert (D1 : forall i, derivable_pt_lim (fun e => exp (r i / e)) eta (exp (r i / eta) * (- r i / (eta * eta)))).
  { intros i. apply (dl_exp (fun e => r i / e)). eapply dl_eq; [apply (dl_div (fun _ => r i) (fun e => e)); [apply dl_const|apply dl_id|lra]|reflexivity|].
    unfold Rsqr. field. lra. }
  assert (HM : 0 < vmean N (fun i => exp (r i / eta))).
  { unfold vmean. apply Rmult_lt_0_compat; [exact HS|apply Rinv_0_lt_compat; auto]. }
  eapply dl_eq with (f := fun e => e * eps + e * ln (vmean N (fun i => exp (r i / e))) + vmax N J).
  - apply dl_plus; [|apply dl_const]. apply dl_plus; [apply dl_scal_r, dl_id|].
    apply (dl_mult (fun e => e) (fun e => ln (vmean N (fun i => exp (r i / e))))); [apply dl_id|].
    apply (dl_ln (fun e => vmean N (fun i => exp (r i / e)))); [|auto].
    unfold vmean, Rdiv at 1. apply dl_scal_r. apply (sm_derivable N (fun i e => exp (r i / e))). intros; apply D1.
  - reflexivity.
  - unfold reps_dual_diff. cbv zeta.
    change (vmean N (fun i => exp ((J i - vmax N J) / eta))) with (vmean N (fun i => exp (r i / eta))).
    change (vmean N (fun i => exp ((J i - vmax N J) / eta) * (J i - vmax N J))) with (vmean N (fun i => exp (r i / eta) * r i)).
    rewrite (sm_ext N (fun i => exp (r i / eta) * (- r i / (eta * eta))) (fun i => - / (eta * eta) * (exp (r i / eta) * r i))) by (intros; unfold Rdiv; ring).
    rewrite sm_scal. fold (vmean N (fun i => exp (r i / eta) * r i)).
    replace (sm N (fun i => exp (r i / eta) * r i)) with (vmean N (fun i => exp (r i / eta) * r i) * INR N) by (unfold vmean; field; lra).
    set (s2 := vmean N (fun i => exp (r i / eta) * r i)). set (s1 := vmean N (fun i => exp (r i / eta))) in *. field. repeat split; lra.
Qed.

Lemma reps_dist_prob : forall N eta J, (1 <= N)%nat -> prob N (reps_dist N eta J) /\ (forall i, 0 < reps_dist N eta J i).
Proof.
  intros N eta J HN. pose proof (reps_sum_pos N eta J HN) as HS. assert (0 < / sm N (reps_weights N eta J)) by (apply Rinv_0_lt_compat; auto).
  assert (P : forall i, 0 < reps_dist N eta J i) by (intros; apply Rmult_lt_0_compat; [apply exp_pos|auto]).
  split; [split|]; auto.
  - intros; left; auto.
  - unfold reps_dist, Rdiv. rewrite sm_scal_r. field. lra.
Qed.
Lemma reps_dist_ln : forall N eta J i, (1 <= N)%nat -> ln (reps_dist N eta J i) = (J i - vmax N J) / eta - ln (sm N (reps_weights N eta J)).
Proof.
  intros N eta J i HN. pose proof (reps_sum_pos N eta J HN) as HS. unfold reps_dist, Rdiv at 1. rewrite ln_mult; [|apply exp_pos|apply Rinv_0_lt_compat; auto].
  rewrite ln_Rinv by auto. unfold reps_weights at 1. rewrite ln_exp. ring.
Qed.
Lemma ln_div : forall a b, 0 < a -> 0 < b -> ln (a / b) = ln a - ln b.
Proof. intros a b Ha Hb. assert (0 < / b) by (apply Rinv_0_lt_compat; auto). unfold Rdiv. rewrite ln_mult by auto. rewrite ln_Rinv by auto. ring. Qed.
Lemma reps_kl_value : forall N eta J, (1 <= N)%nat ->
  kl_unif N (reps_dist N eta J) = sm N (fun i => reps_dist N eta J i * ((J i - vmax N J) / eta)) - ln (sm N (reps_weights N eta J) / INR N).
Proof.
  intros N eta J HN. pose proof (reps_sum_pos N eta J HN) as HS. assert (HI : 0 < INR N) by (apply lt_0_INR; lia).
  destruct (reps_dist_prob N eta J HN) as [[_ S1] _]. unfold kl_unif.
  rewrite (sm_ext N _ (fun i => reps_dist N eta J i * ((J i - vmax N J) / eta) + reps_dist N eta J i * (ln (INR N) - ln (sm N (reps_weights N eta J))))) by (intros; rewrite reps_dist_ln by auto; ring).
  rewrite sm_plus, sm_scal_r, S1. rewrite (ln_div (sm N (reps_weights N eta J))) by auto. ring.
Qed.

(** The derivative of the dual is the slack of the divergence constraint *)
Theorem reps_dual_slack : forall N eps J eta, (1 <= N)%nat -> 0 < eta -> reps_dual_diff N eps J eta = eps - kl_unif N (reps_dist N eta J).
Proof.
  intros N eps J eta HN He. pose proof (reps_sum_pos N eta J HN) as HS. assert (HI : 0 < INR N) by (apply lt_0_INR; lia).
  rewrite reps_kl_value by auto. unfold reps_dual_diff, vmean. cbv zeta. fold (reps_weights N eta J).
  change (sm N (fun i => exp ((J i - vmax N J) / eta))) with (sm N (reps_weights N eta J)).
  change (sm N (fun i => exp ((J i - vmax N J) / eta) * (J i - vmax N J))) with (sm N (fun i => reps_weights N eta J i * (J i - vmax N J))).
  rewrite (sm_ext N (fun i => reps_dist N eta J i * ((J i - vmax N J) / eta)) (fun i => reps_weights N eta J i * (J i - vmax N J) * (/ eta * / sm N (reps_weights N eta J)))) by (intros; unfold reps_dist, Rdiv; ring).
  rewrite sm_scal_r. field. repeat split; lra.
Qed.

(** Weak duality *)
Theorem reps_dual_bound : forall N eps J eta q, (1 <= N)%nat -> 0 < eta -> prob N q -> kl_unif N q <= eps ->
  sm N (fun i => q i * J i) <= reps_dual N eps J eta.
Proof.
  intros N eps J eta q HN He [Hq S1] HK. pose proof (reps_sum_pos N eta J HN) as HS. assert (HI : 0 < INR N) by (apply lt_0_INR; lia).
  destruct (reps_dist_prob N eta J HN) as [[_ P1] PP]. set (p := reps_dist N eta J) in *.
  assert (G : sm N (fun i => q i * (ln (p i) - ln (q i))) <= 0).
  { apply Rle_trans with (sm N (fun i => p i - q i)); [|rewrite sm_minus, P1, S1; lra]. apply sm_le. intros i Hi. specialize (Hq i Hi). specialize (PP i).
    destruct (Req_dec (q i) 0) as [->|NE]; [lra|]. assert (0 < q i) by lra. assert (0 < p i / q i) by (apply Rmult_lt_0_compat; [auto|apply Rinv_0_lt_compat; auto]).
    pose proof (ln_le_sub1 _ H0) as L. rewrite ln_div in L by auto.
    assert (q i * (ln (p i) - ln (q i)) <= q i * (p i / q i - 1)) by (apply Rmult_le_compat_l; lra).
    replace (q i * (p i / q i - 1)) with (p i - q i) in H1 by (field; lra). auto. }
  assert (EK : kl_unif N q = sm N (fun i => q i * ln (q i)) + ln (INR N)).
  { unfold kl_unif. rewrite (sm_ext N _ (fun i => q i * ln (q i) + q i * ln (INR N))) by (intros; ring). rewrite sm_plus, sm_scal_r, S1. ring. }
  rewrite (sm_ext N _ (fun i => q i * J i * / eta - q i * (vmax N J / eta + ln (sm N (reps_weights N eta J))) - q i * ln (q i))) in G.
  2:{ intros i Hi. unfold p. rewrite reps_dist_ln by auto. field. lra. }
  rewrite !sm_minus, !sm_scal_r, S1 in G. unfold reps_dual, vmean. cbv zeta.
  change (sm N (fun i => exp ((J i - vmax N J) / eta))) with (sm N (reps_weights N eta J)).
  rewrite (ln_div (sm N (reps_weights N eta J))) by auto.
  assert (B : sm N (fun i => q i * J i) * / eta <= vmax N J / eta + ln (sm N (reps_weights N eta J)) + (eps - ln (INR N))) by lra.
  apply (Rmult_le_compat_l eta) in B; [|lra].
  replace (eta * (sm N (fun i => q i * J i) * / eta)) with (sm N (fun i => q i * J i)) in B by (field; lra).
  replace (eta * (vmax N J / eta + ln (sm N (reps_weights N eta J)) + (eps - ln (INR N)))) with (eta * eps + eta * (ln (sm N (reps_weights N eta J)) - ln (INR N)) + vmax N J) in B by (field; lra).
  exact B.
Qed.

(** A minimiser of the dual over [lb, infinity) gives weights that satisfy the divergence bound; at
    a stationary point they are the best such weights. *)
Theorem reps_update_bound : forall N eps J eta lb, (1 <= N)%nat -> 0 < lb -> lb <= eta ->
  (forall e, lb <= e -> reps_dual N eps J eta <= reps_dual N eps J e) -> kl_unif N (reps_dist N eta J) <= eps.
Proof.
  intros N eps J eta lb HN Hl Hle Hmin. assert (He : 0 < eta) by lra.
  pose proof (reps_dual_derivative N eps J eta HN He) as D. pose proof (reps_dual_slack N eps J eta HN He) as S.
  destruct (Rle_dec 0 (reps_dual_diff N eps J eta)) as [P|NP]; [lra|]. exfalso. apply Rnot_le_lt in NP.
  set (l := reps_dual_diff N eps J eta) in *. destruct (D (- l / 2) ltac:(lra)) as [[del Hd] HD]. simpl in HD.
  assert (Hh : del / 2 <> 0) by lra. assert (Rabs (del / 2) < del) by (rewrite Rabs_pos_eq; lra).
  specialize (HD (del / 2) Hh H). apply Rabs_def2 in HD. destruct HD as [HD _].
  specialize (Hmin (eta + del / 2) ltac:(lra)).
  assert (0 <= (reps_dual N eps J (eta + del / 2) - reps_dual N eps J eta) / (del / 2)) by (apply Rmult_le_pos; [lra|left; apply Rinv_0_lt_compat; lra]). lra.
Qed.
Theorem reps_stationary_optimal : forall N eps J eta, (1 <= N)%nat -> 0 < eta -> reps_dual_diff N eps J eta = 0 ->
  kl_unif N (reps_dist N eta J) = eps /\
  sm N (fun i => reps_dist N eta J i * J i) = reps_dual N eps J eta /\
  forall q, prob N q -> kl_unif N q <= eps -> sm N (fun i => q i * J i) <= sm N (fun i => reps_dist N eta J i * J i).
Proof.
  intros N eps J eta HN He H0. rewrite reps_dual_slack in H0 by auto.
  assert (E : sm N (fun i => reps_dist N eta J i * J i) = reps_dual N eps J eta).
  { destruct (reps_dist_prob N eta J HN) as [[_ P1] _]. rewrite reps_kl_value in H0 by auto.
    rewrite (sm_ext N (fun i => reps_dist N eta J i * ((J i - vmax N J) / eta)) (fun i => reps_dist N eta J i * J i * / eta - reps_dist N eta J i * (vmax N J / eta))) in H0 by (intros; unfold Rdiv; ring).
    rewrite sm_minus, !sm_scal_r, P1 in H0. unfold reps_dual, vmean. cbv zeta.
    change (sm N (fun i => exp ((J i - vmax N J) / eta))) with (sm N (reps_weights N eta J)).
    set (X := sm N (fun i => reps_dist N eta J i * J i)) in *. set (L := ln (sm N (reps_weights N eta J) / INR N)) in *.
    assert (X * / eta = eps + L + vmax N J / eta) by lra. replace X with (eta * (X * / eta)) by (field; lra). rewrite H. field. lra. }
  split; [lra|]. split; [auto|]. intros q Hq HK. rewrite E. apply reps_dual_bound; auto.
Qed.

(** * PGPE: the baseline minimises the empirical second moment of the estimate, and adding a
    constant to all the returns does not change the gradient. *)
Lemma vmean_sq_zero : forall N f, (1 <= N)%nat -> vmean N (fun i => f i ^ 2) = 0 -> forall i, (i < N)%nat -> f i = 0.
Proof.
  intros N f HN H i Hi. assert (HI : 0 < INR N) by (apply lt_0_INR; lia). unfold vmean in H.
  assert (S0 : sm N (fun i => f i ^ 2) = 0).
  { apply (Rmult_eq_reg_r (/ INR N)); [|apply Rinv_neq_0_compat; lra]. rewrite Rmult_0_l. exact H. }
  destruct (Req_dec (f i) 0) as [|NE]; auto. exfalso. pose proof (sq_pos _ NE) as P.
  assert (f i ^ 2 <= sm N (fun i => f i ^ 2)); [|lra].
  apply Rle_trans with (sm N (fun j => if Nat.eqb j i then f i ^ 2 else 0)).
  - rewrite (sm_single N i); auto; [rewrite Nat.eqb_refl; lra|]. intros j Hj N2. destruct (Nat.eqb_spec j i); [congruence|auto].
  - apply sm_le. intros j Hj. destruct (Nat.eqb_spec j i); [subst; lra|apply pow2_ge_0].
Qed.
Theorem pgpe_baseline_optimal : forall N D J k b, (1 <= N)%nat ->
  sm N (fun i => (D i k * (J i - pgpe_baseline N D J k)) ^ 2) <= sm N (fun i => (D i k * (J i - b)) ^ 2).
Proof.
  intros N D J k b HN. assert (HI : 0 < INR N) by (apply lt_0_INR; lia). unfold pgpe_baseline. cbv zeta.
  destruct (Req_EM_T (vmean N (fun i => D i k ^ 2)) 0) as [Z|NZ].
  - pose proof (vmean_sq_zero N (fun i => D i k) HN Z) as Z'. apply sm_le. intros i Hi. cbv beta in Z'. rewrite Z' by auto. lra.
  - set (c := vmean N (fun i => J i * D i k ^ 2) / vmean N (fun i => D i k ^ 2)).
    assert (E : sm N (fun i => J i * D i k ^ 2) = c * sm N (fun i => D i k ^ 2)).
    { unfold c, vmean in *. assert (sm N (fun i => D i k ^ 2) <> 0) by (intros C; apply NZ; rewrite C; unfold Rdiv; ring). field. split; auto. lra. }
    assert (X : forall e, sm N (fun i => (D i k * (J i - e)) ^ 2) = sm N (fun i => J i ^ 2 * D i k ^ 2) - 2 * e * sm N (fun i => J i * D i k ^ 2) + e ^ 2 * sm N (fun i => D i k ^ 2)).
    { intros e. rewrite <- !sm_scal, <- sm_minus, <- sm_plus. apply sm_ext. intros. ring. }
    rewrite !X, E. assert (0 <= sm N (fun i => D i k ^ 2)) by (apply sm_nonneg; intros; apply pow2_ge_0).
    pose proof (pow2_ge_0 (b - c)). nra.
Qed.
Theorem pgpe_shift_invariant : forall N D J k c, (1 <= N)%nat -> pgpe_grad N D (fun i => J i + c) k = pgpe_grad N D J k.
Proof.
  intros N D J k c HN. unfold pgpe_grad, pgpe_baseline. cbv zeta.
  destruct (Req_EM_T (vmean N (fun i => D i k ^ 2)) 0) as [Z|NZ].
  - pose proof (vmean_sq_zero N (fun i => D i k) HN Z) as Z'. cbv beta in Z'. unfold vmean. f_equal. apply sm_ext. intros i Hi. rewrite Z' by auto. ring.
  - unfold vmean. f_equal. apply sm_ext. intros i Hi. f_equal. unfold vmean in NZ.
    assert (HI : 0 < INR N) by (apply lt_0_INR; lia).
    assert (sm N (fun i => D i k ^ 2) <> 0) by (intros C; apply NZ; rewrite C; unfold Rdiv; ring).
    rewrite (sm_ext N (fun i => (J i + c) * D i k ^ 2) (fun i => J i * D i k ^ 2 + c * D i k ^ 2)) by (intros; ring). rewrite sm_plus, sm_scal. field. split; auto. lra.
Qed.

(** * C52: MORE *)
Theorem more_beta_between : forall kappa h h0, 0 <= kappa <= 1 -> h0 <= h -> h0 <= more_beta kappa h h0 <= h.
Proof. intros kappa h h0 [H1 H2] H. unfold more_beta. nra. Qed.

(** The features of degree two are those generated by PolynomialBasis.generate(2, n), in order. *)
Lemma monomial_cons : forall d e a x, monomial (d :: e) (a :: x) = a ^ d * monomial e x.
Proof. intros. unfold monomial. simpl. f_equal. f_equal. rewrite <- seq_shift, map_map. reflexivity. Qed.
Lemma comp0 : forall n, compositions (S n) 0 = [repeat 0%nat (S n)].
Proof. induction n; [reflexivity|]. rewrite compositions_S. cbn [seq flat_map]. rewrite IHn. reflexivity. Qed.
Lemma monomial_0 : forall n x, monomial (repeat 0%nat n) x = 1.
Proof.
  intros. unfold monomial. rewrite repeat_length. rewrite (map_ext_in _ (fun _ => 1)).
  - induction (seq 0 n); simpl; auto. rewrite IHl. ring.
  - intros i Hi. rewrite nth_repeat. reflexivity.
Qed.
Lemma comp1_values : forall n x, length x = S n -> map (fun e => monomial e x) (compositions (S n) 1) = x.
Proof.
  induction n; intros [|a x] H; simpl in H; try lia.
  - destruct x; simpl in H; try lia. simpl. unfold monomial. simpl. f_equal. ring.
  - rewrite compositions_S. cbn [seq flat_map]. rewrite app_nil_r, map_app, !map_map, comp0. cbn [map].
    rewrite monomial_cons, monomial_0. cbn [app]. f_equal; [simpl; ring|].
    transitivity (map (fun e => monomial e x) (compositions (S n) 1)); [|apply IHn; lia]. apply map_ext. intros e. rewrite monomial_cons. simpl. ring.
Qed.
Fixpoint pairs (x : list R) : list R := match x with [] => [] | a :: x' => map (Rmult a) x ++ pairs x' end.
Lemma comp2_values : forall n x, length x = S n -> map (fun e => monomial e x) (compositions (S n) 2) = pairs x.
Proof.
  induction n; intros [|a x] H; simpl in H; try lia.
  - destruct x; simpl in H; try lia. simpl. unfold monomial. simpl. f_equal. ring.
  - rewrite compositions_S. cbn [seq flat_map]. rewrite app_nil_r, !map_app, !map_map, comp0. cbn [map].
    rewrite monomial_cons, monomial_0. cbn [pairs app map]. f_equal; [simpl; ring|]. f_equal.
    + rewrite (map_ext (fun e => monomial ((2 - 1)%nat :: e) (a :: x)) (fun e => a * monomial e x)) by (intros; rewrite monomial_cons; simpl; ring).
      transitivity (map (Rmult a) (map (fun e => monomial e x) (compositions (S n) 1))); [rewrite map_map; reflexivity|rewrite comp1_values by lia; reflexivity].
    + rewrite <- IHn by lia. apply map_ext. intros. rewrite monomial_cons. simpl. ring.
Qed.
Lemma triu_S : forall n, triu (S n) = map (fun j => (0%nat, j)) (seq 0 (S n)) ++ map (fun p => (S (fst p), S (snd p))) (triu n).
Proof.
  intros. unfold triu. cbn [seq map concat]. rewrite Nat.sub_0_r. f_equal.
  rewrite <- seq_shift, map_map, concat_map, map_map. f_equal. apply map_ext_in. intros i Hi. rewrite map_map. cbn [fst snd].
  replace (S n - S i)%nat with (n - i)%nat by lia. rewrite <- (seq_shift (n - i) i), map_map. reflexivity.
Qed.
Lemma triu_values : forall n (x : vec), map (fun p => x (fst p) * x (snd p)) (triu n) = pairs (map x (seq 0 n)).
Proof.
  induction n; intros x; [reflexivity|]. rewrite triu_S, map_app, !map_map. cbn [seq map pairs fst snd]. f_equal.
  - f_equal. rewrite map_map. reflexivity.
  - rewrite (IHn (fun i => x (S i))). rewrite <- seq_shift, map_map. reflexivity.
Qed.
Theorem more_features : forall n x, (1 <= n)%nat -> exists fuel0 l, forall fuel, (fuel0 <= fuel)%nat ->
  poly_exponents fuel 2 n = Some l /\ 1 :: map (fun e => poly_call (poly_basis e) (map x (seq 0 n))) l = quad_features n x.
Proof.
  intros [|n] x Hn; [lia|]. exists (length (compositions (S n) 1) + length (compositions (S n) 2))%nat, (compositions (S n) 1 ++ compositions (S n) 2).
  intros fuel HF. split.
  - unfold poly_exponents. cbn [seq poly_loop]. rewrite !poly_degree_spec by lia. rewrite app_nil_r. reflexivity.
  - rewrite (map_ext _ (fun e => monomial e (map x (seq 0 (S n))))) by (intros; apply polynomial_basis_value).
    assert (L : length (map x (seq 0 (S n))) = S n) by (rewrite map_length, seq_length; auto).
    rewrite map_app, comp1_values, comp2_values by auto. unfold quad_features. rewrite triu_values. reflexivity.
Qed.

(** The matrix handed to the dual doubles the coefficients of the mixed products *)
Lemma triu_in : forall n i j, In (i, j) (triu n) <-> (i <= j < n)%nat.
Proof.
  induction n; intros i j; [simpl; lia|]. rewrite triu_S, in_app_iff, !in_map_iff. split.
  - intros [[k [E H]]|[[a b] [E H]]]; inversion E; subst; cbn [fst snd] in *; [apply in_seq in H; lia|]. apply IHn in H. lia.
  - intros H. destruct i as [|i]; [left; exists j; split; auto; apply in_seq; lia|]. right. exists (i, (j - 1)%nat). simpl. split; [f_equal; lia|]. apply IHn. lia.
Qed.
Lemma triu_NoDup : forall n, NoDup (triu n).
Proof.
  induction n; [constructor|]. rewrite triu_S. apply NoDup_app_intro.
  - apply FinFun.Injective_map_NoDup; [|apply seq_NoDup]. intros a b E. inversion E. auto.
  - apply FinFun.Injective_map_NoDup; auto. intros [a b] [c d] E. simpl in E. inversion E. auto.
  - intros [i j] H1 H2. apply in_map_iff in H1, H2. destruct H1 as [k [E1 _]]. destruct H2 as [p [E2 _]]. inversion E1; subst. inversion E2.
Qed.
Definition swapp (l : list ((nat * nat) * R)) : list ((nat * nat) * R) := map (fun px => ((snd (fst px), fst (fst px)), snd px)) l.
Lemma fold_swap : forall l X, fold_left (fun Y px => mset Y (snd (fst px), fst (fst px)) (snd px)) l X = mfill (swapp l) X.
Proof. induction l; intros; [reflexivity|]. unfold mfill in *. simpl. apply IHl. Qed.
Lemma more_fill_entries : forall n beta, length beta = length (quad_features n (fun _ => 0)) ->
  map (fun p => more_fill n beta (fst p) (snd p)) (triu n) = skipn (1 + n) beta /\
  forall i j, (i < n)%nat -> (j < n)%nat -> more_fill n beta i j = more_fill n beta j i.
Proof.
  intros n beta HL. unfold quad_features in HL. rewrite !app_length, !map_length, seq_length in HL. cbn [length] in HL.
  set (vs := skipn (1 + n) beta). assert (LV : length (triu n) = length vs) by (unfold vs; rewrite skipn_length; lia).
  set (X := mfill (combine (triu n) vs) (fun _ _ => 0)).
  assert (E : more_fill n beta = mfill (swapp (combine (triu n) (map (fun p => X (fst p) (snd p)) (triu n)))) X) by (unfold more_fill; rewrite fold_swap; reflexivity).
  assert (F : map fst (swapp (combine (triu n) (map (fun p => X (fst p) (snd p)) (triu n)))) = map (fun p => (snd p, fst p)) (triu n)).
  { unfold swapp. rewrite map_map. cbn [fst]. rewrite <- (map_fst_combine (triu n) (map (fun p => X (fst p) (snd p)) (triu n))) at 3 by (rewrite map_length; auto). rewrite map_map. reflexivity. }
  assert (ND : NoDup (map fst (swapp (combine (triu n) (map (fun p => X (fst p) (snd p)) (triu n)))))).
  { rewrite F. apply FinFun.Injective_map_NoDup; [|apply triu_NoDup]. intros [a b] [c d] H. simpl in H. inversion H. auto. }
  assert (LOW : forall i j, (i <= j < n)%nat -> more_fill n beta j i = X i j).
  { intros i j H. rewrite E. apply mfill_in; auto. unfold swapp. apply in_map_iff. exists ((i, j), X i j). split; [reflexivity|].
    apply (combine_map_in (i, j) (fun p => X (fst p) (snd p))). apply triu_in. auto. }
  assert (UP : forall i j, (i <= j < n)%nat -> more_fill n beta i j = X i j).
  { intros i j H. destruct (Nat.eq_dec i j) as [->|NE]; [apply LOW; lia|]. rewrite E. apply mfill_other. rewrite F. intros I.
    apply in_map_iff in I. destruct I as [[a b] [Eq I]]. inversion Eq; subst. apply triu_in in I. lia. }
  split.
  - transitivity (map (fun p => X (fst p) (snd p)) (triu n)); [|apply mfill_get; auto; apply triu_NoDup].
    apply map_ext_in. intros [i j] I. apply triu_in in I. simpl. apply UP. auto.
  - intros i j Hi Hj. destruct (Nat.le_ge_cases i j); [rewrite UP, LOW by lia|rewrite LOW, UP by lia]; auto.
Qed.
Lemma rsum_triu : forall n f, rsum (map f (triu n)) = sm n (fun i => sm n (fun j => if (i <=? j)%nat then f (i, j) else 0)).
Proof.
  induction n; intros f; [reflexivity|]. rewrite triu_S, map_app, rsum_app, !map_map. rewrite (IHn (fun p => f (S (fst p), S (snd p)))).
  assert (SH : forall m g, sm (S m) g = g 0%nat + sm m (fun i => g (S i))).
  { intros m g. change (S m) with (1 + m)%nat. rewrite sm_app. unfold sm at 1. simpl. ring. }
  rewrite SH. f_equal.
  apply sm_ext. intros i Hi. rewrite SH. simpl. rewrite Rplus_0_l. apply sm_ext. intros. reflexivity.
Qed.
Theorem more_quadratic : forall n beta x, length beta = length (quad_features n (fun _ => 0)) ->
  dot n x (mv n (more_fill n beta) x)
  = rsum (map (fun pb => (if (fst (fst pb) =? snd (fst pb))%nat then 1 else 2) * snd pb * (x (fst (fst pb)) * x (snd (fst pb)))) (combine (triu n) (skipn (1 + n) beta))).
Proof.
  intros n beta x HL. destruct (more_fill_entries n beta HL) as [G Sy]. rewrite <- G. set (Rm := more_fill n beta) in *.
  assert (C : forall (h : nat * nat -> R) (k : (nat * nat) * R -> R) l, map k (combine l (map h l)) = map (fun p => k (p, h p)) l).
  { induction l; simpl; auto. f_equal. auto. }
  rewrite C. cbn [fst snd]. rewrite rsum_triu. unfold dot, mv.
  rewrite (sm_ext n (fun i => x i * sm n (fun j => Rm i j * x j)) (fun i => sm n (fun j => if (i <=? j)%nat then Rm i j * (x i * x j) else 0) + sm n (fun j => if (i <? j)%nat then 0 else if (i =? j)%nat then 0 else Rm i j * (x i * x j)))).
  - rewrite sm_plus, (sm_swap n n (fun i j => if (i <? j)%nat then 0 else if (i =? j)%nat then 0 else Rm i j * (x i * x j))), <- sm_plus.
    apply sm_ext. intros i Hi. rewrite <- sm_plus. apply sm_ext. intros j Hj. cbn [fst snd].
    destruct (Nat.leb_spec i j); destruct (Nat.ltb_spec j i); destruct (Nat.eqb_spec j i); destruct (Nat.eqb_spec i j); try lia; try ring.
    rewrite (Sy j i) by auto. ring.
  - intros i Hi. rewrite <- sm_plus, <- sm_scal. apply sm_ext. intros j Hj.
    destruct (Nat.leb_spec i j); destruct (Nat.ltb_spec i j); destruct (Nat.eqb_spec i j); try lia; ring.
Qed.

(** So the surrogate is not the fitted quadratic, even when the fitted one is negative definite
    (and is left alone by the eigenvalue clipping). *)
Theorem more_surrogate_refuted : exists n beta x, length beta = length (quad_features n (fun _ => 0)) /\
  (forall y, (exists i, (i < n)%nat /\ y i <> 0) -> dot n y (mv n (more_fill n beta) y) < 0) /\
  dot n x (mv n (more_fill n beta) x) <> dotl (skipn (1 + n) beta) (skipn (1 + n) (quad_features n x)).
Proof.
  exists 2%nat, [0; 0; 0; -1; -1/2; -1], (fun _ => 1). split; [reflexivity|]. split.
  - intros y [i [Hi NE]]. rewrite more_quadratic by reflexivity. simpl.
    assert (0 < y 0%nat ^ 2 + y 1%nat ^ 2).
    { pose proof (pow2_ge_0 (y 0%nat)). pose proof (pow2_ge_0 (y 1%nat)). destruct i as [|[|i]]; [| |lia]; pose proof (sq_pos _ NE); lra. }
    pose proof (pow2_ge_0 (y 0%nat + y 1%nat)). nra.
  - rewrite more_quadratic by reflexivity. unfold dotl. simpl. lra.
Qed.

(** The clipped matrix is negative semidefinite, whatever the decomposition returned *)
Theorem more_neg_nsd : forall n v ew x, dot n x (mv n (more_neg n v ew) x) <= 0.
Proof.
  intros n v ew x. unfold more_neg. set (w' := fun i => if Rle_dec 0 (ew i) then - / 10 ^ 12 else ew i). set (X := mm n (mm n v (diagm w')) (mt v)).
  assert (W : forall k, w' k <= 0).
  { intros k. unfold w'. destruct (Rle_dec 0 (ew k)); [|lra]. assert (0 < / 10 ^ 12) by (apply Rinv_0_lt_compat; lra). lra. }
  assert (E : dot n x (mv n (fun i j => / 2 * (X i j + X j i)) x) = dot n x (mv n X x)).
  { change (fun i j : nat => / 2 * (X i j + X j i)) with (mscal (/ 2) (madd X (mt X))). rewrite mv_mscal, mv_madd, dot_scal_r, dot_add_r.
    rewrite (dot_mv n n (mt X) x x), mt_mt, (dot_comm n (mv n X x) x). field. }
  rewrite E. unfold X. rewrite mv_mm, mv_mm, (dot_mv n n v), quad_diagm.
  assert (0 <= sm n (fun k => - (w' k * (mv n (mt v) x k * mv n (mt v) x k)))); [|rewrite sm_opp in H; lra].
  apply sm_nonneg. intros k _. specialize (W k). pose proof (Rle_0_sqr (mv n (mt v) x k)) as Q. unfold Rsqr in Q. nra.
Qed.
Lemma more_neg_sym : forall n v ew i j, more_neg n v ew i j = more_neg n v ew j i.
Proof. intros. unfold more_neg. cbv zeta. ring. Qed.

(** The new mean maximises the surrogate minus the penalty for leaving the old distribution, and
    the new covariance is positive semidefinite. *)
Definition more_objective (n : nat) (Qi Rm : mat) (b r : vec) (eta : R) (m : vec) : R :=
  dot n m (mv n Rm m) + dot n m r - eta / 2 * dot n (vsub m b) (mv n Qi (vsub m b)).
Theorem more_update : forall n Qi F b r eta omg v ew m, psd n Qi -> 0 <= eta -> 0 <= omg ->
  let Rm := more_neg n v ew in inverse n (more_M Qi Rm eta) F ->
  more_objective n Qi Rm b r eta m <= more_objective n Qi Rm b r eta (more_mu n F Qi b r eta) /\
  (forall u, 0 <= dot n u (mv n (more_sigma F eta omg) u)).
Proof.
  intros n Qi F b r eta omg v ew m [Qs Qp] He Ho Rm Hinv.
  assert (Ms : forall i j, (i < n)%nat -> (j < n)%nat -> more_M Qi Rm eta i j = more_M Qi Rm eta j i).
  { intros. unfold more_M, msub, mscal, Rm. rewrite (Qs i j), (more_neg_sym n v ew i j) by auto. reflexivity. }
  assert (Mq : forall u, dot n u (mv n (more_M Qi Rm eta) u) = eta * dot n u (mv n Qi u) - 2 * dot n u (mv n Rm u)).
  { intros u. unfold more_M. rewrite mv_msub, !mv_mscal, dot_sub_r, !dot_scal_r. reflexivity. }
  assert (Mp : forall u, 0 <= dot n u (mv n (more_M Qi Rm eta) u)).
  { intros u. rewrite Mq. pose proof (Qp u). pose proof (more_neg_nsd n v ew u). unfold Rm. nra. }
  assert (MF : forall u i, (i < n)%nat -> mv n (more_M Qi Rm eta) (mv n F u) i = u i).
  { intros u i Hi. rewrite <- mv_mm. rewrite <- (mv_eye n u i Hi). apply mv_ext; auto. intros j Hj. apply Hinv; auto. }
  split.
  - set (mu := more_mu n F Qi b r eta). set (M := more_M Qi Rm eta) in *.
    assert (OBJ : forall u, more_objective n Qi Rm b r eta u = - / 2 * dot n u (mv n M u) + dot n u (mv n M mu) - eta / 2 * dot n b (mv n Qi b)).
    { intros u. unfold more_objective.
      assert (A : dot n u (mv n M mu) = eta * dot n u (mv n Qi b) + dot n u r).
      { rewrite (dot_ext n u (mv n M mu) u (more_f n Qi b r eta)); auto; [|intros; apply MF; auto].
        unfold more_f. rewrite dot_add_r, mv_mscal, dot_scal_r. reflexivity. }
      rewrite A, Mq. replace (vsub u b) with (vadd u (vscal (-1) b)) by (apply functional_extensionality; intros; unfold vsub, vadd, vscal; ring).
      rewrite (quad_add n Qi u (vscal (-1) b) Qs), quad_neg, mv_scal, dot_scal_r. field. }
    rewrite !OBJ. pose proof (Mp (vadd m (vscal (-1) mu))) as P. rewrite (quad_add n M m (vscal (-1) mu) Ms), quad_neg, mv_scal, dot_scal_r in P.
    rewrite (dot_comm n mu) in P |- *. lra.
  - intros u. unfold more_sigma. rewrite mv_mscal, dot_scal_r. apply Rmult_le_pos; [lra|].
    rewrite (dot_ext n u (mv n F u) (mv n (more_M Qi Rm eta) (mv n F u)) (mv n F u)); auto; [|intros; symmetry; apply MF; auto].
    rewrite dot_comm. apply Mp.
Qed.

(** * Concrete cases *)
Example reps_dual_ex : reps_dual 2 1 (fun i => INR i) 1 = 1 + ln ((exp (-1) + 1) / 2) + 1.
Proof.
  unfold reps_dual, vmean, sm. simpl. rewrite Rmax_right by lra. replace ((0 - 1) / 1) with (-1) by field. replace ((1 - 1) / 1) with 0 by field.
  rewrite exp_0. replace (exp (-1) + (1 + 0)) with (exp (-1) + 1) by ring. replace (1 + 1) with 2 by ring. ring.
Qed.
(** With equal returns the weights are uniform and the divergence is 0. *)
Example reps_equal_ex : kl_unif 2 (reps_dist 2 1 (fun _ => 3)) = 0.
Proof.
  unfold kl_unif, reps_dist, reps_weights, sm. simpl. rewrite Rmax_left by lra. replace ((3 - 3) / 1) with 0 by field. rewrite exp_0.
  replace (1 / (1 + (1 + 0))) with (/ 2) by field. rewrite ln_Rinv by lra. replace (1 + 1) with 2 by ring. ring.
Qed.
Example pgpe_baseline_ex : pgpe_baseline 2 (fun i _ => INR (S i)) (fun i => INR i) 0%nat = 4 / 5.
Proof.
  unfold pgpe_baseline, vmean, sm. cbv zeta. simpl. destruct (Req_EM_T _ 0) as [E|_]; [exfalso; lra|]. lra.
Qed.
Example pgpe_grad_ex : pgpe_grad 2 (fun i _ => INR (S i)) (fun i => INR i) 0%nat = - (1 / 5).
Proof.
  unfold pgpe_grad. rewrite pgpe_baseline_ex. unfold vmean, sm. simpl. lra.
Qed.
Example more_fill_ex : more_fill 2 [7; 8; 9; 1; 2; 3] 0%nat 1%nat = 2 /\ more_fill 2 [7; 8; 9; 1; 2; 3] 1%nat 0%nat = 2 /\ more_fill 2 [7; 8; 9; 1; 2; 3] 1%nat 1%nat = 3.
Proof. repeat split; reflexivity. Qed.
Example more_features_ex : quad_features 2 (fun i => INR (i + 2)) = [1; 2; 3; 4; 6; 9].
Proof. unfold quad_features. simpl. repeat f_equal; lra. Qed.
Example more_beta_ex : more_beta (1/2) 4 (-2) = 1.
Proof. unfold more_beta. lra. Qed.
(** one dimension: R = -1, r = 1, Q = 1, b = 0, eta = 1: mean 1/3 *)
Example more_mu_ex : more_mu 1 (fun _ _ => / 3) eye (fun _ => 0) (fun _ => 1) 1 0%nat = 1 / 3 /\ more_M eye (fun _ _ => -1) 1 0%nat 0%nat * / 3 = 1.
Proof. unfold more_mu, more_f, more_M, mv, vadd, mscal, msub, eye, sm. simpl. lra. Qed.
Example more_neg_ex : more_neg 1 eye (fun _ => 5) 0%nat 0%nat = - / 10 ^ 12.
Proof.
  unfold more_neg, mm, mt, diagm, eye, sm. cbv zeta. simpl map. cbn [Nat.eqb rsum fold_right map]. destruct (Rle_dec 0 5) as [_|N]; [|exfalso; lra]. unfold rsum. simpl. lra.
Qed.

Print Assumptions reps_dual_derivative.
Print Assumptions reps_dual_slack.
Print Assumptions reps_dual_bound.
Print Assumptions reps_update_bound.
Print Assumptions reps_stationary_optimal.
Print Assumptions pgpe_baseline_optimal.
Print Assumptions pgpe_shift_invariant.
Print Assumptions more_beta_between.
Print Assumptions more_features.
Print Assumptions more_quadratic.
Print Assumptions more_surrogate_refuted.
Print Assumptions more_neg_nsd.
Print Assumptions more_update.

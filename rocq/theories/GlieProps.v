(** On-policy temporal-difference control on deterministic environments (algorithms/value/td/
    sarsa.py and expected_sarsa.py with the policies of policy/td_policy.py): the tables never end
    up above the optimal values whatever the policy does, and they converge to the optimal values
    when the exploration of the policy vanishes. *)
From Coq Require Import List Arith ZArith Lia Reals Lra Psatz Bool.
From Verif Require Import Common PolicyModel PolicySpec PolicyProofs PolicyProps TdModel TdSpec TdProofs TdProps ConvProps DoubleConvProps.
Import ListNotations.
Local Open Scope R_scope.

(** The parameter tends to [0], or to infinity. *)
Definition vanishes (f : nat -> R) : Prop := forall eps, 0 < eps -> exists N, forall t, (N <= t)%nat -> f t <= eps.
Definition grows (f : nat -> R) : Prop := forall M, exists N, forall t, (N <= t)%nat -> M <= f t.

(** ** Updates towards almost the largest next value *)
Section Soft.
Variable n : nat.
Variable lv : list nat.
Variable k : nat.
Variable gamma : R.
Variable e : denv.
Variable q : nat -> nat -> R.
Variable al : nat -> R.
Variable xs : nat -> sample.
Variable Q : nat -> table.
Variable nxt : nat -> R.
Hypothesis G : 0 <= gamma < 1.
Hypothesis IN : forall s, In s lv -> (s < n)%nat.
Hypothesis CL : closed lv k e.
Hypothesis OV : optimal_values lv k gamma e q.
Hypothesis SH0 : shaped n k (Q O).
Hypothesis ST : forall t, 0 <= al t <= 1 /\ follows lv k e (xs t) /\
  Q (S t) = tset (Q t) (x_s (xs t)) (x_a (xs t))
    (tget (Q t) (x_s (xs t)) (x_a (xs t)) +
     al t * (x_r (xs t) + gamma * (if x_abs (xs t) then 0 else nxt t) - tget (Q t) (x_s (xs t)) (x_a (xs t)))).
Hypothesis RD : rates_diverge lv k al xs.

Definition spairs : list (nat * nat) := list_prod lv (seq 0 k).
Lemma spairs_In : forall s a, In (s, a) spairs <-> In s lv /\ (a < k)%nat.
Proof. clear - lv k. intros s a. unfold spairs. rewrite in_prod_iff, in_seq. intuition lia. Qed.
Definition sg t (z : nat * nat) := tget (Q t) (fst z) (snd z).
Definition sq (z : nat * nat) := q (fst z) (snd z).
Definition supd (t : nat) : nat * nat := (x_s (xs t), x_a (xs t)).
Definition stgt (t : nat) : R := x_r (xs t) + gamma * (if x_abs (xs t) then 0 else nxt t).

Lemma soft_shaped : forall t, shaped n k (Q t).
Proof. induction t as [|t IH]; auto. destruct (ST t) as (_ & _ & ->). apply tset_shaped; auto. Qed.
Lemma soft_rate : forall t, 0 <= al t <= 1.
Proof. intros t. apply ST. Qed.
Lemma soft_upd : forall t, sg (S t) (supd t) = (1 - al t) * sg t (supd t) + al t * stgt t.
Proof.
  intros t. destruct (ST t) as (_ & (A & B & _) & E). unfold sg, supd. cbn [fst snd]. rewrite E.
  rewrite (tget_tset_eq n k) by (auto using soft_shaped). unfold stgt. ring.
Qed.
Lemma soft_other : forall t z, z <> supd t -> sg (S t) z = sg t z.
Proof. intros t [s a] NE. destruct (ST t) as (_ & _ & E). unfold sg. cbn [fst snd]. rewrite E. apply tget_tset_neq. exact NE. Qed.
Lemma soft_rates : forall z, In z spairs -> forall M, exists N, M <= wsum pair_eq_dec supd al z N.
Proof.
  intros [s a] Hz M. apply spairs_In in Hz as [Hs Ha]. destruct (RD s a Hs Ha M) as (N & HN). exists N.
  unfold supd. rewrite rates_wsum. exact HN.
Qed.
Lemma soft_key : forall t, In (supd t) spairs.
Proof. intros t. apply spairs_In. destruct (ST t) as (_ & (A & B & _) & _). auto. Qed.
Lemma soft_act : (1 <= k)%nat.
Proof. destruct (ST O) as (_ & (_ & B & _) & _). lia. Qed.

Lemma soft_star : forall t, exists v, sq (supd t) = x_r (xs t) + gamma * v /\
  (x_abs (xs t) = true -> v = 0) /\ (x_abs (xs t) = false -> In (x_s' (xs t)) lv /\ is_max k (q (x_s' (xs t))) v).
Proof.
  intros t. destruct (ST t) as (_ & F & _). destruct (follows_ok _ _ _ _ F) as ((A & B) & Er & Es & Ea).
  unfold sq, supd. cbn [fst snd]. rewrite Er, Es, Ea. destruct (OV _ _ A B) as (v & E & V1 & V2).
  exists v. split; [exact E|]. split; [exact V1|]. intros Ab. split; [apply CL; auto|apply V2; exact Ab].
Qed.
Lemma row_max : forall t s, In s lv -> is_max k (tget (Q t) s) (qmax (row (Q t) s)).
Proof.
  intros t s Hs. pose proof (row_length n k _ _ (soft_shaped t) (IN _ Hs)) as LR. pose proof soft_act as SA.
  destruct (qmax_spec (row (Q t) s)) as [I M]; [intros Z; rewrite Z in LR; simpl in LR; lia|]. split.
  - apply (In_nth _ _ 0) in I as (b & Hb & E'). exists b. split; [lia|exact E'].
  - intros b Hb. apply M, nth_In. lia.
Qed.

Lemma soft_over : (forall t, x_abs (xs t) = false -> nxt t <= qmax (row (Q t) (x_s' (xs t)))) ->
  forall eps, 0 < eps -> exists T, forall t, (T <= t)%nat -> forall z, In z spairs -> sg t z - sq z <= eps.
Proof.
  intros NX eps He.
  destruct (below_floor pair_eq_dec spairs (fun t z => sg t z - sq z) supd al (fun t => stgt t - sq (supd t)) soft_rate)
    with (kappa := gamma) (T0 := O) (floor := eps) as (T & _ & HT); auto.
  - intros t. rewrite soft_upd. apply Req_le. ring.
  - intros t z NE. rewrite soft_other by auto. reflexivity.
  - exact soft_rates.
  - intros t E _ HE B. destruct (soft_star t) as (v & -> & V1 & V2). unfold stgt.
    match goal with |- _ + gamma * ?w - _ <= _ =>
      replace (x_r (xs t) + gamma * w - (x_r (xs t) + gamma * v)) with (gamma * (w - v)) by ring end.
    apply Rmult_le_compat_l; [lra|]. destruct (x_abs (xs t)) eqn:Ab; [rewrite V1 by auto; lra|].
    destruct (V2 eq_refl) as [C [_ M]]. specialize (NX t Ab).
    destruct (row_max t _ C) as [(b & Hb & Eb) _]. specialize (M b Hb).
    specialize (B (x_s' (xs t), b) (proj2 (spairs_In _ _) (conj C Hb))). unfold sg, sq in B. cbn [fst snd] in B. lra.
  - exists T. exact HT.
Qed.

Lemma soft_converges : forall delta, vanishes delta ->
  (forall t, x_abs (xs t) = false -> Rabs (nxt t - qmax (row (Q t) (x_s' (xs t)))) <= delta t) ->
  forall eps, 0 < eps -> exists T, forall t, (T <= t)%nat -> forall z, In z spairs -> Rabs (sg t z - sq z) <= eps.
Proof.
  intros delta VD NX eps He.
  destruct (VD (eps * ((1 - gamma) / 2))) as (T0 & HT0); [apply Rmult_lt_0_compat; lra|].
  destruct (below_floor pair_eq_dec spairs (fun t z => Rabs (sg t z - sq z)) supd al (fun t => Rabs (stgt t - sq (supd t))) soft_rate)
    with (kappa := (1 + gamma) / 2) (T0 := T0) (floor := eps) as (T & _ & HT); auto; try lra.
  - intros t. rewrite soft_upd. pose proof (soft_rate t) as A. set (g := sg t _). set (r := stgt t). set (v := sq _).
    replace ((1 - al t) * g + al t * r - v) with ((1 - al t) * (g - v) + al t * (r - v)) by ring.
    eapply Rle_trans; [apply Rabs_triang|]. rewrite !Rabs_mult, (Rabs_pos_eq (1 - al t)), (Rabs_pos_eq (al t)) by lra. lra.
  - intros t z NE. rewrite soft_other by auto. reflexivity.
  - exact soft_rates.
  - intros t E Ht HE B. destruct (soft_star t) as (v & -> & V1 & V2). unfold stgt.
    match goal with |- Rabs (_ + gamma * ?w - _) <= _ =>
      replace (x_r (xs t) + gamma * w - (x_r (xs t) + gamma * v)) with (gamma * (w - v)) by ring end.
    rewrite Rabs_mult, (Rabs_pos_eq gamma) by lra.
    destruct (x_abs (xs t)) eqn:Ab.
    { rewrite V1, Rminus_diag_eq, Rabs_R0, Rmult_0_r by auto. apply Rmult_le_pos; lra. }
    destruct (V2 eq_refl) as [C M]. specialize (NX t Ab). specialize (HT0 t Ht).
    assert (MC : Rabs (qmax (row (Q t) (x_s' (xs t))) - v) <= E).
    { apply (is_max_close k (tget (Q t) (x_s' (xs t))) (q (x_s' (xs t)))); auto using row_max.
      intros b Hb. apply (B (x_s' (xs t), b)). apply spairs_In. auto. }
    assert (TR : Rabs (nxt t - v) <= E + eps * ((1 - gamma) / 2)).
    { replace (nxt t - v) with ((nxt t - qmax (row (Q t) (x_s' (xs t)))) + (qmax (row (Q t) (x_s' (xs t))) - v)) by ring.
      eapply Rle_trans; [apply Rabs_triang|]. lra. }
    apply (Rmult_le_compat_l gamma) in TR; [|lra].
    assert (P : 0 < eps * ((1 - gamma) / 2)) by (apply Rmult_lt_0_compat; lra).
    assert (gamma * (eps * ((1 - gamma) / 2)) <= 1 * (eps * ((1 - gamma) / 2))) by (apply Rmult_le_compat_r; lra).
    assert (eps * ((1 - gamma) / 2) <= E * ((1 - gamma) / 2)) by (apply Rmult_le_compat_r; lra). lra.
  - exists T. exact HT.
Qed.

(** All values stay within some bound when the next value is between those of the row. *)
Lemma soft_bounded : (forall t B, x_abs (xs t) = false -> (forall b, (b < k)%nat -> Rabs (tget (Q t) (x_s' (xs t)) b) <= B) -> Rabs (nxt t) <= B) ->
  exists B, 0 <= B /\ forall t s a, In s lv -> (a < k)%nat -> Rabs (tget (Q t) s a) <= B.
Proof.
  intros NX. destruct (finite_bound lv k soft_act (d_r e)) as (Rm & R0 & HR).
  destruct (finite_bound lv k soft_act (tget (Q O))) as (S1 & S10 & H1).
  set (B := S1 + Rm / (1 - gamma)). exists B.
  assert (RG : 0 <= Rm / (1 - gamma)) by (apply Rmult_le_pos; [lra|apply Rlt_le, Rinv_0_lt_compat; lra]).
  assert (BB : Rm + gamma * B <= B).
  { assert (Rm / (1 - gamma) * (1 - gamma) = Rm) by (field; lra).
    assert (Rm / (1 - gamma) * (1 - gamma) <= B * (1 - gamma)) by (apply Rmult_le_compat_r; unfold B; lra). lra. }
  assert (HB : 0 <= B) by (unfold B; lra). split; [exact HB|].
  induction t as [|t IH]; intros s a Hs Ha; [specialize (H1 s a Hs Ha); unfold B; lra|].
  destruct (pair_eq_dec (s, a) (supd t)) as [E|NE].
  - change (tget (Q (S t)) s a) with (sg (S t) (s, a)). rewrite E, soft_upd, <- E. cbn [sg fst snd].
    destruct (ST t) as (A & F & _). destruct (follows_ok _ _ _ _ F) as ((A1 & A2) & Er & Es & Ea).
    assert (TB : Rabs (stgt t) <= B).
    { eapply Rle_trans; [|exact BB]. unfold stgt. eapply Rle_trans; [apply Rabs_triang|].
      apply Rplus_le_compat; [rewrite Er; apply HR; auto|]. rewrite Rabs_mult, (Rabs_pos_eq gamma) by lra.
      apply Rmult_le_compat_l; [lra|]. destruct (x_abs (xs t)) eqn:Ab; [rewrite Rabs_R0; lra|].
      apply (NX t B Ab). intros b Hb. apply IH; auto. rewrite Es. apply CL; auto; congruence. }
    specialize (IH s a Hs Ha). unfold sg. cbn [fst snd].
    eapply Rle_trans; [apply Rabs_triang|]. rewrite !Rabs_mult, (Rabs_pos_eq (1 - al t)), (Rabs_pos_eq (al t)) by lra.
    assert ((1 - al t) * Rabs (tget (Q t) s a) <= (1 - al t) * B) by (apply Rmult_le_compat_l; lra).
    assert (al t * Rabs (stgt t) <= al t * B) by (apply Rmult_le_compat_l; lra). lra.
  - change (tget (Q (S t)) s a) with (sg (S t) (s, a)). rewrite soft_other by auto. apply IH; auto.
Qed.
End Soft.

(** ** Expectations under a policy *)
Lemma dot_gap : forall u p M c, length u = length p -> rsum p = 1 ->
  (forall i, (i < length u)%nat -> nth i p 0 * (M - nth i u 0) <= c) -> M - dot u p <= INR (length u) * c.
Proof.
  intros u p M c L S H. rewrite dot_nth by exact L.
  assert (SP : rsum (map (fun i => nth i p 0) (seq 0 (length u))) = 1).
  { rewrite <- S, L. clear. induction p as [|x l IH]; [reflexivity|].
    cbn [length seq map nth rsum]. f_equal. rewrite <- seq_shift, map_map. exact IH. }
  assert (K : forall l, (forall i, In i l -> (i < length u)%nat) ->
    M * rsum (map (fun i => nth i p 0) l) - rsum (map (fun i => nth i u 0 * nth i p 0) l) <= INR (length l) * c).
  { induction l as [|i l IH]; intros HI; [cbn; lra|]. cbn [map rsum length]. rewrite S_INR.
    specialize (IH (fun j Hj => HI j (or_intror Hj))). specialize (H i (HI i (or_introl eq_refl))). lra. }
  specialize (K (seq 0 (length u)) ltac:(intros i Hi; apply in_seq in Hi; lia)). rewrite SP, seq_length in K. lra.
Qed.
Lemma dot_below : forall u p M, length u = length p -> rsum p = 1 -> (forall x, In x p -> 0 <= x) ->
  (forall i, (i < length u)%nat -> nth i u 0 <= M) -> dot u p <= M.
Proof.
  intros u p M L S P H. 
  assert (K : forall u p, length u = length p -> (forall x, In x p -> 0 <= x) -> (forall x, In x u -> x <= M) -> dot u p <= M * rsum p).
  { clear. induction u as [|x u IH]; intros [|y p] L P H; try discriminate; cbn [dot rsum]; [lra|].
    specialize (IH p ltac:(simpl in L; lia) (fun z Hz => P z (or_intror Hz)) (fun z Hz => H z (or_intror Hz))).
    specialize (P y (or_introl eq_refl)). specialize (H x (or_introl eq_refl)). nra. }
  specialize (K u p L P). rewrite S in K.
  assert (HU : forall x, In x u -> x <= M) by (intros x Hx; apply (In_nth _ _ 0) in Hx as (i & Hi & <-); auto).
  specialize (K HU). lra.
Qed.

(** Epsilon-greedy and Boltzmann policies are close to the largest value. *)
Lemma eg_gap : forall u eps B, u <> [] -> 0 <= eps <= 1 -> (forall i, (i < length u)%nat -> Rabs (nth i u 0) <= B) ->
  Rabs (dot u (eg_probs u eps) - qmax u) <= 2 * B * eps.
Proof.
  intros u eps B NE He HB. destruct (eps_greedy_distribution u eps NE He) as ((P0 & P1) & LP & NP & m & Hm & PR).
  destruct (qmax_spec u NE) as [I M]. pose proof (len_pos _ _ NE) as LPos.
  assert (MB : qmax u <= B). { apply (In_nth _ _ 0) in I as (i & Hi & <-). specialize (HB i Hi). apply Rabs_le_inv' in HB. lra. }
  assert (UP : dot u (eg_probs u eps) <= qmax u).
  { apply dot_below; auto. intros i Hi. apply M, nth_In. exact Hi. }
  assert (LO : qmax u - dot u (eg_probs u eps) <= INR (length u) * (eps / INR (length u) * (2 * B))).
  { apply dot_gap; auto. intros i Hi. rewrite NP by exact Hi. specialize (HB i Hi). apply Rabs_le_inv' in HB.
    assert (EP : 0 <= eps / INR (length u)) by (apply Rmult_le_pos; [lra|left; apply Rinv_0_lt_compat; auto]).
    destruct (PR i Hi) as [PM PN]. destruct (in_dec Nat.eq_dec i (argmaxs u)) as [A|A].
    - apply argmaxs_In in A; [|exact NE]. destruct A as [_ A].
      assert (qmax u = nth i u 0).
      { apply Rle_antisym; [|apply M, nth_In; exact Hi]. apply (In_nth _ _ 0) in I as (j & Hj & <-). apply A. exact Hj. }
      rewrite H, Rminus_diag_eq, Rmult_0_r by auto. apply Rmult_le_pos; lra.
    - rewrite PN by (intros Z; apply A; apply argmaxs_In; auto). apply Rmult_le_compat_l; lra. }
  replace (INR (length u) * (eps / INR (length u) * (2 * B))) with (2 * B * eps) in LO by (field; lra).
  apply Rabs_le. lra.
Qed.

Lemma bz_gap : forall u beta, u <> [] -> 0 < beta -> Rabs (dot u (bz_probs u beta) - qmax u) <= INR (length u) * / beta.
Proof.
  intros u beta NE Hb. destruct (boltzmann_distribution u beta NE) as (LP & P1 & P0 & NP & _).
  destruct (qmax_spec u NE) as [I M].
  assert (UP : dot u (bz_probs u beta) <= qmax u).
  { apply dot_below; auto; [intros x Hx; apply Rlt_le, P0, Hx|]. intros i Hi. apply M, nth_In. exact Hi. }
  assert (LO : qmax u - dot u (bz_probs u beta) <= INR (length u) * / beta).
  { apply dot_gap; auto. intros i Hi. destruct (NP i Hi) as [-> _]. unfold softmax.
    assert (MI : nth i u 0 <= qmax u) by (apply M, nth_In; exact Hi).
    set (x := qmax u - nth i u 0). assert (X0 : 0 <= x) by (unfold x; lra).
    assert (DEN : exp (beta * qmax u) <= rsum (map (fun y => exp (beta * y)) u)).
    { apply rsum_in_le; [|apply in_map_iff; exists (qmax u); auto]. intros y Hy. apply in_map_iff in Hy as (w & <- & _).
      apply Rlt_le, exp_pos. }
    pose proof (exp_pos (beta * qmax u)) as EP. set (D := rsum (map (fun y : R => exp (beta * y)) u)) in *.
    assert (F : exp (beta * nth i u 0) / D <= exp (- (beta * x))).
    { apply (Rmult_le_reg_r D); [lra|]. unfold Rdiv. rewrite Rmult_assoc, Rinv_l, Rmult_1_r by lra.
      replace (beta * nth i u 0) with (- (beta * x) + beta * qmax u) by (unfold x; ring). rewrite exp_plus.
      apply Rmult_le_compat_l; [apply Rlt_le, exp_pos|exact DEN]. }
    eapply Rle_trans; [apply Rmult_le_compat_r; [exact X0|exact F]|].
    assert (BX : 0 <= beta * x) by (apply Rmult_le_pos; lra).
    assert (EX : beta * x <= exp (beta * x)).
    { destruct (Req_dec (beta * x) 0) as [->|NZ]; [rewrite exp_0; lra|]. pose proof (exp_ineq1 (beta * x) NZ). lra. }
    rewrite exp_Ropp. pose proof (exp_pos (beta * x)) as EB.
    apply (Rmult_le_reg_l (beta * exp (beta * x))); [apply Rmult_lt_0_compat; lra|].
    replace (beta * exp (beta * x) * (/ exp (beta * x) * x)) with (beta * x) by (field; lra).
    replace (beta * exp (beta * x) * / beta) with (exp (beta * x)) by (field; lra). exact EX. }
  apply Rabs_le. lra.
Qed.

(** ** The algorithms *)
(** From some time on the greedy actions are optimal, for tables that converge. *)
Lemma greedy_then_optimal : forall n lv k (q : nat -> nat -> R) (Q : nat -> table),
  (1 <= k)%nat -> (forall s, In s lv -> (s < n)%nat) -> (forall t, shaped n k (Q t)) ->
  (forall eps, 0 < eps -> exists T, forall t, (T <= t)%nat -> forall s a, In s lv -> (a < k)%nat -> Rabs (tget (Q t) s a - q s a) < eps) ->
  exists T, forall t, (T <= t)%nat -> forall s a, In s lv -> In a (argmaxs (row (Q t) s)) -> is_max k (q s) (q s a).
Proof.
  intros n lv k q Q K1 IN SH CV. destruct (value_gap lv k q) as (d & D0 & Gap). destruct (CV (d / 2)) as (N & HN); [lra|].
  exists N. intros t Ht s a Hs Ia. pose proof (row_length n k _ s (SH t) (IN _ Hs)) as LR.
  apply argmaxs_In in Ia as [La Ma]; [|destruct (row (Q t) s); simpl in LR; [lia|discriminate]].
  rewrite LR in La, Ma. split; [exists a; auto|]. intros b Hb. apply Rnot_lt_le. intros Lt.
  specialize (Gap s a b Hs La Hb Lt). specialize (Ma b Hb).
  pose proof (HN t Ht s a Hs La) as Ea. pose proof (HN t Ht s b Hs Hb) as Eb. unfold tget in Ea, Eb.
  apply Rabs_def2 in Ea. apply Rabs_def2 in Eb. lra.
Qed.

(** SARSA never ends up above the optimal values, whatever actions are drawn. *)
Theorem sarsa_no_overestimation : forall n lv k gamma e q al xs (act : nat -> nat) (Q : nat -> table),
  0 <= gamma < 1 -> (forall s, In s lv -> (s < n)%nat) -> closed lv k e -> optimal_values lv k gamma e q -> shaped n k (Q O) ->
  (forall t, 0 <= al t <= 1 /\ follows lv k e (xs t) /\ (act t < k)%nat /\ Q (S t) = sarsa_update gamma (al t) (act t) (Q t) (xs t)) ->
  rates_diverge lv k al xs ->
  forall eps, 0 < eps -> exists T, forall t, (T <= t)%nat -> forall s a, In s lv -> (a < k)%nat ->
    tget (Q t) s a < q s a + eps.
Proof.
  intros n lv k gamma e q al xs act Q G IN CL OV S0 ST RD eps He.
  assert (ST' : forall t, 0 <= al t <= 1 /\ follows lv k e (xs t) /\
    Q (S t) = tset (Q t) (x_s (xs t)) (x_a (xs t)) (tget (Q t) (x_s (xs t)) (x_a (xs t)) +
      al t * (x_r (xs t) + gamma * (if x_abs (xs t) then 0 else tget (Q t) (x_s' (xs t)) (act t)) - tget (Q t) (x_s (xs t)) (x_a (xs t))))).
  { intros t. destruct (ST t) as (A & F & _ & E). auto. }
  destruct (soft_over n lv k gamma e q al xs Q (fun t => tget (Q t) (x_s' (xs t)) (act t)) G IN CL OV S0 ST' RD) with (eps := eps / 2)
    as (T & HT); [|lra|].
  - intros t Ab. destruct (ST t) as (_ & F & La & _). destruct (follows_ok _ _ _ _ F) as ((A & B) & _ & Es & Ea).
    apply (row_max n lv k gamma e al xs Q _ IN S0 ST' t (x_s' (xs t))); [rewrite Es; apply CL; auto; congruence|exact La].
  - exists T. intros t Ht s a Hs Ha. specialize (HT t Ht (s, a) (proj2 (spairs_In lv k s a) (conj Hs Ha))).
    unfold sg, sq in HT. cbn [fst snd] in HT. lra.
Qed.

(** Expected SARSA with an epsilon-greedy policy of vanishing epsilon. *)
Theorem esarsa_eps_greedy_converges : forall n lv k gamma e q al ep xs (Q : nat -> table),
  0 <= gamma < 1 -> (forall s, In s lv -> (s < n)%nat) -> closed lv k e -> optimal_values lv k gamma e q -> shaped n k (Q O) ->
  (forall t, 0 <= al t <= 1 /\ 0 <= ep t <= 1 /\ follows lv k e (xs t) /\
     Q (S t) = esarsa_update gamma (al t) (eg_probs (row (Q t) (x_s' (xs t))) (ep t)) (Q t) (xs t)) ->
  vanishes ep -> rates_diverge lv k al xs ->
  (forall eps, 0 < eps -> exists T, forall t, (T <= t)%nat -> forall s a, In s lv -> (a < k)%nat ->
     Rabs (tget (Q t) s a - q s a) < eps) /\
  (exists T, forall t, (T <= t)%nat -> forall s a, In s lv -> In a (argmaxs (row (Q t) s)) -> is_max k (q s) (q s a)).
Proof.
  intros n lv k gamma e q al ep xs Q G IN CL OV S0 ST VE RD.
  set (nxt := fun t => dot (row (Q t) (x_s' (xs t))) (eg_probs (row (Q t) (x_s' (xs t))) (ep t))).
  assert (ST' : forall t, 0 <= al t <= 1 /\ follows lv k e (xs t) /\
    Q (S t) = tset (Q t) (x_s (xs t)) (x_a (xs t)) (tget (Q t) (x_s (xs t)) (x_a (xs t)) +
      al t * (x_r (xs t) + gamma * (if x_abs (xs t) then 0 else nxt t) - tget (Q t) (x_s (xs t)) (x_a (xs t))))).
  { intros t. destruct (ST t) as (A & _ & F & E). auto. }
  pose proof (soft_shaped n lv k gamma e al xs Q nxt S0 ST') as SH.
  assert (K1 : (1 <= k)%nat) by (destruct (ST O) as (_ & _ & (_ & B & _) & _); lia).
  assert (NXR : forall t, x_abs (xs t) = false -> length (row (Q t) (x_s' (xs t))) = k /\ row (Q t) (x_s' (xs t)) <> []).
  { intros t Ab. destruct (ST t) as (_ & _ & F & _). destruct (follows_ok _ _ _ _ F) as ((A & B) & _ & Es & Ea).
    assert (LR : length (row (Q t) (x_s' (xs t))) = k).
    { apply (row_length n); auto. apply IN. rewrite Es. apply CL; auto; congruence. }
    split; [exact LR|]. intros Z. rewrite Z in LR. simpl in LR. lia. }
  destruct (soft_bounded n lv k gamma e al xs Q nxt G IN CL S0 ST') as (B & B0 & HB).
  { intros t B Ab HB. destruct (NXR t Ab) as [LR NE]. destruct (ST t) as (_ & He & _ & _).
    destruct (eps_greedy_distribution _ (ep t) NE He) as ((P0 & P1) & LP & _).
    destruct (dot_convex (row (Q t) (x_s' (xs t))) (eg_probs (row (Q t) (x_s' (xs t))) (ep t)) B) as [L1 U1]; auto.
    - intros x Hx. apply Rabs_le_inv'. apply (In_nth _ _ 0) in Hx as (b & Hb & <-). apply HB. lia.
    - unfold nxt. rewrite P1 in L1, U1. apply Rabs_le. lra. }
  assert (CV : forall eps, 0 < eps -> exists T, forall t, (T <= t)%nat -> forall s a, In s lv -> (a < k)%nat -> Rabs (tget (Q t) s a - q s a) < eps).
  { intros eps He.
    destruct (soft_converges n lv k gamma e q al xs Q nxt G IN CL OV S0 ST' RD (fun t => 2 * B * ep t)) with (eps := eps / 2) as (T & HT); [| |lra|].
    - intros x Hx. destruct (VE (x / (2 * B + 1))) as (N & HN); [apply Rdiv_lt_0_compat; lra|]. exists N. intros t Ht.
      specialize (HN t Ht). destruct (ST t) as (_ & He' & _).
      assert (2 * B * ep t <= (2 * B + 1) * ep t) by (apply Rmult_le_compat_r; lra).
      assert ((2 * B + 1) * ep t <= (2 * B + 1) * (x / (2 * B + 1))) by (apply Rmult_le_compat_l; lra).
      replace ((2 * B + 1) * (x / (2 * B + 1))) with x in * by (field; lra). lra.
    - intros t Ab. destruct (NXR t Ab) as [LR NE]. destruct (ST t) as (_ & He' & F & _).
      destruct (follows_ok _ _ _ _ F) as ((A & A') & _ & Es & Ea).
      apply eg_gap; auto. intros i Hi. rewrite LR in Hi. apply HB; [rewrite Es; apply CL; auto; congruence|exact Hi].
    - exists T. intros t Ht s a Hs Ha. specialize (HT t Ht (s, a) (proj2 (spairs_In lv k s a) (conj Hs Ha))).
      unfold sg, sq in HT. cbn [fst snd] in HT. lra. }
  split; [exact CV|]. apply (greedy_then_optimal n); auto.
Qed.

(** Expected SARSA with a Boltzmann policy of growing inverse temperature. *)
Theorem esarsa_boltzmann_converges : forall n lv k gamma e q al bt xs (Q : nat -> table),
  0 <= gamma < 1 -> (forall s, In s lv -> (s < n)%nat) -> closed lv k e -> optimal_values lv k gamma e q -> shaped n k (Q O) ->
  (forall t, 0 <= al t <= 1 /\ follows lv k e (xs t) /\
     Q (S t) = esarsa_update gamma (al t) (bz_probs (row (Q t) (x_s' (xs t))) (bt t)) (Q t) (xs t)) ->
  (forall t, 0 < bt t) -> grows bt -> rates_diverge lv k al xs ->
  (forall eps, 0 < eps -> exists T, forall t, (T <= t)%nat -> forall s a, In s lv -> (a < k)%nat ->
     Rabs (tget (Q t) s a - q s a) < eps) /\
  (exists T, forall t, (T <= t)%nat -> forall s a, In s lv -> In a (argmaxs (row (Q t) s)) -> is_max k (q s) (q s a)).
Proof.
  intros n lv k gamma e q al bt xs Q G IN CL OV S0 ST BP GB RD.
  set (nxt := fun t => dot (row (Q t) (x_s' (xs t))) (bz_probs (row (Q t) (x_s' (xs t))) (bt t))).
  assert (ST' : forall t, 0 <= al t <= 1 /\ follows lv k e (xs t) /\
    Q (S t) = tset (Q t) (x_s (xs t)) (x_a (xs t)) (tget (Q t) (x_s (xs t)) (x_a (xs t)) +
      al t * (x_r (xs t) + gamma * (if x_abs (xs t) then 0 else nxt t) - tget (Q t) (x_s (xs t)) (x_a (xs t))))).
  { intros t. destruct (ST t) as (A & F & E). auto. }
  pose proof (soft_shaped n lv k gamma e al xs Q nxt S0 ST') as SH.
  assert (K1 : (1 <= k)%nat) by (destruct (ST O) as (_ & (_ & B & _) & _); lia).
  assert (CV : forall eps, 0 < eps -> exists T, forall t, (T <= t)%nat -> forall s a, In s lv -> (a < k)%nat -> Rabs (tget (Q t) s a - q s a) < eps).
  { intros eps He.
    destruct (soft_converges n lv k gamma e q al xs Q nxt G IN CL OV S0 ST' RD (fun t => INR k * / bt t)) with (eps := eps / 2) as (T & HT); [| |lra|].
    - intros x Hx. assert (KP : 0 < INR k) by (apply lt_0_INR; lia).
      destruct (GB (INR k / x)) as (N & HN). exists N. intros t Ht. specialize (HN t Ht). specialize (BP t).
      apply (Rmult_le_reg_r (bt t)); [exact BP|]. rewrite Rmult_assoc, Rinv_l, Rmult_1_r by lra.
      apply (Rmult_le_compat_l x) in HN; [|lra]. replace (x * (INR k / x)) with (INR k) in HN by (field; lra). exact HN.
    - intros t Ab. destruct (ST t) as (_ & F & _). destruct (follows_ok _ _ _ _ F) as ((A & A') & _ & Es & Ea).
      assert (LR : length (row (Q t) (x_s' (xs t))) = k).
      { apply (row_length n); auto. apply IN. rewrite Es. apply CL; auto; congruence. }
      rewrite <- LR. apply bz_gap; auto. intros Z. rewrite Z in LR. simpl in LR. lia.
    - exists T. intros t Ht s a Hs Ha. specialize (HT t Ht (s, a) (proj2 (spairs_In lv k s a) (conj Hs Ha))).
      unfold sg, sq in HT. cbn [fst snd] in HT. lra. }
  split; [exact CV|]. apply (greedy_then_optimal n); auto.
Qed.

(** SARSA with a policy that is greedy from some time on. *)
Theorem sarsa_greedy_converges : forall n lv k gamma e q al xs (act : nat -> nat) (Q : nat -> table) T0,
  0 <= gamma < 1 -> (forall s, In s lv -> (s < n)%nat) -> closed lv k e -> optimal_values lv k gamma e q -> shaped n k (Q O) ->
  (forall t, 0 <= al t <= 1 /\ follows lv k e (xs t) /\ Q (S t) = sarsa_update gamma (al t) (act t) (Q t) (xs t)) ->
  (forall t, (T0 <= t)%nat -> x_abs (xs t) = false -> In (act t) (argmaxs (row (Q t) (x_s' (xs t))))) ->
  rates_diverge lv k al xs ->
  forall eps, 0 < eps -> exists T, forall t, (T <= t)%nat -> forall s a, In s lv -> (a < k)%nat ->
    Rabs (tget (Q t) s a - q s a) < eps.
Proof.
  intros n lv k gamma e q al xs act Q T0 G IN CL OV S0 ST GR RD eps He.
  set (nxt := fun t => tget (Q t) (x_s' (xs t)) (act t)).
  assert (ST' : forall t, 0 <= al t <= 1 /\ follows lv k e (xs t) /\
    Q (S t) = tset (Q t) (x_s (xs t)) (x_a (xs t)) (tget (Q t) (x_s (xs t)) (x_a (xs t)) +
      al t * (x_r (xs t) + gamma * (if x_abs (xs t) then 0 else nxt t) - tget (Q t) (x_s (xs t)) (x_a (xs t))))).
  { intros t. destruct (ST t) as (A & F & E). auto. }
  pose proof (soft_shaped n lv k gamma e al xs Q nxt S0 ST') as SH.
  assert (K1 : (1 <= k)%nat) by (destruct (ST O) as (_ & (_ & B & _) & _); lia).
  set (delta := fun t => if (T0 <=? t)%nat then 0 else Rabs (nxt t - qmax (row (Q t) (x_s' (xs t))))).
  destruct (soft_converges n lv k gamma e q al xs Q nxt G IN CL OV S0 ST' RD delta) with (eps := eps / 2) as (T & HT); [| |lra|].
  - intros x Hx. exists T0. intros t Ht. unfold delta. rewrite (proj2 (Nat.leb_le _ _) Ht). lra.
  - intros t Ab. unfold delta. destruct (T0 <=? t)%nat eqn:L; [|lra]. apply Nat.leb_le in L. specialize (GR t L Ab).
    unfold argmaxs in GR. apply filter_In in GR as [_ E]. destruct (Req_EM_T _ _) as [E'|]; [|discriminate].
    unfold nxt, tget. rewrite E', Rminus_diag_eq, Rabs_R0 by auto. lra.
  - exists T. intros t Ht s a Hs Ha. specialize (HT t Ht (s, a) (proj2 (spairs_In lv k s a) (conj Hs Ha))).
    unfold sg, sq in HT. cbn [fst snd] in HT. lra.
Qed.

(** Weighted Q-learning: [idx t] lists the maximisers of the sampled values. *)
Lemma wq_run_tables : forall n lv k gamma e al xs (idx : nat -> list nat) (st : nat -> wq_state),
  (forall t, 0 <= al t <= 1 /\ follows lv k e (xs t) /\ idx t <> [] /\ Forall (fun i => (i < k)%nat) (idx t) /\
     st (S t) = wq_update gamma (al t) (idx t) (st t) (xs t)) -> shaped n k (w_Q (st O)) ->
  (forall t, 0 <= al t <= 1 /\ follows lv k e (xs t) /\
    w_Q (st (S t)) = tset (w_Q (st t)) (x_s (xs t)) (x_a (xs t)) (tget (w_Q (st t)) (x_s (xs t)) (x_a (xs t)) +
      al t * (x_r (xs t) + gamma * (if x_abs (xs t) then 0 else wq_next (w_Q (st t)) (x_s' (xs t)) (idx t)) - tget (w_Q (st t)) (x_s (xs t)) (x_a (xs t))))).
Proof. intros n lv k gamma e al xs idx st ST S0 t. destruct (ST t) as (A & F & _ & _ & E). rewrite E. auto. Qed.

Theorem weighted_q_no_overestimation : forall n lv k gamma e q al xs (idx : nat -> list nat) (st : nat -> wq_state),
  0 <= gamma < 1 -> (forall s, In s lv -> (s < n)%nat) -> closed lv k e -> optimal_values lv k gamma e q -> shaped n k (w_Q (st O)) ->
  (forall t, 0 <= al t <= 1 /\ follows lv k e (xs t) /\ idx t <> [] /\ Forall (fun i => (i < k)%nat) (idx t) /\
     st (S t) = wq_update gamma (al t) (idx t) (st t) (xs t)) ->
  rates_diverge lv k al xs ->
  forall eps, 0 < eps -> exists T, forall t, (T <= t)%nat -> forall s a, In s lv -> (a < k)%nat ->
    tget (w_Q (st t)) s a < q s a + eps.
Proof.
  intros n lv k gamma e q al xs idx st G IN CL OV S0 ST RD eps He.
  pose proof (wq_run_tables n lv k gamma e al xs idx st ST S0) as ST'.
  pose proof (soft_shaped n lv k gamma e al xs (fun t => w_Q (st t)) (fun t => wq_next (w_Q (st t)) (x_s' (xs t)) (idx t)) S0 ST') as SH.
  destruct (soft_over n lv k gamma e q al xs (fun t => w_Q (st t)) (fun t => wq_next (w_Q (st t)) (x_s' (xs t)) (idx t)) G IN CL OV S0 ST' RD)
    with (eps := eps / 2) as (T & HT); [|lra|].
  - intros t Ab. destruct (ST t) as (_ & F & NE & FI & _). destruct (follows_ok _ _ _ _ F) as ((A & B) & _ & Es & Ea).
    assert (IL : In (x_s' (xs t)) lv) by (rewrite Es; apply CL; auto; congruence).
    pose proof (row_length n k _ _ (SH t) (IN _ IL)) as LR. cbn beta in LR.
    destruct (wq_weights_dist k (idx t) FI NE) as [[D1 D2] D3]. unfold wq_next. rewrite LR, dot_comm.
    apply dot_below; auto; [congruence|]. intros i Hi.
    apply (proj2 (row_max n lv k gamma e al xs (fun t => w_Q (st t)) _ IN S0 ST' t (x_s' (xs t)) IL) i). lia.
  - exists T. intros t Ht s a Hs Ha. specialize (HT t Ht (s, a) (proj2 (spairs_In lv k s a) (conj Hs Ha))).
    unfold sg, sq in HT. cbn [fst snd] in HT. lra.
Qed.

Theorem weighted_q_greedy_converges : forall n lv k gamma e q al xs (idx : nat -> list nat) (st : nat -> wq_state) T0,
  0 <= gamma < 1 -> (forall s, In s lv -> (s < n)%nat) -> closed lv k e -> optimal_values lv k gamma e q -> shaped n k (w_Q (st O)) ->
  (forall t, 0 <= al t <= 1 /\ follows lv k e (xs t) /\ idx t <> [] /\ Forall (fun i => (i < k)%nat) (idx t) /\
     st (S t) = wq_update gamma (al t) (idx t) (st t) (xs t)) ->
  (forall t i, (T0 <= t)%nat -> x_abs (xs t) = false -> In i (idx t) -> In i (argmaxs (row (w_Q (st t)) (x_s' (xs t))))) ->
  rates_diverge lv k al xs ->
  forall eps, 0 < eps -> exists T, forall t, (T <= t)%nat -> forall s a, In s lv -> (a < k)%nat ->
    Rabs (tget (w_Q (st t)) s a - q s a) < eps.
Proof.
  intros n lv k gamma e q al xs idx st T0 G IN CL OV S0 ST GR RD eps He.
  pose proof (wq_run_tables n lv k gamma e al xs idx st ST S0) as ST'.
  set (nxt := fun t => wq_next (w_Q (st t)) (x_s' (xs t)) (idx t)).
  pose proof (soft_shaped n lv k gamma e al xs (fun t => w_Q (st t)) nxt S0 ST') as SH.
  set (delta := fun t => if (T0 <=? t)%nat then 0 else Rabs (nxt t - qmax (row (w_Q (st t)) (x_s' (xs t))))).
  destruct (soft_converges n lv k gamma e q al xs (fun t => w_Q (st t)) nxt G IN CL OV S0 ST' RD delta) with (eps := eps / 2)
    as (T & HT); [| |lra|].
  - intros x Hx. exists T0. intros t Ht. unfold delta. rewrite (proj2 (Nat.leb_le _ _) Ht). lra.
  - intros t Ab. unfold delta. destruct (T0 <=? t)%nat eqn:L; [|lra]. apply Nat.leb_le in L.
    destruct (ST t) as (_ & F & NE & FI & _). destruct (follows_ok _ _ _ _ F) as ((A & B) & _ & Es & Ea).
    assert (IL : In (x_s' (xs t)) lv) by (rewrite Es; apply CL; auto; congruence).
    pose proof (row_length n k _ _ (SH t) (IN _ IL)) as LR. cbn beta in LR.
    destruct (wq_weights_dist k (idx t) FI NE) as [[D1 D2] D3].
    pose proof (row_max n lv k gamma e al xs (fun t => w_Q (st t)) _ IN S0 ST' t (x_s' (xs t)) IL) as [_ RM]. unfold nxt, wq_next.
    rewrite LR, dot_comm. set (u := row (w_Q (st t)) (x_s' (xs t))) in *.
    assert (UP : dot u (wq_weights k (idx t)) <= qmax u).
    { apply dot_below; auto; [congruence|]. intros i Hi. apply (RM i). lia. }
    assert (LO : qmax u - dot u (wq_weights k (idx t)) <= INR (length u) * 0).
    { apply dot_gap; auto; [congruence|]. intros i Hi. destruct (in_dec Nat.eq_dec i (idx t)) as [Ii|Ni].
      - specialize (GR t i L Ab Ii). unfold argmaxs in GR. apply filter_In in GR as [_ E]. destruct (Req_EM_T _ _) as [E'|]; [|discriminate].
        fold u in E'. rewrite E', Rminus_diag_eq, Rmult_0_r by auto. lra.
      - unfold wq_weights. set (f := fun a => INR (count_occ Nat.eq_dec (idx t) a) / INR (length (idx t))).
        rewrite (nth_indep _ 0 (f O)) by (rewrite map_length, seq_length; lia).
        rewrite (map_nth f), seq_nth by lia. unfold f. cbn [plus]. apply (count_occ_not_In Nat.eq_dec) in Ni. rewrite Ni. cbn [INR]. unfold Rdiv. lra. }
    apply Rabs_le. lra.
  - exists T. intros t Ht s a Hs Ha. specialize (HT t Ht (s, a) (proj2 (spairs_In lv k s a) (conj Hs Ha))).
    unfold sg, sq in HT. cbn [fst snd] in HT. lra.
Qed.

(** ** A concrete case *)
(** One decision state: action 0 stays there with reward 0, action 1 ends the episode with reward
    1.  With gamma = 1/2 the optimal values are 1/2 and 1. *)
Definition st_env : denv := fun _ a => match a with O => (0, O, false) | _ => (1, 1%nat, true) end.
Definition st_sample (t : nat) : sample :=
  let a := (t mod 2)%nat in {| x_s := O; x_a := a; x_r := d_r st_env O a; x_s' := d_s st_env O a; x_abs := d_abs st_env O a |}.
Definition st_q (s a : nat) : R := match a with O => 1 / 2 | _ => 1 end.

Lemma st_facts : (forall s, In s [0]%nat -> (s < 2)%nat) /\ closed [0]%nat 2 st_env /\
  optimal_values [0]%nat 2 (1 / 2) st_env st_q /\ (forall t, follows [0]%nat 2 st_env (st_sample t)) /\
  forall c, 0 < c -> rates_diverge [0]%nat 2 (fun _ => c) st_sample.
Proof.
  assert (M2 : forall t, (t mod 2 < 2)%nat) by (intros; apply Nat.mod_upper_bound; lia).
  split; [intros s [<-|[]]; lia|]. split; [intros s a [<-|[]]; destruct a as [|a]; cbn; auto; discriminate|]. split; [|split].
  - intros s a [<-|[]] Ha; destruct a as [|a].
    + exists 1. cbn. split; [lra|]. split; [discriminate|]. intros _. split; [exists 1%nat; split; [lia|reflexivity]|].
      intros [|b] _; cbn; lra.
    + exists 0. cbn. split; [lra|]. split; [reflexivity|discriminate].
  - intros t. split; [left; reflexivity|]. split; [apply M2|]. unfold st_sample. cbn [x_r x_s' x_abs x_s x_a].
    unfold d_r, d_s, d_abs. destruct (st_env _ _) as [[? ?] ?]. reflexivity.
  - intros c C0. apply (decaying_rates_diverge _ 2 _ _ c); [lra| |].
    + intros s a [<-|[]] Ha T. exists (2 * T + a)%nat. split; [lia|]. split; [reflexivity|]. cbn [st_sample x_a].
      replace (2 * T + a)%nat with (a + T * 2)%nat by lia. rewrite Nat.mod_add by lia. apply Nat.mod_small. lia.
    + intros t. set (v := visits _ _ _ _). assert (1 <= INR (S v)) by (rewrite S_INR; pose proof (pos_INR v); lra).
      unfold Rdiv. rewrite <- (Rmult_1_r c) at 2. apply Rmult_le_compat_l; [lra|].
      rewrite <- Rinv_1. apply Rinv_le_contravar; lra.
Qed.

(** Exploration [1 / (t + 1)] and inverse temperature [t + 1]. *)
Fixpoint eg_run (t : nat) : table :=
  match t with O => tconst 2 2 0 | S t' =>
    esarsa_update (1 / 2) (1 / 4) (eg_probs (row (eg_run t') (x_s' (st_sample t'))) (/ INR (S t'))) (eg_run t') (st_sample t') end.
Fixpoint bz_run (t : nat) : table :=
  match t with O => tconst 2 2 0 | S t' =>
    esarsa_update (1 / 2) (1 / 4) (bz_probs (row (bz_run t') (x_s' (st_sample t'))) (INR (S t'))) (bz_run t') (st_sample t') end.

Example glie_ex : forall eps, 0 < eps -> exists T, forall t, (T <= t)%nat ->
  Rabs (tget (eg_run t) 0 0 - 1 / 2) < eps /\ Rabs (tget (bz_run t) 0 0 - 1 / 2) < eps.
Proof.
  intros eps He. destruct st_facts as (IN & CL & OV & FO & RD).
  assert (P1 : forall t, 1 <= INR (S t)) by (intros t; rewrite S_INR; pose proof (pos_INR t); lra).
  assert (GR : grows (fun t => INR (S t))).
  { intros M. destruct (archimed M) as [A _]. exists (Z.to_nat (up M)). intros t Ht. apply le_INR in Ht.
    rewrite S_INR. destruct (Z_le_gt_dec 0 (up M)) as [P|P].
    - rewrite INR_IZR_INZ, Z2Nat.id in Ht by exact P. lra.
    - assert (IZR (up M) < 0) by (apply IZR_lt; lia). pose proof (pos_INR t). lra. }
  destruct (esarsa_eps_greedy_converges 2 [0]%nat 2 (1 / 2) st_env st_q (fun _ => 1 / 4) (fun t => / INR (S t)) st_sample eg_run)
    as [C1 _]; auto; try lra.
  - apply tconst_shaped.
  - intros t. specialize (P1 t). split; [lra|]. split.
    + split; [left; apply Rinv_0_lt_compat; lra|]. rewrite <- Rinv_1. apply Rinv_le_contravar; lra.
    + split; [apply FO|reflexivity].
  - intros x Hx. destruct (GR (/ x)) as (N & HN). exists N. intros t Ht. specialize (HN t Ht).
    rewrite <- (Rinv_inv x). apply Rinv_le_contravar; [apply Rinv_0_lt_compat; lra|exact HN].
  - apply RD. lra.
  - destruct (esarsa_boltzmann_converges 2 [0]%nat 2 (1 / 2) st_env st_q (fun _ => 1 / 4) (fun t => INR (S t)) st_sample bz_run)
      as [C2 _]; auto; try lra.
    + apply tconst_shaped.
    + intros t. split; [lra|]. split; [apply FO|reflexivity].
    + intros t. specialize (P1 t). lra.
    + apply RD. lra.
    + destruct (C1 eps He) as (T1 & H1). destruct (C2 eps He) as (T2 & H2). exists (Nat.max T1 T2). intros t Ht.
      split; [apply (H1 t ltac:(lia) O O)|apply (H2 t ltac:(lia) O O)]; cbn; auto.
Qed.

(** SARSA from a table of fives: drawing the next actions by turns, and greedily. *)
Fixpoint turn_run (t : nat) : table :=
  match t with O => tconst 2 2 5 | S t' => sarsa_update (1 / 2) (1 / 4) (t' mod 2) (turn_run t') (st_sample t') end.
Fixpoint greedy_run (t : nat) : table :=
  match t with O => tconst 2 2 5 | S t' =>
    sarsa_update (1 / 2) (1 / 4) (hd O (argmaxs (row (greedy_run t') (x_s' (st_sample t'))))) (greedy_run t') (st_sample t') end.

Example sarsa_ex : forall eps, 0 < eps -> exists T, forall t, (T <= t)%nat ->
  tget (turn_run t) 0 0 < 1 / 2 + eps /\ Rabs (tget (greedy_run t) 0 0 - 1 / 2) < eps.
Proof.
  intros eps He. destruct st_facts as (IN & CL & OV & FO & RD).
  destruct (sarsa_no_overestimation 2 [0]%nat 2 (1 / 2) st_env st_q (fun _ => 1 / 4) st_sample (fun t => (t mod 2)%nat) turn_run)
    with (eps := eps) as (T1 & H1); auto; try lra.
  - apply tconst_shaped.
  - intros t. split; [lra|]. split; [apply FO|]. split; [apply Nat.mod_upper_bound; lia|reflexivity].
  - apply RD. lra.
  - assert (SH : forall t, shaped 2 2 (greedy_run t)).
    { induction t; [apply tconst_shaped|]. cbn [greedy_run]. unfold sarsa_update. apply tset_shaped. exact IHt. }
    destruct (sarsa_greedy_converges 2 [0]%nat 2 (1 / 2) st_env st_q (fun _ => 1 / 4) st_sample
      (fun t => hd O (argmaxs (row (greedy_run t) (x_s' (st_sample t))))) greedy_run O) with (eps := eps) as (T2 & H2); auto; try lra.
    + intros t. split; [lra|]. split; [apply FO|reflexivity].
    + intros t _ Ab. assert (LR : length (row (greedy_run t) (x_s' (st_sample t))) = 2%nat).
      { apply (row_length 2); auto. unfold st_sample, d_s, st_env. cbn [x_s']. destruct (t mod 2)%nat; cbn; lia. }
      assert (NE : row (greedy_run t) (x_s' (st_sample t)) <> []) by (intros Z; rewrite Z in LR; discriminate).
      pose proof (argmaxs_nonempty _ NE) as AN. destruct (argmaxs _); [congruence|left; reflexivity].
    + apply RD. lra.
    + exists (Nat.max T1 T2). intros t Ht.
      split; [apply (H1 t ltac:(lia) O O)|apply (H2 t ltac:(lia) O O)]; cbn; auto.
Qed.

(** Weighted Q-learning on the same samples, from the zero tables the constructor makes: indices that
    list every action, and indices that list the maximisers. *)
Fixpoint every_run (t : nat) : wq_state :=
  match t with O => wq_init 2 2 | S t' => wq_update (1 / 2) (1 / 4) [0; 1]%nat (every_run t') (st_sample t') end.
Fixpoint best_run (t : nat) : wq_state :=
  match t with O => wq_init 2 2 | S t' =>
    wq_update (1 / 2) (1 / 4) (argmaxs (row (w_Q (best_run t')) (x_s' (st_sample t')))) (best_run t') (st_sample t') end.
Example weighted_ex : forall eps, 0 < eps -> exists T, forall t, (T <= t)%nat ->
  tget (w_Q (every_run t)) 0 0 < 1 / 2 + eps /\ Rabs (tget (w_Q (best_run t)) 0 0 - 1 / 2) < eps.
Proof.
  intros eps He. destruct st_facts as (IN & CL & OV & FO & RD).
  destruct (weighted_q_no_overestimation 2 [0]%nat 2 (1 / 2) st_env st_q (fun _ => 1 / 4) st_sample (fun _ => [0; 1]%nat) every_run)
    with (eps := eps) as (T1 & H1); auto; try lra.
  - apply tconst_shaped.
  - intros t. split; [lra|]. split; [apply FO|]. split; [discriminate|]. split; [repeat constructor|reflexivity].
  - apply RD. lra.
  - assert (SH : forall t, shaped 2 2 (w_Q (best_run t))).
    { induction t; [apply tconst_shaped|]. cbn [best_run]. unfold wq_update. cbn [w_Q]. apply tset_shaped. exact IHt. }
    assert (LR : forall t, length (row (w_Q (best_run t)) (x_s' (st_sample t))) = 2%nat).
    { intros t. apply (row_length 2); auto. unfold st_sample, d_s, st_env. cbn [x_s']. destruct (t mod 2)%nat; cbn; lia. }
    assert (NE : forall t, row (w_Q (best_run t)) (x_s' (st_sample t)) <> []) by (intros t Z; specialize (LR t); rewrite Z in LR; discriminate).
    destruct (weighted_q_greedy_converges 2 [0]%nat 2 (1 / 2) st_env st_q (fun _ => 1 / 4) st_sample
      (fun t => argmaxs (row (w_Q (best_run t)) (x_s' (st_sample t)))) best_run O) with (eps := eps) as (T2 & H2); auto; try lra.
    + intros t. split; [lra|]. split; [apply FO|]. split; [apply argmaxs_nonempty, NE|]. split; [|reflexivity].
      apply Forall_forall. intros i Hi. apply argmaxs_In in Hi; [|apply NE]. destruct Hi as [Hi _]. rewrite LR in Hi. exact Hi.
    + apply RD. lra.
    + exists (Nat.max T1 T2). intros t Ht.
      split; [apply (H1 t ltac:(lia) O O)|apply (H2 t ltac:(lia) O O)]; cbn; auto.
Qed.

(** ** Exploration that does not vanish *)
(** With a fixed exploration of 1/2 the table of the same environment rests at 3/7 instead of 1/2,
    though every pair is updated for ever with a constant rate. *)
Lemma half_probs : eg_probs [3 / 7; 1] (1 / 2) = [1 / 4; 3 / 4].
Proof.
  destruct (eps_greedy_distribution [3 / 7; 1] (1 / 2)) as ((_ & S1) & LP & NP & m & Hm & PR); [discriminate|lra|].
  pose proof (NP 0%nat ltac:(cbn; lia)) as N0. rewrite (proj2 (PR 0%nat ltac:(cbn; lia))) in N0.
  2: { intros [_ Z]. specialize (Z 1%nat ltac:(cbn; lia)). cbn in Z. lra. }
  destruct (eg_probs [3 / 7; 1] (1 / 2)) as [|x [|y [|z l]]]; try discriminate. cbn in N0, S1. f_equal; [lra|f_equal; lra].
Qed.
Theorem esarsa_fixed_exploration_refuted : ~ (forall n lv k gamma e q al ep xs (Q : nat -> table),
  0 <= gamma < 1 -> (forall s, In s lv -> (s < n)%nat) -> closed lv k e -> optimal_values lv k gamma e q -> shaped n k (Q O) ->
  0 < ep < 1 ->
  (forall t, 0 <= al t <= 1 /\ follows lv k e (xs t) /\
     Q (S t) = esarsa_update gamma (al t) (eg_probs (row (Q t) (x_s' (xs t))) ep) (Q t) (xs t)) ->
  rates_diverge lv k al xs ->
  forall eps, 0 < eps -> exists T, forall t, (T <= t)%nat -> forall s a, In s lv -> (a < k)%nat -> Rabs (tget (Q t) s a - q s a) < eps).
Proof.
  intros H. destruct st_facts as (IN & CL & OV & FO & RD).
  assert (ST : forall t, esarsa_update (1 / 2) (1 / 4)
      (eg_probs (row [[3 / 7; 1]; [0; 0]] (x_s' (st_sample t))) (1 / 2)) [[3 / 7; 1]; [0; 0]] (st_sample t) = [[3 / 7; 1]; [0; 0]]).
  { intros t. assert (M : (t mod 2 < 2)%nat) by (apply Nat.mod_upper_bound; lia).
    unfold st_sample, d_r, d_s, d_abs. destruct (t mod 2)%nat as [|[|m]]; [| |lia].
    - cbn [st_env x_s' fst snd]. unfold row at 1. cbn [nth]. rewrite half_probs. unfold esarsa_update.
      cbn [x_s x_a x_r x_s' x_abs]. unfold tset, tget, row. cbn. repeat (f_equal; try lra).
    - unfold esarsa_update. cbn [st_env fst snd x_s x_a x_r x_s' x_abs]. unfold tset, tget, row. cbn. repeat (f_equal; try lra). }
  destruct (H 2%nat [0]%nat 2%nat (1 / 2) st_env st_q (fun _ => 1 / 4) (1 / 2) st_sample (fun _ => [[3 / 7; 1]; [0; 0]])) with (eps := 1 / 14) as (T & HT);
    auto; try lra.
  - split; [reflexivity|]. intros r [<-|[<-|[]]]; reflexivity.
  - intros t. split; [lra|]. split; [apply FO|]. rewrite ST. reflexivity.
  - apply RD. lra.
  - specialize (HT T ltac:(lia) O O ltac:(cbn; auto) ltac:(lia)). cbn in HT. apply Rabs_def2 in HT. lra.
Qed.

Print Assumptions sarsa_no_overestimation.
Print Assumptions esarsa_eps_greedy_converges.
Print Assumptions esarsa_boltzmann_converges.
Print Assumptions sarsa_greedy_converges.
Print Assumptions esarsa_fixed_exploration_refuted.
Print Assumptions weighted_q_no_overestimation.
Print Assumptions weighted_q_greedy_converges.

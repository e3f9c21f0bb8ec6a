(** RQ-learning with off_policy=True (algorithms/value/td/rq_learning.py 51-83, model [rq_update]
    of TdModel) on deterministic environments: whatever the order of the samples and however the
    two learning rates are chosen, its table converges to the optimal values as soon as both rates
    of every pair add up to infinity. *)
From Coq Require Import List Arith ZArith Lia Reals Lra Psatz Bool.
From Verif Require Import Common PolicyModel PolicySpec PolicyProofs TdModel TdSpec TdProofs ConvProps DoubleConvProps.
Import ListNotations.
Local Open Scope R_scope.

(** The three tables of the agent. *)
Definition rqQ (st : table * table * table) : table := fst (fst st).
Definition rqT (st : table * table * table) : table := snd (fst st).
Definition rqR (st : table * table * table) : table := snd st.

(** A run: the rate [al t] is used for the reward table, [be t] (the beta parameter, or alpha times
    delta) for the table of next values.  The latter starts at zero for pairs that end the episode. *)
Definition rq_run (n : nat) (lv : list nat) (k : nat) (gamma : R) (e : denv) (al be : nat -> R)
    (a' : nat -> nat) (xs : nat -> sample) (st : nat -> table * table * table) : Prop :=
  shaped n k (rqQ (st O)) /\ shaped n k (rqT (st O)) /\ shaped n k (rqR (st O)) /\
  (forall s a, In s lv -> (a < k)%nat -> d_abs e s a = true -> tget (rqT (st O)) s a = 0) /\
  forall t, 0 <= al t <= 1 /\ 0 <= be t <= 1 /\ follows lv k e (xs t) /\
    st (S t) = rq_update gamma (al t) (be t) true (a' t) (st t) (xs t).

(** The rates of the pairs that do not end the episode. *)
Definition next_rates_diverge (lv : list nat) (k : nat) (e : denv) (be : nat -> R) (xs : nat -> sample) : Prop :=
  forall s a, In s lv -> (a < k)%nat -> d_abs e s a = false -> forall M, exists N, M <= rates_of be xs s a N.

Section Rq.
Variable n : nat.
Variable lv : list nat.
Variable k : nat.
Variable gamma : R.
Variable e : denv.
Variable q : nat -> nat -> R.
Variables al be : nat -> R.
Variable a' : nat -> nat.
Variable xs : nat -> sample.
Variable st : nat -> table * table * table.
Hypothesis G : 0 <= gamma < 1.
Hypothesis IN : forall s, In s lv -> (s < n)%nat.
Hypothesis CL : closed lv k e.
Hypothesis OV : optimal_values lv k gamma e q.
Hypothesis RUN : rq_run n lv k gamma e al be a' xs st.
Hypothesis RD : rates_diverge lv k al xs.
Hypothesis ND : next_rates_diverge lv k e be xs.

Definition pairs : list (nat * nat) := list_prod lv (seq 0 k).
Lemma pairs_In : forall s a, In (s, a) pairs <-> In s lv /\ (a < k)%nat.
Proof. clear - lv k. intros s a. unfold pairs. rewrite in_prod_iff, in_seq. intuition lia. Qed.
Definition pupd (t : nat) : nat * nat := (x_s (xs t), x_a (xs t)).
Definition gQ t (z : nat * nat) := tget (rqQ (st t)) (fst z) (snd z).
Definition gT t (z : nat * nat) := tget (rqT (st t)) (fst z) (snd z).
Definition gR t (z : nat * nat) := tget (rqR (st t)) (fst z) (snd z).

Lemma rq_sample : forall t, follows lv k e (xs t).
Proof. intros t. apply RUN. Qed.
Lemma rq_key : forall t, In (pupd t) pairs.
Proof. intros t. apply pairs_In. destruct (rq_sample t) as (A & B & _). auto. Qed.

Lemma rq_shaped : forall t, shaped n k (rqQ (st t)) /\ shaped n k (rqT (st t)) /\ shaped n k (rqR (st t)).
Proof.
  destruct RUN as (S1 & S2 & S3 & _ & ST). induction t as [|t (I1 & I2 & I3)]; auto.
  destruct (ST t) as (_ & _ & _ & ->). destruct (st t) as [[Q Qt] Rt]. cbn [rqQ rqT rqR fst snd] in *.
  unfold rq_update; cbv zeta. destruct (x_abs (xs t)); cbn [rqQ rqT rqR fst snd]; auto using tset_shaped.
Qed.

Lemma rq_R : forall t, gR (S t) (pupd t) = (1 - al t) * gR t (pupd t) + al t * x_r (xs t).
Proof.
  intros t. destruct (rq_shaped t) as (I1 & I2 & I3). destruct RUN as (_ & _ & _ & _ & ST).
  destruct (ST t) as (_ & _ & (A & B & _) & E). unfold gR, pupd. rewrite E. clear E.
  destruct (st t) as [[Q Qt] Rt]. cbn [rqQ rqT rqR fst snd] in *. unfold rq_update; cbv zeta. cbn [rqR fst snd].
  rewrite (tget_tset_eq n k) by auto. ring.
Qed.
Lemma rq_T : forall t, gT (S t) (pupd t) =
  if x_abs (xs t) then gT t (pupd t) else (1 - be t) * gT t (pupd t) + be t * qmax (row (rqQ (st t)) (x_s' (xs t))).
Proof.
  intros t. destruct (rq_shaped t) as (I1 & I2 & I3). destruct RUN as (_ & _ & _ & _ & ST).
  destruct (ST t) as (_ & _ & (A & B & _) & E). unfold gT, pupd. rewrite E. clear E.
  destruct (st t) as [[Q Qt] Rt]. cbn [rqQ rqT rqR fst snd] in *. unfold rq_update; cbv zeta. cbn [rqT fst snd].
  destruct (x_abs (xs t)); [reflexivity|]. rewrite (tget_tset_eq n k) by auto. unfold rq_next. ring.
Qed.
Lemma rq_Q : forall t, gQ (S t) (pupd t) = gR (S t) (pupd t) + gamma * gT (S t) (pupd t).
Proof.
  intros t. destruct (rq_shaped t) as (I1 & I2 & I3). destruct RUN as (_ & _ & _ & _ & ST).
  destruct (ST t) as (_ & _ & (A & B & _) & E). unfold gQ, gR, gT, pupd. rewrite E. clear E.
  destruct (st t) as [[Q Qt] Rt]. cbn [rqQ rqT rqR fst snd] in *. unfold rq_update; cbv zeta. cbn [rqQ rqR rqT fst snd].
  rewrite (tget_tset_eq n k Q) by auto. reflexivity.
Qed.
Lemma rq_other : forall t z, z <> pupd t -> gQ (S t) z = gQ t z /\ gT (S t) z = gT t z /\ gR (S t) z = gR t z.
Proof.
  intros t [s a] NE. destruct RUN as (_ & _ & _ & _ & ST). destruct (ST t) as (_ & _ & _ & E).
  unfold gQ, gR, gT, pupd in *. cbn [fst snd]. rewrite E. clear E. destruct (st t) as [[Q Qt] Rt].
  unfold rq_update; cbv zeta. cbn [rqQ rqR rqT fst snd].
  split; [apply tget_tset_neq; exact NE|]. split; [|apply tget_tset_neq; exact NE].
  destruct (x_abs (xs t)); [reflexivity|apply tget_tset_neq; exact NE].
Qed.

(** Once a pair was visited its value is its mean reward plus its discounted next value. *)
Lemma rq_sum_kept : forall t t' z, (t <= t')%nat -> gQ t z = gR t z + gamma * gT t z -> gQ t' z = gR t' z + gamma * gT t' z.
Proof.
  intros t t' z H. induction H as [|t' H IH]; auto. intros E. specialize (IH E).
  destruct (pair_eq_dec z (pupd t')) as [->|NE]; [apply rq_Q|].
  destruct (rq_other t' z NE) as (-> & -> & ->). exact IH.
Qed.
Lemma visited_once : forall s a, In s lv -> (a < k)%nat -> exists t, pupd t = (s, a).
Proof.
  intros s a Hs Ha. destruct (RD s a Hs Ha 1) as (N & HN). unfold rates_of in HN.
  assert (K : forall l, (exists t, pupd t = (s, a)) \/
     rsum (map (fun t => if pair_eqb (x_s (xs t), x_a (xs t)) (s, a) then al t else 0) l) = 0).
  { induction l as [|t l [IH|IH]]; [right; reflexivity|left; exact IH|]. cbn [map rsum]. rewrite IH.
    destruct (pair_eqb _ _) eqn:E; [left; exists t; apply pair_eqb_spec in E; exact E|right; ring]. }
  destruct (K (seq 0 N)) as [H|H]; [exact H|]. lra.
Qed.

Lemma eventually_all : forall (P : nat -> nat * nat -> Prop),
  (forall z, In z pairs -> exists T, forall t, (T <= t)%nat -> P t z) ->
  exists T, forall t, (T <= t)%nat -> forall z, In z pairs -> P t z.
Proof.
  intros P H. assert (K : forall l, incl l pairs -> exists T, forall t, (T <= t)%nat -> forall z, In z l -> P t z).
  { induction l as [|z l IH]; intros HI; [exists O; intros t _ z []|].
    destruct IH as (T & HT); [intros y Hy; apply HI; right; auto|].
    destruct (H z) as (T' & HT'); [apply HI; left; auto|]. exists (Nat.max T T').
    intros t Ht y [<-|Hy]; [apply HT'; lia|apply HT; auto; lia]. }
  apply (K pairs (fun z h => h)).
Qed.

Lemma rewards_learnt : forall eps, 0 < eps -> exists T, forall t, (T <= t)%nat -> forall z, In z pairs ->
  Rabs (gR t z - d_r e (fst z) (snd z)) <= eps.
Proof.
  intros eps He. apply eventually_all. intros z Hz.
  destruct (p_decay pair_eq_dec pairs (fun t z => Rabs (gR t z - d_r e (fst z) (snd z))) pupd al (fun _ => 0))
    with (T := O) (z := z) (M := 0) (eps := eps) as (T & _ & HT); auto; try lra.
  - intros t. apply RUN.
  - intros t. rewrite rq_R. destruct (follows_ok _ _ _ _ (rq_sample t)) as (_ & -> & _ & _). cbn [pupd fst snd].
    assert (A : 0 <= al t <= 1) by apply RUN. set (r := d_r e _ _). set (g := gR t _).
    replace ((1 - al t) * g + al t * r - r) with ((1 - al t) * (g - r)) by ring.
    rewrite Rabs_mult, (Rabs_pos_eq (1 - al t)) by lra. lra.
  - intros t y NE. destruct (rq_other t y NE) as (_ & _ & ->). reflexivity.
  - intros [s a] Hy M. apply pairs_In in Hy as [Hs Ha]. destruct (RD s a Hs Ha M) as (N & HN). exists N.
    unfold pupd. rewrite rates_wsum. exact HN.
  - intros; lra.
  - exists T. intros t Ht. specialize (HT t Ht). cbn beta in HT. lra.
Qed.

Lemma sums_hold : exists T, forall t, (T <= t)%nat -> forall z, In z pairs -> gQ t z = gR t z + gamma * gT t z.
Proof.
  apply eventually_all. intros [s a] Hz. apply pairs_In in Hz as [Hs Ha].
  destruct (visited_once s a Hs Ha) as (t0 & E). exists (S t0). intros t Ht.
  apply (rq_sum_kept (S t0)); auto. rewrite <- E. apply rq_Q.
Qed.

(** Pairs that end the episode keep the next value zero. *)
Lemma absorbing_zero : forall t s a, In s lv -> (a < k)%nat -> d_abs e s a = true -> gT t (s, a) = 0.
Proof.
  intros t s a Hs Ha Ab. induction t as [|t IH]; [apply RUN; auto|].
  destruct (pair_eq_dec (s, a) (pupd t)) as [E|NE]; [|destruct (rq_other t _ NE) as (_ & -> & _); exact IH].
  rewrite E, rq_T. destruct (follows_ok _ _ _ _ (rq_sample t)) as (_ & _ & _ & EA).
  unfold pupd in E. injection E as E1 E2. rewrite <- E1, <- E2, Ab in EA. rewrite EA. unfold pupd. rewrite <- E1, <- E2. exact IH.
Qed.

(** The optimal next value. *)
Definition vstar (z : nat * nat) : R :=
  if d_abs e (fst z) (snd z) then 0 else qmax (map (q (d_s e (fst z) (snd z))) (seq 0 k)).
Lemma some_act : (1 <= k)%nat.
Proof. destruct (rq_sample O) as (_ & B & _). lia. Qed.
Lemma q_vstar : forall s a, In s lv -> (a < k)%nat -> q s a = d_r e s a + gamma * vstar (s, a).
Proof.
  intros s a Hs Ha. destruct (OV s a Hs Ha) as (v & -> & V1 & V2). unfold vstar. cbn [fst snd]. f_equal. f_equal.
  destruct (d_abs e s a); [auto|]. pose proof (qmax_is_max k (q (d_s e s a)) some_act) as [(b & Hb & Eb) M].
  destruct (V2 eq_refl) as [(c & Hc & Ec) M']. specialize (M c Hc). specialize (M' b Hb). lra.
Qed.

Definition open_pairs : list (nat * nat) := filter (fun z => negb (d_abs e (fst z) (snd z))) pairs.

Lemma next_learnt : forall eps, 0 < eps -> exists T, forall t, (T <= t)%nat -> forall z, In z pairs ->
  Rabs (gQ t z - q (fst z) (snd z)) <= eps.
Proof.
  intros eps He.
  destruct (rewards_learnt (eps * ((1 - gamma) / 2))) as (T1 & H1); [apply Rmult_lt_0_compat; lra|].
  destruct sums_hold as (T2 & H2).
  assert (ERR : forall t E, (Nat.max T1 T2 <= t)%nat -> eps <= E -> (forall z, In z open_pairs -> Rabs (gT t z - vstar z) <= E) ->
     forall z, In z pairs -> Rabs (gQ t z - q (fst z) (snd z)) <= (1 + gamma) / 2 * E).
  { intros t E Ht HE B z Hz. specialize (H1 t ltac:(lia) z Hz). rewrite (H2 t ltac:(lia) z Hz).
    destruct z as [s a]. pose proof Hz as Hz'. apply pairs_In in Hz' as [Hs Ha]. cbn [fst snd] in *.
    rewrite q_vstar by auto.
    replace (gR t (s, a) + gamma * gT t (s, a) - (d_r e s a + gamma * vstar (s, a)))
      with ((gR t (s, a) - d_r e s a) + gamma * (gT t (s, a) - vstar (s, a))) by ring.
    eapply Rle_trans; [apply Rabs_triang|]. rewrite Rabs_mult, (Rabs_pos_eq gamma) by lra.
    assert (HT : Rabs (gT t (s, a) - vstar (s, a)) <= E).
    { destruct (d_abs e s a) eqn:Ab.
      - rewrite absorbing_zero by auto. unfold vstar. cbn [fst snd]. rewrite Ab, Rminus_diag_eq, Rabs_R0 by auto. lra.
      - apply B. apply filter_In. split; [exact Hz|]. cbn [fst snd]. rewrite Ab. reflexivity. }
    assert (gamma * Rabs (gT t (s, a) - vstar (s, a)) <= gamma * E) by (apply Rmult_le_compat_l; lra).
    assert (eps * ((1 - gamma) / 2) <= E * ((1 - gamma) / 2)) by (apply Rmult_le_compat_r; lra). lra. }
  destruct (below_floor pair_eq_dec open_pairs (fun t z => Rabs (gT t z - vstar z)) pupd
     (fun t => if x_abs (xs t) then 0 else be t)
     (fun t => if x_abs (xs t) then 0 else Rabs (qmax (row (rqQ (st t)) (x_s' (xs t))) - vstar (pupd t))))
    with (kappa := (1 + gamma) / 2) (T0 := Nat.max T1 T2) (floor := eps) as (T & LT & HT); auto; try lra.
  - intros t. destruct (x_abs (xs t)); [lra|]. apply RUN.
  - intros t. rewrite rq_T. destruct (x_abs (xs t)); [lra|].
    assert (A : 0 <= be t <= 1) by apply RUN. set (g := gT t _). set (v := vstar _). set (m := qmax _).
    replace ((1 - be t) * g + be t * m - v) with ((1 - be t) * (g - v) + be t * (m - v)) by ring.
    eapply Rle_trans; [apply Rabs_triang|]. rewrite !Rabs_mult, (Rabs_pos_eq (1 - be t)), (Rabs_pos_eq (be t)) by lra. lra.
  - intros t z NE. destruct (rq_other t z NE) as (_ & -> & _). reflexivity.
  - intros [s a] Hz M. apply filter_In in Hz as [Hz Ab]. apply pairs_In in Hz as [Hs Ha]. cbn [fst snd] in Ab.
    apply negb_true_iff in Ab. destruct (ND s a Hs Ha Ab M) as (N & HN). exists N. rewrite <- rates_wsum in HN.
    eapply Rle_trans; [exact HN|]. apply Req_le. clear HN. induction N as [|N IH]; [reflexivity|]. cbn [wsum]. rewrite IH.
    f_equal. unfold wt, pupd. destruct (pair_eq_dec _ _) as [E|]; [|reflexivity].
    destruct (follows_ok _ _ _ _ (rq_sample N)) as (_ & _ & _ & EA). injection E as E1 E2. rewrite E1, E2, Ab in EA.
    rewrite EA. reflexivity.
  - intros t E Ht HE B. destruct (x_abs (xs t)) eqn:Ab; [apply Rmult_le_pos; lra|].
    destruct (follows_ok _ _ _ _ (rq_sample t)) as ((A & B') & _ & Es & Ea).
    unfold vstar, pupd. cbn [fst snd]. rewrite <- Ea, Ab, <- Es.
    assert (C : In (x_s' (xs t)) lv) by (rewrite Es; apply CL; auto; congruence).
    apply (is_max_close k (tget (rqQ (st t)) (x_s' (xs t))) (q (x_s' (xs t)))); [|apply qmax_is_max, some_act|].
    + destruct (rq_shaped t) as (I1 & _ & _). pose proof (row_length n k _ _ I1 (IN _ C)) as LR. pose proof some_act as SA.
      destruct (qmax_spec (row (rqQ (st t)) (x_s' (xs t)))) as [I M]; [intros Z; rewrite Z in LR; simpl in LR; lia|]. split.
      * apply (In_nth _ _ 0) in I as (b & Hb & E'). exists b. split; [lia|exact E'].
      * intros b Hb. apply M, nth_In. lia.
    + intros b Hb. apply (ERR t E Ht HE B (x_s' (xs t), b)). apply pairs_In. auto.
  - exists T. intros t Ht z Hz.
    eapply Rle_trans; [apply (ERR t eps); auto; [lia|lra|apply HT; exact Ht]|].
    rewrite <- (Rmult_1_l eps) at 2. apply Rmult_le_compat_r; lra.
Qed.
End Rq.

(** RQ-learning converges to the optimal values, and from some time on every greedy action is an
    optimal one. *)
Theorem rq_learning_converges : forall n lv k gamma e q al be a' xs st,
  0 <= gamma < 1 -> (forall s, In s lv -> (s < n)%nat) -> closed lv k e -> optimal_values lv k gamma e q ->
  rq_run n lv k gamma e al be a' xs st -> rates_diverge lv k al xs -> next_rates_diverge lv k e be xs ->
  (forall eps, 0 < eps -> exists T, forall t, (T <= t)%nat -> forall s a, In s lv -> (a < k)%nat ->
     Rabs (tget (rqQ (st t)) s a - q s a) < eps) /\
  (exists T, forall t, (T <= t)%nat -> forall s a, In s lv -> In a (argmaxs (row (rqQ (st t)) s)) -> is_max k (q s) (q s a)).
Proof.
  intros n lv k gamma e q al be a' xs st G IN CL OV RUN RD ND.
  assert (CV : forall eps, 0 < eps -> exists T, forall t, (T <= t)%nat -> forall s a, In s lv -> (a < k)%nat ->
     Rabs (tget (rqQ (st t)) s a - q s a) < eps).
  { intros eps He. destruct (next_learnt n lv k gamma e q al be a' xs st G IN CL OV RUN RD ND (eps / 2)) as (T & HT); [lra|].
    exists T. intros t Ht s a Hs Ha. specialize (HT t Ht (s, a) (proj2 (pairs_In lv k s a) (conj Hs Ha))).
    unfold gQ in HT. cbn [fst snd] in HT. lra. }
  split; [exact CV|]. pose proof (rq_shaped n lv k gamma e al be a' xs st RUN) as SH.
  assert (K1 : (1 <= k)%nat) by (destruct RUN as (_ & _ & _ & _ & ST); destruct (ST O) as (_ & _ & (_ & B & _) & _); lia).
  destruct (value_gap lv k q) as (d & D0 & Gap). destruct (CV (d / 2)) as (N & HN); [lra|].
  exists N. intros t Ht s a Hs Ia. destruct (SH t) as (S1 & _ & _).
  pose proof (row_length n k _ s S1 (IN _ Hs)) as LR.
  apply argmaxs_In in Ia as [La Ma]; [|destruct (row (rqQ (st t)) s); simpl in LR; [lia|discriminate]].
  rewrite LR in La, Ma. split; [exists a; auto|]. intros b Hb. apply Rnot_lt_le. intros Lt.
  specialize (Gap s a b Hs La Hb Lt). specialize (Ma b Hb).
  pose proof (HN t Ht s a Hs La) as Ea. pose proof (HN t Ht s b Hs Hb) as Eb. unfold tget in Ea, Eb.
  apply Rabs_def2 in Ea. apply Rabs_def2 in Eb. lra.
Qed.

(** ** A concrete case: the environment and visiting order of ConvProps, with rates 1/4 and 1/8. *)
Fixpoint ex_rq (t : nat) : table * table * table :=
  match t with
  | O => (tconst 3 2 0, tconst 3 2 0, tconst 3 2 0)
  | S t' => rq_update (1 / 2) (1 / 4) (1 / 8) true 0 (ex_rq t') (ex_sample t')
  end.

Example rq_learns_ex : forall eps, 0 < eps -> exists T, forall t, (T <= t)%nat ->
  Rabs (tget (rqQ (ex_rq t)) 0 1 - 2) < eps.
Proof.
  intros eps He.
  assert (M2 : forall t, (t mod 2 < 2)%nat) by (intros; apply Nat.mod_upper_bound; lia).
  assert (IL : forall s, In s [0; 1]%nat <-> (s < 2)%nat) by (intros s; cbn; lia).
  assert (RT : forall c, 0 < c -> rates_diverge [0; 1]%nat 2 (fun _ => c) ex_sample).
  { intros c C0. apply (decaying_rates_diverge _ 2 _ _ c); [lra| |].
    - intros s a Hs Ha T. apply IL in Hs. exists (4 * T + 2 * s + a)%nat. split; [lia|]. cbn [ex_sample x_s x_a]. split.
      + replace (4 * T + 2 * s + a)%nat with (a + (2 * T + s) * 2)%nat by lia. rewrite Nat.div_add by lia.
        rewrite Nat.div_small by lia. replace (0 + (2 * T + s))%nat with (s + T * 2)%nat by lia.
        rewrite Nat.mod_add by lia. apply Nat.mod_small. lia.
      + replace (4 * T + 2 * s + a)%nat with (a + (2 * T + s) * 2)%nat by lia. rewrite Nat.mod_add by lia.
        apply Nat.mod_small. lia.
    - intros t. set (v := visits _ _ _ _). assert (1 <= INR (S v)) by (rewrite S_INR; pose proof (pos_INR v); lra).
      unfold Rdiv. rewrite <- (Rmult_1_r c) at 2. apply Rmult_le_compat_l; [lra|].
      rewrite <- Rinv_1. apply Rinv_le_contravar; lra. }
  destruct (rq_learning_converges 3 [0; 1]%nat 2 (1 / 2) ex_env (fun s _ => match s with O => 2 | _ => 4 end)
     (fun _ => 1 / 4) (fun _ => 1 / 8) (fun _ => O) ex_sample ex_rq) as [CV _]; try lra.
  - intros s Hs. apply IL in Hs. lia.
  - apply optimal_ex.
  - apply optimal_ex.
  - split; [apply tconst_shaped|]. split; [apply tconst_shaped|]. split; [apply tconst_shaped|]. split.
    + intros s a Hs Ha _. apply IL in Hs. destruct s as [|[|s]], a as [|[|a]]; try lia; reflexivity.
    + intros t. split; [lra|]. split; [lra|]. split; [|reflexivity].
      split; [apply IL, M2|]. split; [apply M2|]. unfold d_r, d_s, d_abs, ex_sample. cbn [x_r x_s' x_abs x_s x_a].
      unfold d_r, d_s, d_abs. destruct (ex_env _ _) as [[? ?] ?]. reflexivity.
  - apply RT. lra.
  - intros s a Hs Ha _. apply RT; auto. lra.
  - destruct (CV eps He) as (N & HN). exists N. intros t Ht. apply (HN t Ht 0%nat 1%nat); [apply IL|]; lia.
Qed.

Print Assumptions rq_learning_converges.

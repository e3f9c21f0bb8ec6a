(** What Double Q-learning (algorithms/value/td/double_q_learning.py 28-45, model [dq_update] of
    TdModel) learns on deterministic environments, for every order of the samples, of the coin
    flips and of the choices among equal maximisers: the two tables never end up above the optimal
    values, they converge to them when gamma < 1/2, and whenever they converge at all their limits
    are the optimal values.  For gamma = 9/10 they need not converge. *)
From Coq Require Import List Arith ZArith Lia Reals Lra Psatz Bool.
From Verif Require Import Common PolicyModel PolicySpec PolicyProofs TdModel TdSpec TdProofs ConvProps.
Import ListNotations.
Local Open Scope R_scope.

(** ** One-sided asynchronous contractions *)
Section Over.
Context {Z : Type}.
Variable zeq : forall a b : Z, {a = b} + {a <> b}.
Variable keys : list Z.
Variable p : nat -> Z -> R.
Variable upd : nat -> Z.
Variables rate target : nat -> R.
Hypothesis U2 : forall t, 0 <= rate t <= 1.
Hypothesis U3 : forall t, p (S t) (upd t) <= (1 - rate t) * p t (upd t) + rate t * target t.
Hypothesis U4 : forall t z, z <> upd t -> p (S t) z = p t z.
Hypothesis H3 : forall z, In z keys -> forall M, exists N, M <= wsum zeq upd rate z N.

Notation w := (wt zeq upd rate).
Notation ws := (wsum zeq upd rate).

Lemma w_range : forall z t, 0 <= w z t <= 1.
Proof. intros z t. unfold wt. destruct (zeq _ _); [apply U2|lra]. Qed.

Lemma p_step : forall t z M, (z = upd t -> target t <= M) -> p (S t) z <= (1 - w z t) * p t z + w z t * M.
Proof.
  intros t z M HM. unfold wt. destruct (zeq (upd t) z) as [<-|N].
  - eapply Rle_trans; [apply U3|]. pose proof (U2 t). specialize (HM eq_refl).
    assert (rate t * target t <= rate t * M) by (apply Rmult_le_compat_l; lra). lra.
  - rewrite U4 by congruence. lra.
Qed.

(** An entry whose targets stay below M ends up below every number above M. *)
Lemma p_decay : forall T z M, (forall t, (T <= t)%nat -> z = upd t -> target t <= M) -> In z keys ->
  forall eps, 0 < eps -> exists T', (T <= T')%nat /\ forall t, (T' <= t)%nat -> p t z <= M + eps.
Proof.
  intros T z M HM Hz eps He.
  set (E := Rmax 0 (p T z - M)). assert (E0 : 0 <= E) by apply Rmax_l.
  assert (D : forall d, (p (T + d) z - M) * (1 + (ws z (T + d) - ws z T)) <= E).
  { induction d as [|d IH].
    - rewrite Nat.add_0_r. replace ((p T z - M) * (1 + (ws z T - ws z T))) with (p T z - M) by ring. apply Rmax_r.
    - replace (T + S d)%nat with (S (T + d)) by lia. cbn [wsum].
      pose proof (p_step (T + d) z M (HM (T + d)%nat ltac:(lia))) as ES. pose proof (w_range z (T + d)) as W.
      assert (S0 : 0 <= ws z (T + d) - ws z T) by (pose proof (wsum_mono zeq upd rate U2 z T (T + d) ltac:(lia)); lra).
      set (v := w z (T + d)) in *. set (s := ws z (T + d) - ws z T) in *.
      replace (ws z (T + d) + v - ws z T) with (s + v) by (unfold s; ring).
      set (x := p (T + d) z - M) in *.
      assert (Y : p (S (T + d)) z - M <= (1 - v) * x) by (unfold x; lra).
      assert (P : (p (S (T + d)) z - M) * (1 + (s + v)) <= (1 - v) * x * (1 + (s + v)))
        by (apply Rmult_le_compat_r; lra).
      destruct (Rle_dec x 0) as [N|N].
      + assert ((1 - v) * x * (1 + (s + v)) <= 0); [|lra].
        assert (0 <= (1 - v) * (1 + (s + v))) by (apply Rmult_le_pos; lra).
        replace ((1 - v) * x * (1 + (s + v))) with ((1 - v) * (1 + (s + v)) * x) by ring. nra.
      + assert ((1 - v) * x * (1 + (s + v)) <= x * (1 + s)); [|lra].
        replace ((1 - v) * x * (1 + (s + v))) with (x * ((1 + s) - v * s - v * v)) by ring.
        apply Rmult_le_compat_l; nra. }
  destruct (H3 z Hz (ws z T + E / eps)) as (N & HN). exists (Nat.max T N). split; [lia|]. intros t Ht.
  specialize (D (t - T)%nat). replace (T + (t - T))%nat with t in D by lia.
  pose proof (wsum_mono zeq upd rate U2 z N t ltac:(lia)) as MW.
  apply Rnot_lt_le. intros L. set (s := ws z t - ws z T) in *.
  assert (S1 : E / eps <= s) by (unfold s; lra).
  assert (S2 : E / eps * eps = E) by (field; lra).
  assert (0 <= s). { eapply Rle_trans; [|exact S1]. apply Rmult_le_pos; [lra|apply Rlt_le, Rinv_0_lt_compat; lra]. }
  assert (eps * (1 + s) <= (p t z - M) * (1 + s)) by (apply Rmult_le_compat_r; lra).
  assert (E / eps * eps <= s * eps) by (apply Rmult_le_compat_r; lra). lra.
Qed.

(** All entries below E, and from then on all targets below kappa E: eventually all entries are
    below [floor], when this holds for every E above [floor]. *)
Variable kappa : R.
Hypothesis K0 : 0 <= kappa < 1.
Definition below (t : nat) (E : R) : Prop := forall z, In z keys -> p t z <= E.
Variable T0 : nat.
Variable floor : R.
Hypothesis F0 : 0 < floor.
Hypothesis UI : forall t, In (upd t) keys.
Hypothesis C1 : forall t E, (T0 <= t)%nat -> floor <= E -> below t E -> target t <= kappa * E.

Lemma below_later : forall t t' E, (T0 <= t <= t')%nat -> floor <= E -> below t E -> below t' E.
Proof.
  intros t t' E [H0 H] HF. induction H; auto. intros B z Hz. specialize (IHle B).
  pose proof (p_step m z (kappa * E) (fun _ => C1 m E ltac:(lia) HF IHle)) as PS.
  pose proof (IHle z Hz). pose proof (w_range z m).
  assert (kappa * E <= 1 * E) by (apply Rmult_le_compat_r; lra).
  assert ((1 - w z m) * p m z <= (1 - w z m) * E) by (apply Rmult_le_compat_l; lra).
  assert (w z m * (kappa * E) <= w z m * E) by (apply Rmult_le_compat_l; lra). lra.
Qed.

Lemma below_round : forall T E, (T0 <= T)%nat -> floor <= E -> below T E ->
  exists T', (T <= T')%nat /\ below T' (Rmax floor ((1 + kappa) / 2 * E)).
Proof.
  intros T E HT HF B.
  assert (P : 0 < (1 - kappa) / 2 * E) by (apply Rmult_lt_0_compat; lra).
  assert (K : forall l, incl l keys -> exists T', (T <= T')%nat /\
     forall t, (T' <= t)%nat -> forall z, In z l -> p t z <= (1 + kappa) / 2 * E).
  { induction l as [|z l IH]; intros HI.
    - exists T. split; auto. intros t _ z [].
    - destruct IH as (T1 & L1 & K1); [intros y Hy; apply HI; right; auto|].
      destruct (p_decay T z (kappa * E)) with (eps := (1 - kappa) / 2 * E) as (T2 & L2 & K2);
        [|apply HI; left; auto|exact P|].
      { intros t Ht _. apply C1; auto; [lia|]. apply (below_later T); auto. }
      exists (Nat.max T1 T2). split; [lia|]. intros t Ht y [<-|Hy]; [|apply K1; auto; lia].
      eapply Rle_trans; [apply K2; lia|]. lra. }
  destruct (K keys (fun z H => H)) as (T' & L & K'). exists T'. split; auto. intros z Hz.
  eapply Rle_trans; [apply K'; auto|apply Rmax_r].
Qed.

Theorem below_floor : exists T, (T0 <= T)%nat /\ forall t, (T <= t)%nat -> below t floor.
Proof.
  assert (S0 : exists E, floor <= E /\ below T0 E).
  { assert (K : forall l, exists E, floor <= E /\ forall z, In z l -> p T0 z <= E).
    { induction l as [|z l (E & E0 & H)]; [exists floor; split; [lra|intros z []]|].
      exists (Rmax E (p T0 z)). split; [eapply Rle_trans; [exact E0|apply Rmax_l]|].
      intros y [<-|Hy]; [apply Rmax_r|]. eapply Rle_trans; [apply H; auto|apply Rmax_l]. }
    apply K. }
  destruct S0 as (E & E0 & HE).
  assert (K : forall m, exists T, (T0 <= T)%nat /\ below T (Rmax floor (((1 + kappa) / 2) ^ m * E))).
  { induction m as [|m (T & LT & HT)].
    - exists T0. split; auto. rewrite pow_O, Rmult_1_l, Rmax_right by exact E0. exact HE.
    - destruct (below_round T _ LT (Rmax_l _ _) HT) as (T' & L' & HT'). exists T'. split; [lia|]. intros z Hz.
      eapply Rle_trans; [apply (HT' z Hz)|]. apply Rmax_lub; [apply Rmax_l|]. cbn [pow].
      destruct (Rle_dec floor (((1 + kappa) / 2) ^ m * E)) as [C|C].
      + rewrite (Rmax_right floor (((1 + kappa) / 2) ^ m * E)) by exact C. rewrite <- Rmult_assoc. apply Rmax_r.
      + rewrite (Rmax_left floor (((1 + kappa) / 2) ^ m * E)) by lra. eapply Rle_trans; [|apply Rmax_l].
        rewrite <- (Rmult_1_l floor) at 2. apply Rmult_le_compat_r; lra. }
  destruct (pow_lt_1_zero ((1 + kappa) / 2)) with (y := floor / (E + 1)) as (m & Hm).
  { rewrite Rabs_pos_eq; lra. } { apply Rdiv_lt_0_compat; lra. }
  specialize (Hm m (Nat.le_refl _)). destruct (K m) as (T & LT & HT). exists T. split; auto. intros t Ht.
  assert (P0 : 0 <= ((1 + kappa) / 2) ^ m) by (apply pow_le; lra).
  rewrite Rabs_pos_eq in Hm by exact P0.
  rewrite Rmax_left in HT; [apply (below_later T); auto; lra|].
  assert (((1 + kappa) / 2) ^ m * E <= ((1 + kappa) / 2) ^ m * (E + 1)) by (apply Rmult_le_compat_l; lra).
  assert (((1 + kappa) / 2) ^ m * (E + 1) < floor / (E + 1) * (E + 1)) by (apply Rmult_lt_compat_r; lra).
  assert (floor / (E + 1) * (E + 1) = floor) by (field; lra). lra.
Qed.
End Over.

Lemma Rabs_le_inv' : forall x y, Rabs x <= y -> - y <= x <= y.
Proof. intros x y H. unfold Rabs in H. destruct (Rcase_abs x); lra. Qed.

(** ** Double Q-learning *)
(** The first or the second table of the agent. *)
Definition tab (Q : table * table) (second : bool) : table := if second then snd Q else fst Q.

(** A run: sample [xs t] of the environment, learning rate [al t], table [sec t] updated at time
    t, [c t] the position drawn among the maximisers of the updated table. *)
Definition dq_run (n : nat) (lv : list nat) (k : nat) (gamma : R) (e : denv) (al : nat -> R) (sec : nat -> bool)
    (c : nat -> nat) (xs : nat -> sample) (Q : nat -> table * table) : Prop :=
  shaped n k (fst (Q O)) /\ shaped n k (snd (Q O)) /\
  forall t, 0 <= al t <= 1 /\ follows lv k e (xs t) /\
    (x_abs (xs t) = false -> (c t < length (argmaxs (row (tab (Q t) (sec t)) (x_s' (xs t)))))%nat) /\
    Q (S t) = dq_update gamma (al t) (sec t) (c t) (Q t) (xs t).

(** The rates used for every pair add up to infinity in both tables. *)
Definition rates_of_half (al : nat -> R) (sec : nat -> bool) (xs : nat -> sample) (i : bool) (s a N : nat) : R :=
  rsum (map (fun t => if Bool.eqb (sec t) i && pair_eqb (x_s (xs t), x_a (xs t)) (s, a) then al t else 0) (seq 0 N)).
Definition both_rates_diverge (lv : list nat) (k : nat) (al : nat -> R) (sec : nat -> bool) (xs : nat -> sample) : Prop :=
  forall i s a, In s lv -> (a < k)%nat -> forall M, exists N, M <= rates_of_half al sec xs i s a N.

Definition key := (bool * (nat * nat))%type.
Definition key_eq_dec : forall a b : key, {a = b} + {a <> b}.
Proof. decide equality; [apply pair_eq_dec|apply Bool.bool_dec]. Defined.

Section Double.
Variable n : nat.
Variable lv : list nat.
Variable k : nat.
Variable gamma : R.
Variable e : denv.
Variable al : nat -> R.
Variable sec : nat -> bool.
Variable c : nat -> nat.
Variable xs : nat -> sample.
Variable Q : nat -> table * table.
Hypothesis G : 0 <= gamma < 1.
Hypothesis IN : forall s, In s lv -> (s < n)%nat.
Hypothesis CL : closed lv k e.
Hypothesis RUN : dq_run n lv k gamma e al sec c xs Q.
Hypothesis RD : both_rates_diverge lv k al sec xs.

Definition keys : list key := list_prod [false; true] (list_prod lv (seq 0 k)).
Definition ent (t : nat) (z : key) : R := tget (tab (Q t) (fst z)) (fst (snd z)) (snd (snd z)).
Definition kupd (t : nat) : key := (sec t, (x_s (xs t), x_a (xs t))).
Definition act (t : nat) : nat := nth (c t) (argmaxs (row (tab (Q t) (sec t)) (x_s' (xs t)))) O.
Definition nxt (t : nat) : R := if x_abs (xs t) then 0 else tget (tab (Q t) (negb (sec t))) (x_s' (xs t)) (act t).
Definition tgt (t : nat) : R := x_r (xs t) + gamma * nxt t.

Lemma keys_In : forall i s a, In (i, (s, a)) keys <-> In s lv /\ (a < k)%nat.
Proof. clear - lv k. intros i s a. unfold keys. rewrite !in_prod_iff, in_seq. destruct i; cbn; intuition lia. Qed.

Lemma run_shaped : forall t i, shaped n k (tab (Q t) i).
Proof.
  destruct RUN as (S1 & S2 & ST). induction t as [|t IH]; intros i; [destruct i; auto|].
  destruct (ST t) as (_ & _ & _ & ->). unfold dq_update; cbv zeta.
  pose proof (IH false) as I1. pose proof (IH true) as I2. cbn [tab] in I1, I2.
  destruct (sec t), i; cbn [tab fst snd]; auto using tset_shaped.
Qed.

Lemma run_rate : forall t, 0 <= al t <= 1.
Proof. intros t. apply RUN. Qed.
Lemma run_sample : forall t, follows lv k e (xs t).
Proof. intros t. apply RUN. Qed.
Lemma run_key : forall t, In (kupd t) keys.
Proof. intros t. apply keys_In. destruct (run_sample t) as (A & B & _). auto. Qed.

Lemma ent_upd : forall t, ent (S t) (kupd t) = (1 - al t) * ent t (kupd t) + al t * tgt t.
Proof.
  intros t. destruct RUN as (_ & _ & ST). destruct (ST t) as (_ & (A & B & _) & _ & E).
  unfold ent, kupd. cbn [fst snd]. rewrite E. unfold dq_update; cbv zeta.
  pose proof (run_shaped t false) as I1. pose proof (run_shaped t true) as I2. cbn [tab] in I1, I2.
  unfold tgt, nxt, act. destruct (sec t); cbn [tab fst snd negb];
    rewrite (tget_tset_eq n k) by auto; ring.
Qed.
Lemma ent_other : forall t z, z <> kupd t -> ent (S t) z = ent t z.
Proof.
  intros t [i [s a]] NE. destruct RUN as (_ & _ & ST). destruct (ST t) as (_ & _ & _ & E).
  unfold ent, kupd in *. cbn [fst snd]. rewrite E. unfold dq_update; cbv zeta.
  destruct (sec t), i; cbn [tab fst snd]; auto; apply tget_tset_neq; congruence.
Qed.
Lemma run_rates : forall z, In z keys -> forall M, exists N, M <= wsum key_eq_dec kupd al z N.
Proof.
  intros [i [s a]] Hz M. apply keys_In in Hz as [Hs Ha]. destruct (RD i s a Hs Ha M) as (N & HN). exists N.
  eapply Rle_trans; [exact HN|]. apply Req_le. unfold rates_of_half. clear.
  induction N as [|N IH]; [reflexivity|]. cbn [wsum]. rewrite <- IH, seq_S, map_app, rsum_app. cbn [map rsum plus].
  unfold wt, kupd. destruct (key_eq_dec _ _) as [E|E].
  - injection E as E1 E2 E3. rewrite E1, eqb_reflx, (proj2 (pair_eqb_spec _ _)) by congruence. cbn [andb]. ring.
  - destruct (Bool.eqb (sec N) i) eqn:Q1, (pair_eqb _ _) eqn:Q2; cbn [andb]; try ring. exfalso. apply E.
    apply eqb_prop in Q1. apply pair_eqb_spec in Q2. congruence.
Qed.

(** The chosen action maximises the updated table. *)
Lemma act_max : forall t, x_abs (xs t) = false -> In (x_s' (xs t)) lv /\ (act t < k)%nat /\
  forall b, (b < k)%nat -> ent t (sec t, (x_s' (xs t), b)) <= ent t (sec t, (x_s' (xs t), act t)).
Proof.
  intros t Ab. destruct RUN as (_ & _ & ST). destruct (ST t) as (_ & F & HC & _). specialize (HC Ab).
  destruct (follows_ok _ _ _ _ F) as ((A & B) & _ & Es & Ea).
  assert (C : In (x_s' (xs t)) lv) by (rewrite Es; apply CL; auto; congruence).
  pose proof (row_length n k _ _ (run_shaped t (sec t)) (IN _ C)) as LR.
  pose proof (nth_In _ O HC) as I. fold (act t) in I.
  apply argmaxs_In in I as [L M]; [|destruct (row _ _); simpl in LR; [lia|discriminate]].
  rewrite LR in L, M. split; [exact C|]. split; [exact L|]. intros b Hb. apply (M b Hb).
Qed.

Section Star.
Variable q : nat -> nat -> R.
Hypothesis OV : optimal_values lv k gamma e q.
Definition star (z : key) : R := q (fst (snd z)) (snd (snd z)).

(** The optimal value of the updated pair. *)
Lemma star_upd : forall t, exists v, star (kupd t) = x_r (xs t) + gamma * v /\
  (x_abs (xs t) = true -> v = 0) /\ (x_abs (xs t) = false -> is_max k (q (x_s' (xs t))) v).
Proof.
  intros t. destruct (follows_ok _ _ _ _ (run_sample t)) as ((A & B) & -> & -> & ->). apply OV; auto.
Qed.

Lemma over_eventually : forall eps, 0 < eps -> exists T, forall t, (T <= t)%nat -> forall z, In z keys ->
  ent t z - star z <= eps.
Proof.
  intros eps He.
  destruct (below_floor key_eq_dec keys (fun t z => ent t z - star z) kupd al (fun t => tgt t - star (kupd t))
    run_rate) with (kappa := gamma) (T0 := O) (floor := eps) as (T & _ & HT); auto.
  - intros t. rewrite ent_upd. apply Req_le. ring.
  - intros t z NE. rewrite ent_other by auto. reflexivity.
  - exact run_rates.
  - intros t E _ HE B. destruct (star_upd t) as (v & -> & V1 & V2). unfold tgt, nxt.
    match goal with |- _ + gamma * ?w - _ <= _ =>
      replace (x_r (xs t) + gamma * w - (x_r (xs t) + gamma * v)) with (gamma * (w - v)) by ring end.
    apply Rmult_le_compat_l; [lra|]. destruct (x_abs (xs t)) eqn:Ab; [rewrite V1 by auto; lra|].
    destruct (act_max t Ab) as (C & L & _). destruct (V2 eq_refl) as [_ M]. specialize (M _ L).
    assert (I : In (negb (sec t), (x_s' (xs t), act t)) keys) by (apply keys_In; auto).
    specialize (B _ I). unfold ent, star in B. cbn [fst snd] in B. lra.
  - exists T. exact HT.
Qed.

Lemma under_eventually : gamma < 1 / 2 -> forall eps, 0 < eps -> exists T, forall t, (T <= t)%nat -> forall z, In z keys ->
  star z - ent t z <= eps.
Proof.
  intros G2 eps He.
  destruct (over_eventually (eps * ((1 - 2 * gamma) / 2))) as (T0 & HT0); [apply Rmult_lt_0_compat; lra|].
  destruct (below_floor key_eq_dec keys (fun t z => star z - ent t z) kupd al (fun t => star (kupd t) - tgt t)
    run_rate) with (kappa := (1 + 2 * gamma) / 2) (T0 := T0) (floor := eps) as (T & _ & HT); auto; try lra.
  - intros t. rewrite ent_upd. apply Req_le. ring.
  - intros t z NE. rewrite ent_other by auto. reflexivity.
  - exact run_rates.
  - intros t E Ht HE B. destruct (star_upd t) as (v & -> & V1 & V2). unfold tgt, nxt.
    match goal with |- _ - (_ + gamma * ?w) <= _ =>
      replace (x_r (xs t) + gamma * v - (x_r (xs t) + gamma * w)) with (gamma * (v - w)) by ring end.
    set (d := eps * ((1 - 2 * gamma) / 2)) in *.
    assert (D0 : 0 < d) by (apply Rmult_lt_0_compat; lra).
    assert (DE : d <= E * ((1 - 2 * gamma) / 2)) by (apply Rmult_le_compat_r; lra).
    assert (GD : gamma * d <= 1 * d) by (apply Rmult_le_compat_r; lra).
    destruct (x_abs (xs t)) eqn:Ab.
    { rewrite V1 by auto. rewrite Rminus_diag_eq, Rmult_0_r by auto. apply Rmult_le_pos; lra. }
    destruct (act_max t Ab) as (C & L & MX). destruct (V2 eq_refl) as [(b & Hb & <-) _].
    assert (I : forall i a, (a < k)%nat -> In (i, (x_s' (xs t), a)) keys) by (intros; apply keys_In; auto).
    pose proof (B _ (I (negb (sec t)) _ L)) as B1. pose proof (B _ (I (sec t) _ Hb)) as B2.
    pose proof (HT0 t Ht _ (I (sec t) _ L)) as B3. specialize (MX b Hb).
    unfold ent, star in B1, B2, B3, MX. cbn [fst snd] in B1, B2, B3, MX.
    assert (gamma * (q (x_s' (xs t)) b - tget (tab (Q t) (negb (sec t))) (x_s' (xs t)) (act t)) <= gamma * (2 * E + d))
      by (apply Rmult_le_compat_l; lra).
    lra.
  - exists T. exact HT.
Qed.
End Star.

(** The limits of the tables. *)
Section Limits.
Variable lim : key -> R.
Hypothesis LIM : forall eps, 0 < eps -> exists T, forall t, (T <= t)%nat -> forall z, In z keys -> Rabs (ent t z - lim z) < eps.

(** A limit is not above what the targets stay below, nor below what they stay above. *)
Lemma lim_le : forall z T M, In z keys -> (forall t, (T <= t)%nat -> kupd t = z -> tgt t <= M) -> lim z <= M.
Proof.
  intros z T M Hz H. apply le_epsilon. intros eps He.
  destruct (p_decay key_eq_dec keys ent kupd al tgt run_rate (fun t => Req_le _ _ (ent_upd t)) ent_other run_rates T z M) with (eps := eps / 2) as (T' & _ & D);
    auto; [lra|].
  destruct (LIM (eps / 2)) as (T2 & L2); [lra|].
  specialize (D (Nat.max T' T2) ltac:(lia)). specialize (L2 (Nat.max T' T2) ltac:(lia) z Hz).
  apply Rabs_def2 in L2. lra.
Qed.
Lemma lim_ge : forall z T M, In z keys -> (forall t, (T <= t)%nat -> kupd t = z -> M <= tgt t) -> M <= lim z.
Proof.
  intros z T M Hz H. apply le_epsilon. intros eps He.
  destruct (p_decay key_eq_dec keys (fun t z => - ent t z) kupd al (fun t => - tgt t) run_rate) with (T := T) (z := z) (M := - M) (eps := eps / 2)
    as (T' & _ & D); auto.
  - intros t. rewrite ent_upd. apply Req_le. ring.
  - intros t y NE. rewrite ent_other by auto. reflexivity.
  - exact run_rates.
  - intros t Ht E. specialize (H t Ht (eq_sym E)). lra.
  - lra.
  - destruct (LIM (eps / 2)) as (T2 & L2); [lra|].
    specialize (D (Nat.max T' T2) ltac:(lia)). specialize (L2 (Nat.max T' T2) ltac:(lia) z Hz).
    apply Rabs_def2 in L2. lra.
Qed.

Lemma upd_inv : forall t i s a, kupd t = (i, (s, a)) -> sec t = i /\ x_s (xs t) = s /\ x_a (xs t) = a.
Proof. intros t i s a E. unfold kupd in E. injection E as E1 E2 E3. auto. Qed.

(** Value of a table at the next state. *)
Definition lmax (i : bool) (s : nat) : R := qmax (map (fun a => lim (i, (s, a))) (seq 0 k)).

Lemma some_action : (1 <= k)%nat.
Proof. destruct (run_sample O) as (_ & B & _). lia. Qed.
Lemma lmax_is : forall i s, is_max k (fun a => lim (i, (s, a))) (lmax i s).
Proof. intros i s. apply (qmax_is_max k (fun a => lim (i, (s, a))) some_action). Qed.

Lemma lim_upper : forall i s a, In s lv -> (a < k)%nat ->
  lim (i, (s, a)) <= d_r e s a + gamma * (if d_abs e s a then 0 else lmax (negb i) (d_s e s a)).
Proof.
  intros i s a Hs Ha. apply le_epsilon. intros eps He. destruct (LIM eps He) as (T & LT).
  apply (lim_le _ T); [apply keys_In; auto|]. intros t Ht E. apply upd_inv in E as (E1 & E2 & E3).
  destruct (follows_ok _ _ _ _ (run_sample t)) as (_ & Er & Es & Ea). rewrite E2, E3 in *.
  unfold tgt, nxt. rewrite <- Ea. destruct (x_abs (xs t)) eqn:Ab; [lra|].
  destruct (act_max t Ab) as (C & L & _). rewrite <- Er, <- Es, E1.
  specialize (LT t Ht (negb i, (x_s' (xs t), act t)) (proj2 (keys_In _ _ _) (conj C L))).
  destruct (lmax_is (negb i) (x_s' (xs t))) as [_ M]. specialize (M _ L). cbn beta in M.
  unfold ent in LT. cbn [fst snd] in LT. apply Rabs_def2 in LT.
  assert (gamma * tget (tab (Q t) (negb i)) (x_s' (xs t)) (act t) <= gamma * (lmax (negb i) (x_s' (xs t)) + eps))
    by (apply Rmult_le_compat_l; lra).
  assert (gamma * eps <= 1 * eps) by (apply Rmult_le_compat_r; lra). lra.
Qed.

Lemma lim_lower : forall E, (forall i s a, In s lv -> (a < k)%nat -> lim (i, (s, a)) - lim (negb i, (s, a)) <= E) ->
  0 <= E -> forall i s a, In s lv -> (a < k)%nat ->
  d_r e s a + gamma * (if d_abs e s a then 0 else lmax i (d_s e s a) - E) <= lim (i, (s, a)).
Proof.
  intros E HE E0 i s a Hs Ha. apply le_epsilon. intros eps He. destruct (LIM (eps / 3)) as (T & LT); [lra|].
  cut (d_r e s a + gamma * (if d_abs e s a then 0 else lmax i (d_s e s a) - E) - eps <= lim (i, (s, a))); [lra|].
  apply (lim_ge _ T); [apply keys_In; auto|]. intros t Ht EU. apply upd_inv in EU as (E1 & E2 & E3).
  destruct (follows_ok _ _ _ _ (run_sample t)) as (_ & Er & Es & Ea). rewrite E2, E3 in *.
  unfold tgt, nxt. rewrite <- Ea. destruct (x_abs (xs t)) eqn:Ab; [lra|].
  destruct (act_max t Ab) as (C & L & MX). rewrite <- Er, <- Es, E1 in *.
  destruct (lmax_is i (x_s' (xs t))) as [(b & Hb & Eb) _]. cbn beta in Eb. specialize (MX b Hb).
  pose proof (LT t Ht (negb i, (x_s' (xs t), act t)) (proj2 (keys_In _ _ _) (conj C L))) as L1.
  pose proof (LT t Ht (i, (x_s' (xs t), act t)) (proj2 (keys_In _ _ _) (conj C L))) as L2.
  pose proof (LT t Ht (i, (x_s' (xs t), b)) (proj2 (keys_In _ _ _) (conj C Hb))) as L3.
  pose proof (HE i _ _ C L) as L4. unfold ent in *. cbn [fst snd] in *.
  apply Rabs_def2 in L1. apply Rabs_def2 in L2. apply Rabs_def2 in L3.
  assert (gamma * (lmax i (x_s' (xs t)) - E - eps) <= gamma * tget (tab (Q t) (negb i)) (x_s' (xs t)) (act t))
    by (apply Rmult_le_compat_l; lra).
  assert (gamma * eps <= 1 * eps) by (apply Rmult_le_compat_r; lra). lra.
Qed.

Lemma lim_diff : forall E, 0 <= E -> (forall i s a, In s lv -> (a < k)%nat -> lim (i, (s, a)) - lim (negb i, (s, a)) <= E) ->
  forall i s a, In s lv -> (a < k)%nat -> lim (i, (s, a)) - lim (negb i, (s, a)) <= gamma * E.
Proof.
  intros E E0 HE i s a Hs Ha. pose proof (lim_upper i s a Hs Ha) as U.
  pose proof (lim_lower E HE E0 (negb i) s a Hs Ha) as L.
  destruct (d_abs e s a); [|lra]. assert (0 <= gamma * E) by (apply Rmult_le_pos; lra). lra.
Qed.

Lemma lim_same : forall i s a, In s lv -> (a < k)%nat -> lim (i, (s, a)) - lim (negb i, (s, a)) <= 0.
Proof.
  destruct (finite_bound lv k some_action (fun s a => lim (false, (s, a)) - lim (true, (s, a)))) as (B & B0 & HB).
  assert (K : forall m i s a, In s lv -> (a < k)%nat -> lim (i, (s, a)) - lim (negb i, (s, a)) <= gamma ^ m * B).
  { induction m as [|m IH]; intros i s a Hs Ha.
    - rewrite pow_O, Rmult_1_l. specialize (HB s a Hs Ha).
      pose proof (Rle_abs (lim (false, (s, a)) - lim (true, (s, a)))) as P1.
      pose proof (Rle_abs (- (lim (false, (s, a)) - lim (true, (s, a))))) as P2. rewrite Rabs_Ropp in P2.
      destruct i; cbn [negb]; lra.
    - cbn [pow]. rewrite Rmult_assoc. apply lim_diff; auto. apply Rmult_le_pos; [apply pow_le|]; lra. }
  intros i s a Hs Ha. apply le_epsilon. intros eps He.
  destruct (gpow_small gamma G B eps B0 He) as (m & Hm). specialize (Hm m (Nat.le_refl _)).
  specialize (K m i s a Hs Ha). lra.
Qed.

Lemma lim_optimal : (forall s a, In s lv -> (a < k)%nat -> lim (true, (s, a)) = lim (false, (s, a))) /\
  optimal_values lv k gamma e (fun s a => lim (false, (s, a))).
Proof.
  assert (S : forall s a, In s lv -> (a < k)%nat -> lim (true, (s, a)) = lim (false, (s, a))).
  { intros s a Hs Ha. pose proof (lim_same true s a Hs Ha). pose proof (lim_same false s a Hs Ha). cbn [negb] in *. lra. }
  split; [exact S|]. intros s a Hs Ha.
  exists (if d_abs e s a then 0 else lmax false (d_s e s a)).
  assert (EQ : lim (false, (s, a)) = d_r e s a + gamma * (if d_abs e s a then 0 else lmax false (d_s e s a))).
  { pose proof (lim_upper false s a Hs Ha) as U.
    pose proof (lim_lower 0 (fun i s a Hs Ha => lim_same i s a Hs Ha) ltac:(lra) false s a Hs Ha) as L.
    cbn [negb] in U. destruct (d_abs e s a) eqn:Ab; [lra|].
    assert (EM : lmax true (d_s e s a) = lmax false (d_s e s a)).
    { unfold lmax. f_equal. apply map_ext_in. intros b Hb. apply in_seq in Hb. apply S; [apply CL; auto|lia]. }
    rewrite EM in U. lra. }
  split; [exact EQ|]. split; intros ->; [reflexivity|]. apply lmax_is.
Qed.
End Limits.

(** ** Near the optimal values *)
Section Near.
Variable q : nat -> nat -> R.
Hypothesis OV : optimal_values lv k gamma e q.
Variable d : R.
Hypothesis GAP : forall s a b, In s lv -> (a < k)%nat -> (b < k)%nat -> q s a < q s b -> q s a + 2 * d <= q s b.
Variable T0 : nat.
Hypothesis NEAR : forall z, In z keys -> Rabs (ent T0 z - star q z) < d.

Lemma near_target : forall t E, (forall z, In z keys -> Rabs (ent t z - star q z) < d) ->
  (forall z, In z keys -> Rabs (ent t z - star q z) <= E) -> Rabs (tgt t - star q (kupd t)) <= gamma * E.
Proof.
  intros t E N HE. destruct (star_upd q OV t) as (v & -> & V1 & V2). unfold tgt, nxt.
  match goal with |- Rabs (_ + gamma * ?w - _) <= _ =>
    replace (x_r (xs t) + gamma * w - (x_r (xs t) + gamma * v)) with (gamma * (w - v)) by ring end.
  rewrite Rabs_mult, Rabs_pos_eq by lra. apply Rmult_le_compat_l; [lra|].
  assert (E0 : 0 <= E) by (eapply Rle_trans; [apply Rabs_pos|apply (HE _ (run_key t))]).
  destruct (x_abs (xs t)) eqn:Ab; [rewrite V1, Rminus_diag_eq, Rabs_R0 by auto; lra|].
  destruct (act_max t Ab) as (C & L & MX). destruct (V2 eq_refl) as [(b & Hb & Eb) M].
  assert (I : forall i a, (a < k)%nat -> In (i, (x_s' (xs t), a)) keys) by (intros; apply keys_In; auto).
  assert (OPT : q (x_s' (xs t)) (act t) = v).
  { apply Rle_antisym; [apply M; exact L|]. apply Rnot_lt_le. intros Lt. rewrite <- Eb in Lt.
    specialize (GAP _ _ _ C L Hb Lt). specialize (MX b Hb).
    pose proof (N _ (I (sec t) _ L)) as N1. pose proof (N _ (I (sec t) _ Hb)) as N2.
    unfold star in N1, N2. cbn [fst snd] in N1, N2. apply Rabs_def2 in N1. apply Rabs_def2 in N2. lra. }
  pose proof (HE _ (I (negb (sec t)) _ L)) as H. unfold ent, star in H. cbn [fst snd] in H. rewrite OPT in H. exact H.
Qed.

Lemma near_stays : forall t, (T0 <= t)%nat -> forall z, In z keys -> Rabs (ent t z - star q z) < d.
Proof.
  intros t Ht. induction Ht as [|t Ht IH]; [exact NEAR|]. intros z Hz.
  destruct (key_eq_dec z (kupd t)) as [->|NE]; [|rewrite ent_other by auto; auto].
  rewrite ent_upd. pose proof (run_rate t) as A. pose proof (IH _ Hz) as N1.
  assert (D0 : 0 < d) by (eapply Rle_lt_trans; [apply Rabs_pos|exact N1]).
  pose proof (near_target t d IH (fun z Hz => Rlt_le _ _ (IH z Hz))) as N2.
  assert (GD : gamma * d < d) by (rewrite <- (Rmult_1_l d) at 2; apply Rmult_lt_compat_r; lra).
  assert (N3 : Rabs (tgt t - star q (kupd t)) < d) by lra.
  replace ((1 - al t) * ent t (kupd t) + al t * tgt t - star q (kupd t))
    with ((1 - al t) * (ent t (kupd t) - star q (kupd t)) + al t * (tgt t - star q (kupd t))) by ring.
  set (x := Rabs (ent t (kupd t) - star q (kupd t))) in *. set (y := Rabs (tgt t - star q (kupd t))) in *.
  apply Rle_lt_trans with (Rmax x y); [|apply Rmax_lub_lt; assumption].
  eapply Rle_trans; [apply Rabs_triang|]. rewrite !Rabs_mult, (Rabs_pos_eq (1 - al t)), (Rabs_pos_eq (al t)) by lra.
  fold x y. assert ((1 - al t) * x <= (1 - al t) * Rmax x y) by (apply Rmult_le_compat_l; [lra|apply Rmax_l]).
  assert (al t * y <= al t * Rmax x y) by (apply Rmult_le_compat_l; [lra|apply Rmax_r]). lra.
Qed.

Lemma near_converges : forall eps, 0 < eps -> exists T, forall t, (T <= t)%nat -> forall z, In z keys ->
  Rabs (ent t z - star q z) < eps.
Proof.
  intros eps He.
  destruct (async_converges key_eq_dec keys (fun t z => ent (T0 + t) z) (star q) (fun t => kupd (T0 + t)) (fun t => al (T0 + t))
    (fun t => tgt (T0 + t)) gamma G) with (eps := eps) as (N & HN); auto.
  - intros t. apply run_rate.
  - intros t. rewrite Nat.add_succ_r. apply ent_upd.
  - intros t z NE. rewrite Nat.add_succ_r. apply ent_other. exact NE.
  - intros t E HE. apply near_target; auto. apply near_stays. lia.
  - intros z Hz M. destruct (run_rates z Hz (M + wsum key_eq_dec kupd al z T0)) as (N & HN). exists N.
    assert (W : forall j, wsum key_eq_dec (fun t => kupd (T0 + t)) (fun t => al (T0 + t)) z j + wsum key_eq_dec kupd al z T0
                = wsum key_eq_dec kupd al z (T0 + j)).
    { induction j as [|j IHj]; [rewrite Nat.add_0_r; cbn [wsum]; ring|].
      rewrite Nat.add_succ_r. cbn [wsum]. rewrite <- IHj. unfold wt. ring. }
    specialize (W N). pose proof (wsum_mono key_eq_dec kupd al run_rate z N (T0 + N) ltac:(lia)). lra.
  - exists (T0 + N)%nat. intros t Ht z Hz. replace t with (T0 + (t - T0))%nat by lia. apply HN; auto. lia.
Qed.
End Near.

(** ** Sweeps with vanishing rates *)
Section Sweeps.
Variable L : nat.
Variable beta : nat -> R.
Hypothesis AB : forall t, al t = beta (t / L)%nat.
Hypothesis ONCE : forall m z, In z keys -> exists j, (j < L)%nat /\ kupd (m * L + j) = z /\
  forall j', (j' < L)%nat -> kupd (m * L + j') = z -> j' = j.
Hypothesis B0 : forall eps, 0 < eps -> exists N, forall m, (N <= m)%nat -> beta m < eps.
Hypothesis BS : forall M, exists N, M <= rsum (map beta (seq 0 N)).
Variable q : nat -> nat -> R.
Hypothesis OV : optimal_values lv k gamma e q.

Lemma L_pos : (0 < L)%nat.
Proof. destruct (ONCE O _ (run_key O)) as (j & Hj & _). lia. Qed.
Lemma rate_in : forall m j, (j < L)%nat -> al (m * L + j) = beta m.
Proof.
  intros m j Hj. rewrite AB. f_equal. rewrite Nat.add_comm, Nat.div_add, Nat.div_small by lia. reflexivity.
Qed.
Lemma beta_range : forall m, 0 <= beta m <= 1.
Proof. intros m. rewrite <- (rate_in m O L_pos). apply run_rate. Qed.

(** All entries and targets stay within some B. *)
Lemma run_bounded : exists B, 0 <= B /\ (forall t z, In z keys -> Rabs (ent t z) <= B) /\ forall t, Rabs (tgt t) <= B.
Proof.
  destruct RUN as (_ & _ & ST). assert (K1 : (1 <= k)%nat) by (destruct (ST O) as (_ & (_ & H & _) & _); lia).
  destruct (finite_bound lv k K1 (d_r e)) as (Rm & R0 & HR).
  destruct (finite_bound lv k K1 (fun s a => ent O (false, (s, a)))) as (S1 & S10 & H1).
  destruct (finite_bound lv k K1 (fun s a => ent O (true, (s, a)))) as (S2 & S20 & H2).
  set (B := S1 + S2 + Rm / (1 - gamma)). exists B.
  assert (RG : 0 <= Rm / (1 - gamma)) by (apply Rmult_le_pos; [lra|apply Rlt_le, Rinv_0_lt_compat; lra]).
  assert (BB : Rm + gamma * B <= B).
  { assert (Rm / (1 - gamma) * (1 - gamma) = Rm) by (field; lra).
    assert (Rm / (1 - gamma) * (1 - gamma) <= B * (1 - gamma)) by (apply Rmult_le_compat_r; unfold B; lra). lra. }
  assert (HB : 0 <= B) by (unfold B; lra).
  assert (TB : forall t, (forall z, In z keys -> Rabs (ent t z) <= B) -> Rabs (tgt t) <= B).
  { intros t HE. eapply Rle_trans; [|exact BB]. unfold tgt.
    destruct (follows_ok _ _ _ _ (run_sample t)) as ((A & A') & -> & _ & _).
    eapply Rle_trans; [apply Rabs_triang|]. apply Rplus_le_compat; [apply HR; auto|].
    rewrite Rabs_mult, (Rabs_pos_eq gamma) by lra. apply Rmult_le_compat_l; [lra|]. unfold nxt.
    destruct (x_abs (xs t)) eqn:Ab; [rewrite Rabs_R0; lra|]. destruct (act_max t Ab) as (C & La & _).
    apply (HE (negb (sec t), (x_s' (xs t), act t))). apply keys_In. auto. }
  assert (EB : forall t z, In z keys -> Rabs (ent t z) <= B).
  { induction t as [|t IH]; intros z Hz.
    - destruct z as [i [s a]]. apply keys_In in Hz as [Hs Ha]. specialize (H1 s a Hs Ha). specialize (H2 s a Hs Ha).
      cbn beta in H1, H2. destruct i; unfold B; lra.
    - destruct (key_eq_dec z (kupd t)) as [->|NE]; [|rewrite ent_other by auto; auto]. rewrite ent_upd.
      pose proof (run_rate t). pose proof (IH _ Hz) as P. pose proof (TB t IH) as P'.
      eapply Rle_trans; [apply Rabs_triang|]. rewrite !Rabs_mult, (Rabs_pos_eq (1 - al t)), (Rabs_pos_eq (al t)) by lra.
      assert ((1 - al t) * Rabs (ent t (kupd t)) <= (1 - al t) * B) by (apply Rmult_le_compat_l; lra).
      assert (al t * Rabs (tgt t) <= al t * B) by (apply Rmult_le_compat_l; lra). lra. }
  split; [exact HB|]. split; [exact EB|]. intros t. apply TB. apply EB.
Qed.

Section Bounded.
Variable B : R.
Hypothesis HB : 0 <= B.
Hypothesis EB : forall t z, In z keys -> Rabs (ent t z) <= B.
Hypothesis TB : forall t, Rabs (tgt t) <= B.
Definition drift : R := INR L * (2 * B).

Lemma drift_pos : 0 <= drift.
Proof. unfold drift. apply Rmult_le_pos; [apply pos_INR|lra]. Qed.

Lemma sweep_drift : forall m j z, (j <= L)%nat -> In z keys -> Rabs (ent (m * L + j) z - ent (m * L) z) <= drift * beta m.
Proof.
  intros m j z Hj Hz. pose proof (beta_range m) as BR.
  assert (K : Rabs (ent (m * L + j) z - ent (m * L) z) <= INR j * (2 * B) * beta m).
  { induction j as [|j IH].
    - rewrite Nat.add_0_r, Rminus_diag_eq, Rabs_R0 by auto. cbn [INR]. lra.
    - specialize (IH ltac:(lia)). rewrite Nat.add_succ_r, S_INR.
      assert (ST : Rabs (ent (S (m * L + j)) z - ent (m * L + j) z) <= 2 * B * beta m).
      { destruct (key_eq_dec z (kupd (m * L + j))) as [E|NE].
        - rewrite E in *. rewrite ent_upd, rate_in by lia.
          replace ((1 - beta m) * ent (m * L + j) (kupd (m * L + j)) + beta m * tgt (m * L + j) - ent (m * L + j) (kupd (m * L + j)))
            with (beta m * (tgt (m * L + j) - ent (m * L + j) (kupd (m * L + j)))) by ring.
          rewrite Rabs_mult, (Rabs_pos_eq (beta m)), Rmult_comm by lra. apply Rmult_le_compat_r; [lra|].
          pose proof (TB (m * L + j)) as P1. pose proof (EB (m * L + j) _ Hz) as P2.
          eapply Rle_trans; [apply Rabs_triang|]. rewrite Rabs_Ropp. lra.
        - rewrite ent_other, Rminus_diag_eq, Rabs_R0 by auto. apply Rmult_le_pos; lra. }
      replace (ent (S (m * L + j)) z - ent (m * L) z)
        with ((ent (S (m * L + j)) z - ent (m * L + j) z) + (ent (m * L + j) z - ent (m * L) z)) by ring.
      eapply Rle_trans; [apply Rabs_triang|]. lra. }
  eapply Rle_trans; [exact K|]. unfold drift. apply Rmult_le_compat_r; [lra|]. apply Rmult_le_compat_r; [lra|].
  apply le_INR. exact Hj.
Qed.

(** One sweep moves every entry once. *)
Lemma sweep_entry : forall m z, In z keys -> exists j, (j < L)%nat /\ kupd (m * L + j) = z /\
  ent (S m * L) z = (1 - beta m) * ent (m * L) z + beta m * tgt (m * L + j).
Proof.
  intros m z Hz. destruct (ONCE m z Hz) as (j & Hj & KU & UN). exists j. split; auto. split; auto.
  assert (P : forall i, (i <= j)%nat -> ent (m * L + i) z = ent (m * L) z).
  { induction i as [|i IH]; intros Hi; [rewrite Nat.add_0_r; reflexivity|]. rewrite Nat.add_succ_r, ent_other, IH; auto; [lia|].
    intros E. symmetry in E. apply UN in E; lia. }
  assert (N : forall i, (S j + i <= L)%nat -> ent (m * L + (S j + i)) z = ent (S (m * L + j)) z).
  { induction i as [|i IH]; intros Hi; [rewrite Nat.add_0_r, Nat.add_succ_r; reflexivity|].
    replace (m * L + (S j + S i))%nat with (S (m * L + (S j + i))) by lia. rewrite ent_other; [apply IH; lia|].
    intros E. symmetry in E. apply UN in E; lia. }
  replace (S m * L)%nat with (m * L + (S j + (L - S j)))%nat by (cbn [Nat.mul]; lia).
  rewrite N by lia. rewrite <- KU at 1. rewrite ent_upd, KU, P, rate_in by lia. reflexivity.
Qed.

(** Largest entry of a row at the start of a sweep. *)
Definition smax (m : nat) (i : bool) (s : nat) : R := qmax (map (fun a => ent (m * L) (i, (s, a))) (seq 0 k)).
Lemma smax_is : forall m i s, is_max k (fun a => ent (m * L) (i, (s, a))) (smax m i s).
Proof.
  intros m i s. apply (qmax_is_max k (fun a => ent (m * L) (i, (s, a)))).
  destruct (run_sample O) as (_ & H & _). lia.
Qed.

Lemma sweep_upper : forall m j i s a, (j < L)%nat -> kupd (m * L + j) = (i, (s, a)) ->
  tgt (m * L + j) <= d_r e s a + gamma * (if d_abs e s a then 0 else smax m (negb i) (d_s e s a) + drift * beta m).
Proof.
  intros m j i s a Hj E. apply upd_inv in E as (E1 & E2 & E3). set (t := (m * L + j)%nat) in *.
  destruct (follows_ok _ _ _ _ (run_sample t)) as (_ & Er & Es & Ea). rewrite E2, E3 in *.
  unfold tgt, nxt. rewrite <- Ea. destruct (x_abs (xs t)) eqn:Ab; [lra|].
  destruct (act_max t Ab) as (C & La & _). rewrite <- Er, <- Es, E1.
  pose proof (sweep_drift m j (negb i, (x_s' (xs t), act t)) ltac:(lia) (proj2 (keys_In _ _ _) (conj C La))) as D.
  fold t in D. destruct (smax_is m (negb i) (x_s' (xs t))) as [_ M]. specialize (M _ La). cbn beta in M.
  pose proof (Rle_abs (ent t (negb i, (x_s' (xs t), act t)) - ent (m * L) (negb i, (x_s' (xs t), act t)))).
  unfold ent at 1 in H. cbn [fst snd] in H.
  apply Rplus_le_compat_l, Rmult_le_compat_l; lra.
Qed.

Lemma sweep_lower : forall m D, (forall i s a, In s lv -> (a < k)%nat -> ent (m * L) (i, (s, a)) - ent (m * L) (negb i, (s, a)) <= D) ->
  0 <= D -> forall j i s a, (j < L)%nat -> kupd (m * L + j) = (i, (s, a)) ->
  d_r e s a + gamma * (if d_abs e s a then 0 else smax m i (d_s e s a) - D - 3 * (drift * beta m)) <= tgt (m * L + j).
Proof.
  intros m D HD D0 j i s a Hj E. apply upd_inv in E as (E1 & E2 & E3). set (t := (m * L + j)%nat) in *.
  destruct (follows_ok _ _ _ _ (run_sample t)) as (_ & Er & Es & Ea). rewrite E2, E3 in *.
  unfold tgt, nxt. rewrite <- Ea. destruct (x_abs (xs t)) eqn:Ab; [lra|].
  destruct (act_max t Ab) as (C & La & MX). rewrite <- Er, <- Es, E1 in *.
  destruct (smax_is m i (x_s' (xs t))) as [(b & Hb & Eb) _]. cbn beta in Eb. specialize (MX b Hb).
  pose proof (sweep_drift m j (negb i, (x_s' (xs t), act t)) ltac:(lia) (proj2 (keys_In _ _ _) (conj C La))) as L1.
  pose proof (sweep_drift m j (i, (x_s' (xs t), act t)) ltac:(lia) (proj2 (keys_In _ _ _) (conj C La))) as L2.
  pose proof (sweep_drift m j (i, (x_s' (xs t), b)) ltac:(lia) (proj2 (keys_In _ _ _) (conj C Hb))) as L3.
  pose proof (HD i _ _ C La) as L4. fold t in L1, L2, L3.
  apply Rabs_le_inv' in L1. apply Rabs_le_inv' in L2. apply Rabs_le_inv' in L3.
  change (tget (tab (Q t) (negb i)) (x_s' (xs t)) (act t)) with (ent t (negb i, (x_s' (xs t), act t))).
  apply Rplus_le_compat_l, Rmult_le_compat_l; lra.
Qed.

(** Bounds on the difference of the tables and on the error at the start of each sweep. *)
Fixpoint ydiff (m : nat) : R :=
  match m with
  | O => 2 * B
  | S m' => (1 - beta m' * (1 - gamma)) * ydiff m' + beta m' * (1 - gamma) * (gamma / (1 - gamma) * (4 * drift * beta m'))
  end.
Variable S0 : R.
Hypothesis HS : 0 <= S0 /\ forall z, In z keys -> Rabs (ent O z - star q z) <= S0.
Fixpoint yerr (m : nat) : R :=
  match m with
  | O => S0
  | S m' => (1 - beta m' * (1 - gamma)) * yerr m' +
            beta m' * (1 - gamma) * (gamma / (1 - gamma) * (ydiff m' + 3 * drift * beta m'))
  end.

Lemma step_range : forall m, 0 <= beta m * (1 - gamma) <= 1.
Proof.
  intros m. pose proof (beta_range m). split; [apply Rmult_le_pos; lra|].
  rewrite <- (Rmult_1_l 1). apply Rmult_le_compat; lra.
Qed.
Lemma ratio_pos : 0 <= gamma / (1 - gamma).
Proof. apply Rmult_le_pos; [lra|apply Rlt_le, Rinv_0_lt_compat; lra]. Qed.

Lemma ydiff_pos : forall m, 0 <= ydiff m.
Proof.
  induction m as [|m IH]; cbn [ydiff]; [lra|]. pose proof (step_range m). pose proof ratio_pos. pose proof drift_pos.
  pose proof (beta_range m).
  assert (0 <= (1 - beta m * (1 - gamma)) * ydiff m) by (apply Rmult_le_pos; lra).
  assert (0 <= 4 * drift * beta m) by (apply Rmult_le_pos; lra).
  assert (0 <= gamma / (1 - gamma) * (4 * drift * beta m)) by (apply Rmult_le_pos; lra).
  assert (0 <= beta m * (1 - gamma) * (gamma / (1 - gamma) * (4 * drift * beta m))) by (apply Rmult_le_pos; lra). lra.
Qed.
Lemma yerr_pos : forall m, 0 <= yerr m.
Proof.
  induction m as [|m IH]; cbn [yerr]; [apply HS|]. pose proof (step_range m). pose proof ratio_pos. pose proof drift_pos.
  pose proof (beta_range m). pose proof (ydiff_pos m).
  assert (0 <= (1 - beta m * (1 - gamma)) * yerr m) by (apply Rmult_le_pos; lra).
  assert (0 <= 3 * drift * beta m) by (apply Rmult_le_pos; lra).
  assert (0 <= gamma / (1 - gamma) * (ydiff m + 3 * drift * beta m)) by (apply Rmult_le_pos; lra).
  assert (0 <= beta m * (1 - gamma) * (gamma / (1 - gamma) * (ydiff m + 3 * drift * beta m))) by (apply Rmult_le_pos; lra). lra.
Qed.

Lemma ydiff_bound : forall m i s a, In s lv -> (a < k)%nat ->
  ent (m * L) (i, (s, a)) - ent (m * L) (negb i, (s, a)) <= ydiff m.
Proof.
  induction m as [|m IH]; intros i s a Hs Ha.
  - cbn [Nat.mul ydiff]. pose proof (EB O (i, (s, a)) (proj2 (keys_In _ _ _) (conj Hs Ha))) as P1.
    pose proof (EB O (negb i, (s, a)) (proj2 (keys_In _ _ _) (conj Hs Ha))) as P2.
    apply Rabs_le_inv' in P1. apply Rabs_le_inv' in P2. lra.
  - destruct (sweep_entry m (i, (s, a)) (proj2 (keys_In _ _ _) (conj Hs Ha))) as (j & Hj & KU & ->).
    destruct (sweep_entry m (negb i, (s, a)) (proj2 (keys_In _ _ _) (conj Hs Ha))) as (j' & Hj' & KU' & ->).
    pose proof (sweep_upper m j i s a Hj KU) as U.
    pose proof (sweep_lower m (ydiff m) IH (ydiff_pos m) j' (negb i) s a Hj' KU') as W.
    specialize (IH i s a Hs Ha). pose proof (beta_range m) as BR. pose proof (ydiff_pos m). pose proof drift_pos.
    assert (DB : 0 <= drift * beta m) by (apply Rmult_le_pos; lra).
    assert (TD : tgt (m * L + j) - tgt (m * L + j') <= gamma * (ydiff m + 4 * (drift * beta m))).
    { destruct (d_abs e s a); [|lra]. assert (0 <= gamma * (ydiff m + 4 * (drift * beta m))) by (apply Rmult_le_pos; lra). lra. }
    cbn [ydiff].
    replace ((1 - beta m * (1 - gamma)) * ydiff m + beta m * (1 - gamma) * (gamma / (1 - gamma) * (4 * drift * beta m)))
      with ((1 - beta m) * ydiff m + beta m * (gamma * (ydiff m + 4 * (drift * beta m)))) by (field; lra).
    assert ((1 - beta m) * (ent (m * L) (i, (s, a)) - ent (m * L) (negb i, (s, a))) <= (1 - beta m) * ydiff m)
      by (apply Rmult_le_compat_l; lra).
    assert (beta m * (tgt (m * L + j) - tgt (m * L + j')) <= beta m * (gamma * (ydiff m + 4 * (drift * beta m))))
      by (apply Rmult_le_compat_l; lra).
    lra.
Qed.

Lemma yerr_bound : forall m z, In z keys -> Rabs (ent (m * L) z - star q z) <= yerr m.
Proof.
  induction m as [|m IH]; intros z Hz; [apply HS; exact Hz|].
  destruct z as [i [s a]]. destruct (sweep_entry m _ Hz) as (j & Hj & KU & ->).
  pose proof (sweep_upper m j i s a Hj KU) as U.
  pose proof (sweep_lower m (ydiff m) (ydiff_bound m) (ydiff_pos m) j i s a Hj KU) as W.
  pose proof (IH _ Hz) as P. apply Rabs_le_inv' in P.
  apply keys_In in Hz as [Hs Ha]. pose proof (beta_range m) as BR. pose proof (ydiff_pos m). pose proof (yerr_pos m). pose proof drift_pos.
  assert (DB : 0 <= drift * beta m) by (apply Rmult_le_pos; lra).
  set (F := yerr m + (ydiff m + 3 * (drift * beta m))) in *.
  assert (TD : - (gamma * F) <= tgt (m * L + j) - star q (i, (s, a)) <= gamma * F).
  { assert (F0 : 0 <= gamma * F) by (apply Rmult_le_pos; unfold F; lra).
    unfold star; cbn [fst snd]. destruct (OV s a Hs Ha) as (v & -> & V1 & V2). destruct (d_abs e s a) eqn:Ab.
    - rewrite V1 by auto. lra.
    - pose proof (CL s a Hs Ha Ab) as C. set (s' := d_s e s a) in *.
      assert (MC : forall i', - yerr m <= smax m i' s' - v <= yerr m).
      { intros i'. apply Rabs_le_inv'. apply (is_max_close k (fun b => ent (m * L) (i', (s', b))) (q s')); auto using smax_is.
        intros b Hb. apply (IH (i', (s', b))). apply keys_In. auto. }
      pose proof (MC i) as M1. pose proof (MC (negb i)) as M2.
      assert (gamma * (smax m (negb i) s' + drift * beta m) <= gamma * (v + F)) by (apply Rmult_le_compat_l; unfold F; lra).
      assert (gamma * (v - F) <= gamma * (smax m i s' - ydiff m - 3 * (drift * beta m))) by (apply Rmult_le_compat_l; unfold F; lra).
      lra. }
  cbn [yerr].
  replace ((1 - beta m * (1 - gamma)) * yerr m + beta m * (1 - gamma) * (gamma / (1 - gamma) * (ydiff m + 3 * drift * beta m)))
    with ((1 - beta m) * yerr m + beta m * (gamma * F)) by (unfold F; field; lra).
  set (x := ent (m * L) (i, (s, a))) in *. set (st := star q (i, (s, a))) in *. set (tt := tgt (m * L + j)) in *.
  apply Rabs_le. replace ((1 - beta m) * x + beta m * tt - st) with ((1 - beta m) * (x - st) + beta m * (tt - st)) by ring.
  assert ((1 - beta m) * (x - st) <= (1 - beta m) * yerr m) by (apply Rmult_le_compat_l; lra).
  assert ((1 - beta m) * - yerr m <= (1 - beta m) * (x - st)) by (apply Rmult_le_compat_l; lra).
  assert (beta m * (tt - st) <= beta m * (gamma * F)) by (apply Rmult_le_compat_l; lra).
  assert (beta m * - (gamma * F) <= beta m * (tt - st)) by (apply Rmult_le_compat_l; lra). lra.
Qed.

(** Such recurrences tend to zero when their forcing does. *)
Lemma forced_to_zero : forall (y f : nat -> R),
  (forall m, y (S m) = (1 - beta m * (1 - gamma)) * y m + beta m * (1 - gamma) * f m) ->
  (forall eps, 0 < eps -> exists N, forall m, (N <= m)%nat -> f m <= eps) ->
  forall eps, 0 < eps -> exists N, forall m, (N <= m)%nat -> y m <= eps.
Proof.
  intros y f Y F eps He. destruct (F (eps / 2)) as (T & HT); [lra|].
  assert (ueq : forall a b : unit, {a = b} + {a <> b}) by (intros [] []; left; reflexivity).
  destruct (p_decay ueq [tt] (fun m _ => y m) (fun _ => tt) (fun m => beta m * (1 - gamma)) f) with (T := T) (z := tt) (M := eps / 2) (eps := eps / 2)
    as (N & _ & HN); auto.
  - exact step_range.
  - intros m. apply Req_le, Y.
  - intros m [] NE. congruence.
  - intros [] _ M. destruct (BS (M / (1 - gamma))) as (N & HN). exists N.
    assert (W : forall j, wsum ueq (fun _ => tt) (fun m => beta m * (1 - gamma)) tt j = rsum (map beta (seq 0 j)) * (1 - gamma)).
    { induction j as [|j IHj]; [cbn; ring|]. cbn [wsum]. rewrite IHj, seq_S, map_app, rsum_app. cbn [map rsum plus].
      unfold wt. destruct (ueq tt tt) as [_|NE]; [ring|congruence]. }
    rewrite W. apply (Rmult_le_compat_r (1 - gamma)) in HN; [|lra].
    replace (M / (1 - gamma) * (1 - gamma)) with M in HN by (field; lra). exact HN.
  - left. reflexivity.
  - lra.
  - exists N. intros m Hm. specialize (HN m Hm). cbn beta in HN. lra.
Qed.

Lemma scaled_beta : forall c, 0 <= c -> forall eps, 0 < eps -> exists N, forall m, (N <= m)%nat -> c * beta m <= eps.
Proof.
  intros c0 C0 eps He. destruct (B0 (eps / (c0 + 1))) as (N & HN); [apply Rdiv_lt_0_compat; lra|]. exists N. intros m Hm.
  specialize (HN m Hm). pose proof (beta_range m).
  assert (c0 * beta m <= (c0 + 1) * beta m) by (apply Rmult_le_compat_r; lra).
  assert ((c0 + 1) * beta m <= (c0 + 1) * (eps / (c0 + 1))) by (apply Rmult_le_compat_l; lra).
  replace ((c0 + 1) * (eps / (c0 + 1))) with eps in * by (field; lra). lra.
Qed.

Lemma sweeps_converge : forall eps, 0 < eps -> exists T, forall t, (T <= t)%nat -> forall z, In z keys ->
  Rabs (ent t z - star q z) < eps.
Proof.
  pose proof ratio_pos as RP. pose proof drift_pos as DP.
  assert (YD : forall eps, 0 < eps -> exists N, forall m, (N <= m)%nat -> ydiff m <= eps).
  { apply (forced_to_zero ydiff (fun m => gamma / (1 - gamma) * (4 * drift * beta m))); [reflexivity|].
    intros eps He. destruct (scaled_beta (gamma / (1 - gamma) * (4 * drift))) with (eps := eps) as (N & HN); auto.
    { apply Rmult_le_pos; lra. } exists N. intros m Hm. rewrite <- Rmult_assoc. apply HN. exact Hm. }
  assert (YE : forall eps, 0 < eps -> exists N, forall m, (N <= m)%nat -> yerr m <= eps).
  { apply (forced_to_zero yerr (fun m => gamma / (1 - gamma) * (ydiff m + 3 * drift * beta m))); [reflexivity|].
    intros eps He. set (g := gamma / (1 - gamma)) in *.
    destruct (YD (eps / 2 / (g + 1))) as (N1 & H1); [apply Rdiv_lt_0_compat; lra|].
    destruct (scaled_beta (g * (3 * drift))) with (eps := eps / 2) as (N2 & H2); [apply Rmult_le_pos; lra|lra|].
    exists (Nat.max N1 N2). intros m Hm. specialize (H1 m ltac:(lia)). specialize (H2 m ltac:(lia)). pose proof (ydiff_pos m).
    assert (g * ydiff m <= (g + 1) * ydiff m) by (apply Rmult_le_compat_r; lra).
    assert ((g + 1) * ydiff m <= (g + 1) * (eps / 2 / (g + 1))) by (apply Rmult_le_compat_l; lra).
    replace ((g + 1) * (eps / 2 / (g + 1))) with (eps / 2) in * by (field; lra). lra. }
  intros eps He. destruct (YE (eps / 3)) as (N1 & H1); [lra|].
  destruct (scaled_beta drift DP (eps / 3)) as (N2 & H2); [lra|].
  pose proof L_pos as LP.
  exists (Nat.max N1 N2 * L)%nat. intros t Ht z Hz.
  pose proof (Nat.div_mod t L ltac:(lia)) as DM. set (m := (t / L)%nat) in *. set (j := (t mod L)%nat) in *.
  assert (Hj : (j < L)%nat) by (apply Nat.mod_upper_bound; lia).
  assert (Hm : (Nat.max N1 N2 <= m)%nat) by (apply Nat.div_le_lower_bound; lia).
  assert (TE : t = (m * L + j)%nat) by lia. clearbody m j. rewrite TE.
  pose proof (sweep_drift m j z ltac:(lia) Hz) as P1. pose proof (yerr_bound m z Hz) as P2.
  specialize (H1 m ltac:(lia)). specialize (H2 m ltac:(lia)).
  replace (ent (m * L + j) z - star q z) with ((ent (m * L + j) z - ent (m * L) z) + (ent (m * L) z - star q z)) by ring.
  eapply Rle_lt_trans; [apply Rabs_triang|]. lra.
Qed.
End Bounded.
End Sweeps.
End Double.

(** The tables never end up above the optimal values. *)
Theorem double_q_no_overestimation : forall n lv k gamma e q al sec c xs Q,
  0 <= gamma < 1 -> (forall s, In s lv -> (s < n)%nat) -> closed lv k e -> optimal_values lv k gamma e q ->
  dq_run n lv k gamma e al sec c xs Q -> both_rates_diverge lv k al sec xs ->
  forall eps, 0 < eps -> exists T, forall t, (T <= t)%nat -> forall i s a, In s lv -> (a < k)%nat ->
    tget (tab (Q t) i) s a < q s a + eps.
Proof.
  intros n lv k gamma e q al sec c xs Q G IN CL OV RUN RD eps He.
  destruct (over_eventually n lv k gamma e al sec c xs Q G IN CL RUN RD q OV (eps / 2)) as (T & HT); [lra|].
  exists T. intros t Ht i s a Hs Ha. specialize (HT t Ht (i, (s, a)) (proj2 (keys_In lv k i s a) (conj Hs Ha))).
  unfold ent, star in HT. cbn [fst snd] in HT. lra.
Qed.

(** For gamma < 1/2 both tables converge to the optimal values, and from some time on the greedy
    actions of both tables are optimal. *)
Theorem double_q_converges : forall n lv k gamma e q al sec c xs Q,
  0 <= gamma < 1 / 2 -> (forall s, In s lv -> (s < n)%nat) -> closed lv k e -> optimal_values lv k gamma e q ->
  dq_run n lv k gamma e al sec c xs Q -> both_rates_diverge lv k al sec xs ->
  (forall eps, 0 < eps -> exists T, forall t, (T <= t)%nat -> forall i s a, In s lv -> (a < k)%nat ->
    Rabs (tget (tab (Q t) i) s a - q s a) < eps) /\
  (exists T, forall t, (T <= t)%nat -> forall i s a, In s lv -> In a (argmaxs (row (tab (Q t) i) s)) ->
    is_max k (q s) (q s a)).
Proof.
  intros n lv k gamma e q al sec c xs Q G2 IN CL OV RUN RD. assert (G : 0 <= gamma < 1) by lra.
  assert (CV : forall eps, 0 < eps -> exists T, forall t, (T <= t)%nat -> forall i s a, In s lv -> (a < k)%nat ->
    Rabs (tget (tab (Q t) i) s a - q s a) < eps).
  { intros eps He.
    destruct (over_eventually n lv k gamma e al sec c xs Q G IN CL RUN RD q OV (eps / 2)) as (T & HT); [lra|].
    destruct (under_eventually n lv k gamma e al sec c xs Q G IN CL RUN RD q OV) with (eps := eps / 2) as (T' & HT'); [lra|lra|].
    exists (Nat.max T T'). intros t Ht i s a Hs Ha. pose proof (proj2 (keys_In lv k i s a) (conj Hs Ha)) as I.
    specialize (HT t ltac:(lia) _ I). specialize (HT' t ltac:(lia) _ I).
    unfold ent, star in HT, HT'. cbn [fst snd] in HT, HT'. apply Rabs_def1; lra. }
  split; [exact CV|].
  assert (K1 : (1 <= k)%nat) by (destruct RUN as (_ & _ & ST); destruct (ST O) as (_ & (_ & B & _) & _); lia).
  destruct (value_gap lv k q) as (d & D0 & Gap). destruct (CV (d / 2)) as (N & HN); [lra|].
  exists N. intros t Ht i s a Hs Ia.
  pose proof (row_length n k _ s (run_shaped n lv k gamma e al sec c xs Q RUN t i) (IN _ Hs)) as LR.
  apply argmaxs_In in Ia as [La Ma]; [|destruct (row (tab (Q t) i) s); simpl in LR; [lia|discriminate]].
  rewrite LR in La, Ma. split; [exists a; auto|]. intros b Hb. apply Rnot_lt_le. intros Lt.
  specialize (Gap s a b Hs La Hb Lt). specialize (Ma b Hb).
  pose proof (HN t Ht i s a Hs La) as Ea. pose proof (HN t Ht i s b Hs Hb) as Eb. unfold tget in Ea, Eb.
  apply Rabs_def2 in Ea. apply Rabs_def2 in Eb. lra.
Qed.

(** Whenever the two tables converge, to whatever limits, the limits are the optimal values. *)
Theorem double_q_limits_optimal : forall n lv k gamma e q al sec c xs Q (lim : bool -> nat -> nat -> R),
  0 <= gamma < 1 -> (forall s, In s lv -> (s < n)%nat) -> closed lv k e -> optimal_values lv k gamma e q ->
  dq_run n lv k gamma e al sec c xs Q -> both_rates_diverge lv k al sec xs ->
  (forall eps i s a, 0 < eps -> In s lv -> (a < k)%nat -> exists T, forall t, (T <= t)%nat ->
    Rabs (tget (tab (Q t) i) s a - lim i s a) < eps) ->
  forall i s a, In s lv -> (a < k)%nat -> lim i s a = q s a.
Proof.
  intros n lv k gamma e q al sec c xs Q lim G IN CL OV RUN RD CV.
  destruct (lim_optimal n lv k gamma e al sec c xs Q G IN CL RUN RD (fun z => lim (fst z) (fst (snd z)) (snd (snd z)))) as [S O].
  - intros eps He.
    assert (K : forall l, incl l (keys lv k) -> exists T, forall t, (T <= t)%nat -> forall z, In z l ->
      Rabs (ent Q t z - lim (fst z) (fst (snd z)) (snd (snd z))) < eps).
    { induction l as [|[i [s a]] l IH]; intros HI; [exists O; intros t _ z []|].
      destruct IH as (T & HT); [intros y Hy; apply HI; right; auto|].
      pose proof (HI _ (or_introl eq_refl)) as I. apply keys_In in I as [Hs Ha].
      destruct (CV eps i s a He Hs Ha) as (T' & HT'). exists (Nat.max T T').
      intros t Ht z [<-|Hz]; [apply HT'; lia|apply HT; auto; lia]. }
    apply (K _ (fun z H => H)).
  - cbn [fst snd] in S, O. intros i s a Hs Ha.
    pose proof (optimal_unique lv k gamma e G ltac:(lia) CL _ _ O OV s a Hs Ha) as E. cbn beta in E.
    destruct i; [rewrite S by auto|]; exact E.
Qed.

(** For every gamma < 1 there is a distance d, which only depends on the optimal values, such that
    both tables converge to the optimal values once all their entries are within d of them. *)
Theorem double_q_basin : forall lv k (q : nat -> nat -> R), exists d, 0 < d /\
  forall n gamma e al sec c xs Q,
  0 <= gamma < 1 -> (forall s, In s lv -> (s < n)%nat) -> closed lv k e -> optimal_values lv k gamma e q ->
  dq_run n lv k gamma e al sec c xs Q -> both_rates_diverge lv k al sec xs ->
  forall T0, (forall i s a, In s lv -> (a < k)%nat -> Rabs (tget (tab (Q T0) i) s a - q s a) < d) ->
  forall eps, 0 < eps -> exists T, forall t, (T <= t)%nat -> forall i s a, In s lv -> (a < k)%nat ->
    Rabs (tget (tab (Q t) i) s a - q s a) < eps.
Proof.
  intros lv k q. destruct (value_gap lv k q) as (g & G0 & Gap). exists (g / 2). split; [lra|].
  intros n gamma e al sec c xs Q G IN CL OV RUN RD T0 NEAR eps He.
  destruct (near_converges n lv k gamma e al sec c xs Q G IN CL RUN RD q OV (g / 2)) with (T0 := T0) (eps := eps) as (T & HT); auto.
  - intros s a b Hs Ha Hb Lt. specialize (Gap s a b Hs Ha Hb Lt). lra.
  - intros [i [s a]] Hz. apply keys_In in Hz as [Hs Ha]. apply NEAR; auto.
  - exists T. intros t Ht i s a Hs Ha. apply (HT t Ht (i, (s, a))). apply keys_In. auto.
Qed.

(** For every gamma < 1 both tables converge to the optimal values when every entry of both is
    updated once per sweep of L updates, in any order that may change from sweep to sweep, with a
    rate that only depends on the number of the sweep, vanishes and has an infinite sum. *)
Theorem double_q_sweeps_converge : forall n lv k gamma e q al sec c xs Q L beta,
  0 <= gamma < 1 -> (forall s, In s lv -> (s < n)%nat) -> closed lv k e -> optimal_values lv k gamma e q ->
  dq_run n lv k gamma e al sec c xs Q ->
  (forall t, al t = beta (t / L)%nat) ->
  (forall m i s a, In s lv -> (a < k)%nat -> exists j, (j < L)%nat /\
     (sec (m * L + j) = i /\ x_s (xs (m * L + j)) = s /\ x_a (xs (m * L + j)) = a)%nat /\
     forall j', (j' < L)%nat -> (sec (m * L + j') = i /\ x_s (xs (m * L + j')) = s /\ x_a (xs (m * L + j')) = a)%nat -> j' = j) ->
  (forall eps, 0 < eps -> exists N, forall m, (N <= m)%nat -> beta m < eps) ->
  (forall M, exists N, M <= rsum (map beta (seq 0 N))) ->
  forall eps, 0 < eps -> exists T, forall t, (T <= t)%nat -> forall i s a, In s lv -> (a < k)%nat ->
    Rabs (tget (tab (Q t) i) s a - q s a) < eps.
Proof.
  intros n lv k gamma e q al sec c xs Q L beta G IN CL OV RUN AB ONCE B0 BS eps He.
  destruct (run_bounded n lv k gamma e al sec c xs Q G IN CL RUN) as (B & HB & EB & TB).
  assert (K1 : (1 <= k)%nat) by (destruct RUN as (_ & _ & ST); destruct (ST O) as (_ & (_ & H & _) & _); lia).
  destruct (finite_bound lv k K1 q) as (S1 & S10 & HS).
  destruct (sweeps_converge n lv k gamma e al sec c xs Q G IN CL RUN L beta AB) with (q := q) (B := B) (S0 := B + S1) (eps := eps)
    as (T & HT); auto.
  - intros m [i [s a]] Hz. apply keys_In in Hz as [Hs Ha]. destruct (ONCE m i s a Hs Ha) as (j & Hj & (E1 & E2 & E3) & UN).
    exists j. split; auto. split; [unfold kupd; congruence|]. intros j' Hj' E. apply UN; auto.
    unfold kupd in E. injection E as F1 F2 F3. auto.
  - split; [lra|]. intros [i [s a]] Hz. pose proof (EB O _ Hz) as P. apply keys_In in Hz as [Hs Ha]. specialize (HS s a Hs Ha).
    eapply Rle_trans; [apply Rabs_triang|]. rewrite Rabs_Ropp. unfold star. cbn [fst snd]. lra.
  - exists T. intros t Ht i s a Hs Ha. apply (HT t Ht (i, (s, a))). apply keys_In. auto.
Qed.

(** ** Convergence fails for gamma = 9/10 *)
(** One state; action 0 is rewarded with 1, action 1 with 0.  The optimal values are 10 and 9. *)
Definition lp_env : denv := fun _ a => (match a with O => 1 | _ => 0 end, O, false).
Definition lp_sample (a : nat) : sample :=
  {| x_s := 0; x_a := a; x_r := match a with O => 1 | _ => 0 end; x_s' := 0; x_abs := false |}.

(** Which table and which action is updated, first at times 0, 1, 2, then over and over. *)
Definition lp_start : list (bool * nat) := [(true, 0); (false, 0); (false, 1)]%nat.
Definition lp_cycle : list (bool * nat) :=
  [(true, 0); (false, 1); (false, 0); (false, 1); (true, 0); (true, 1);
   (false, 0); (true, 1); (true, 0); (true, 1); (false, 0); (false, 1)]%nat.
Definition lp_move (t : nat) : bool * nat :=
  if (t <? 3)%nat then nth t lp_start (false, O) else nth ((t - 3) mod 12) lp_cycle (false, O).

(** Double Q-learning from tables of zeros (EnsembleTable(2, mdp_info.size), line 18), with
    learning rate 1; among equal maximisers the first is drawn. *)
Fixpoint lp_Q (t : nat) : table * table :=
  match t with
  | O => ([[0; 0]], [[0; 0]])
  | S t' => dq_update (9 / 10) 1 (fst (lp_move t')) 0 (lp_Q t') (lp_sample (snd (lp_move t')))
  end.

Lemma argmaxs_gt : forall x y, y < x -> argmaxs [x; y] = [0]%nat.
Proof.
  intros x y H. unfold argmaxs, qmax. cbn [length seq fold_left filter nth]. rewrite Rmax_left by lra.
  destruct (Req_EM_T x x), (Req_EM_T y x); try reflexivity; lra.
Qed.
Lemma argmaxs_lt : forall x y, x < y -> argmaxs [x; y] = [1]%nat.
Proof.
  intros x y H. unfold argmaxs, qmax. cbn [length seq fold_left filter nth]. rewrite Rmax_right by lra.
  destruct (Req_EM_T y y), (Req_EM_T x y); try reflexivity; lra.
Qed.
Lemma argmaxs_eq : forall x, argmaxs [x; x] = [0; 1]%nat.
Proof.
  intros x. unfold argmaxs, qmax. cbn [length seq fold_left filter nth]. rewrite Rmax_left by lra.
  destruct (Req_EM_T x x); try reflexivity; lra.
Qed.

Lemma pair_tab : forall a b a' b' x y x' y' : R, a = a' -> b = b' -> x = x' -> y = y' ->
  ([[a; b]], [[x; y]]) = ([[a'; b']], [[x'; y']]).
Proof. intros. subst. reflexivity. Qed.

Ltac lp_step := unfold dq_update, lp_sample, tset, tget, row; cbn [fst snd x_s x_a x_r x_s' x_abs nth setnth];
  first [rewrite argmaxs_eq | rewrite argmaxs_gt by lra | rewrite argmaxs_lt by lra];
  cbn [nth setnth]; apply pair_tab; lra.

Lemma step_up : forall u sec a v w, u = v -> dq_update (9 / 10) 1 sec 0 v (lp_sample a) = w ->
  dq_update (9 / 10) 1 sec 0 u (lp_sample a) = w.
Proof. intros. subst. auto. Qed.

(** The tables along the cycle. *)
Definition lp_state (j : nat) : table * table :=
  match j with
  | 0%nat  => ([[19/10; 9/10]], [[1; 0]])
  | 1%nat  => ([[19/10; 9/10]], [[271/100; 0]])
  | 2%nat  => ([[19/10; 2439/1000]], [[271/100; 0]])
  | 3%nat  => ([[1; 2439/1000]], [[271/100; 0]])
  | 4%nat  => ([[1; 0]], [[271/100; 0]])
  | 5%nat  => ([[1; 0]], [[19/10; 0]])
  | 6%nat  => ([[1; 0]], [[19/10; 9/10]])
  | 7%nat  => ([[271/100; 0]], [[19/10; 9/10]])
  | 8%nat  => ([[271/100; 0]], [[19/10; 2439/1000]])
  | 9%nat  => ([[271/100; 0]], [[1; 2439/1000]])
  | 10%nat => ([[271/100; 0]], [[1; 0]])
  | _ => ([[19/10; 0]], [[1; 0]])
  end.

Lemma lp_begin : lp_Q 3 = lp_state 0.
Proof.
  cbn [lp_Q]. change (lp_move 0) with (true, O). change (lp_move 1) with (false, O). change (lp_move 2) with (false, 1%nat).
  cbn [fst snd lp_state].
  apply (step_up _ _ _ ([[19/10; 0]], [[1; 0]])); [|lp_step].
  apply (step_up _ _ _ ([[0; 0]], [[1; 0]])); lp_step.
Qed.

Lemma lp_next : forall j, (j < 12)%nat ->
  dq_update (9 / 10) 1 (fst (nth j lp_cycle (false, O))) 0 (lp_state j) (lp_sample (snd (nth j lp_cycle (false, O))))
  = lp_state (S j mod 12).
Proof.
  intros j Hj.
  do 12 (destruct j as [|j]; [cbn [nth lp_cycle fst snd]; cbn [Nat.modulo Nat.divmod Nat.sub snd lp_state]; lp_step|]). lia.
Qed.

Lemma lp_cycles : forall t, lp_Q (3 + t) = lp_state (t mod 12).
Proof.
  induction t as [|t IH]; [exact lp_begin|].
  replace (3 + S t)%nat with (S (3 + t)) by lia. cbn [lp_Q]. rewrite IH.
  assert (ML : (t mod 12 < 12)%nat) by (apply Nat.mod_upper_bound; lia).
  replace (lp_move (3 + t)) with (nth (t mod 12) lp_cycle (false, O)).
  2: { unfold lp_move. replace (3 + t <? 3)%nat with false by (symmetry; apply Nat.ltb_ge; lia).
       replace (3 + t - 3)%nat with t by lia. reflexivity. }
  rewrite lp_next by exact ML. f_equal.
  rewrite <- (Nat.add_1_r (t mod 12)), Nat.add_mod_idemp_l, Nat.add_1_r by lia. reflexivity.
Qed.

Lemma lp_state_small : forall j i, tget (tab (lp_state j) i) 0 0 <= 3 /\ tget (tab (lp_state j) i) 0 1 <= 3.
Proof.
  intros j i. do 11 (destruct j as [|j]; [destruct i; cbn; lra|]). destruct i; cbn; lra.
Qed.
Lemma lp_small : forall t i a, tget (tab (lp_Q t) i) 0 a <= 3.
Proof.
  assert (H : forall t i, tget (tab (lp_Q t) i) 0 0 <= 3 /\ tget (tab (lp_Q t) i) 0 1 <= 3).
  { intros t i. destruct (le_lt_dec 3 t) as [L|L].
    - replace t with (3 + (t - 3))%nat by lia. rewrite lp_cycles. apply lp_state_small.
    - assert (A1 : lp_Q 1 = ([[0; 0]], [[1; 0]])).
      { cbn [lp_Q]. change (lp_move 0) with (true, O). cbn [fst snd]. lp_step. }
      assert (A2 : lp_Q 2 = ([[19/10; 0]], [[1; 0]])).
      { change (lp_Q 2) with (dq_update (9 / 10) 1 (fst (lp_move 1)) 0 (lp_Q 1) (lp_sample (snd (lp_move 1)))).
        rewrite A1. change (lp_move 1) with (false, O). cbn [fst snd]. lp_step. }
      destruct t as [|[|[|t]]]; [destruct i; cbn; lra|rewrite A1; destruct i; cbn; lra|rewrite A2; destruct i; cbn; lra|lia]. }
  assert (SH : forall t i, length (row (tab (lp_Q t) i) 0) = 2%nat).
  { induction t as [|t IH]; intros i; [destruct i; reflexivity|]. cbn [lp_Q]. unfold dq_update; cbv zeta.
    destruct (fst (lp_move t)), i; cbn [tab fst snd]; try apply (IH true); try apply (IH false);
      unfold tset, row; cbn [lp_sample x_s x_a]; [pose proof (IH true) as L|pose proof (IH false) as L]; cbn [tab] in L;
      (destruct (snd (lp_Q t)) as [|r l] || idtac); (destruct (fst (lp_Q t)) as [|r' l'] || idtac);
      cbn [row nth setnth length] in *; try discriminate; rewrite Common.setnth_length; exact L. }
  intros t i [|[|a]]; [apply H|apply H|]. unfold tget. rewrite nth_overflow; [lra|]. rewrite SH. lia.
Qed.

(** Any schedule of moves yields a run. *)
Fixpoint lp_run (gamma : R) (al : nat -> R) (mv : nat -> bool * nat) (t : nat) : table * table :=
  match t with
  | O => ([[0; 0]], [[0; 0]])
  | S t' => dq_update gamma (al t') (fst (mv t')) 0 (lp_run gamma al mv t') (lp_sample (snd (mv t')))
  end.
Lemma lp_Q_run : forall t, lp_Q t = lp_run (9 / 10) (fun _ => 1) lp_move t.
Proof. induction t as [|t IH]; [reflexivity|]. cbn [lp_Q lp_run]. rewrite IH. reflexivity. Qed.

Lemma lp_is_run : forall gamma al mv, (forall t, 0 <= al t <= 1) -> (forall t, (snd (mv t) < 2)%nat) ->
  dq_run 1 [O] 2 gamma lp_env al (fun t => fst (mv t)) (fun _ => O) (fun t => lp_sample (snd (mv t))) (lp_run gamma al mv).
Proof.
  intros gamma al mv HA HM.
  assert (Z : shaped 1 2 [[0; 0]]) by (split; [reflexivity|intros r [<-|[]]; reflexivity]).
  assert (SH : forall t i, shaped 1 2 (tab (lp_run gamma al mv t) i)).
  { induction t as [|t IH]; intros i; [destruct i; exact Z|]. cbn [lp_run]. unfold dq_update; cbv zeta.
    pose proof (IH false) as I1. pose proof (IH true) as I2. cbn [tab] in I1, I2.
    destruct (fst (mv t)), i; cbn [tab fst snd]; auto using tset_shaped. }
  split; [exact Z|]. split; [exact Z|]. intros t. split; [apply HA|]. split; [|split; [|reflexivity]].
  - split; [left; reflexivity|]. split; [apply HM|]. reflexivity.
  - intros _. cbn [lp_sample x_s']. pose proof (row_length 1 2 _ O (SH t (fst (mv t))) ltac:(lia)) as LR.
    set (r := row _ _) in *. assert (NE : r <> []) by (intros E; rewrite E in LR; discriminate).
    destruct (qmax_nth r NE) as (a & La & Ea).
    assert (I : In a (argmaxs r)).
    { unfold argmaxs. apply filter_In. split; [apply in_seq; lia|]. destruct (Req_EM_T _ _); [reflexivity|contradiction]. }
    destruct (argmaxs r); [destruct I|cbn; lia].
Qed.

Lemma lp_env_ok : closed [O] 2 lp_env.
Proof. intros s a Hs Ha _. left. reflexivity. Qed.
Lemma lp_optimal : forall gamma, 0 <= gamma < 1 ->
  optimal_values [O] 2 gamma lp_env (fun _ a => match a with O => 1 + gamma / (1 - gamma) | _ => gamma / (1 - gamma) end).
Proof.
  intros gamma G s a [<-|[]] Ha. exists (1 + gamma / (1 - gamma)). split.
  - destruct a as [|a]; cbn; field; lra.
  - split; [discriminate|]. intros _. split; [exists O; split; [lia|reflexivity]|]. intros b Hb. destruct b; lra.
Qed.

Lemma rsum_part : forall (f : nat -> R) l, (forall x, 0 <= f x) -> 0 <= rsum (map f l) /\ forall x, In x l -> f x <= rsum (map f l).
Proof.
  intros f l F. induction l as [|y l [IH1 IH2]]; cbn [map rsum]; [split; [lra|intros x []]|].
  pose proof (F y). split; [lra|]. intros x [<-|H']; [lra|]. specialize (IH2 x H'). lra.
Qed.

(** A schedule that keeps coming back, within every [p] moves, to each entry of each table. *)
Lemma lp_rates : forall mv o p, (forall i a, (a < 2)%nat -> exists j, (j < p)%nat /\ forall m, mv (o + m * p + j)%nat = (i, a)) ->
  both_rates_diverge [O] 2 (fun _ => 1) (fun t => fst (mv t)) (fun t => lp_sample (snd (mv t))).
Proof.
  intros mv o p HP i s a [<-|[]] Ha M. destruct (HP i a Ha) as (j & Hj & HM).
  set (f := fun t => if Bool.eqb (fst (mv t)) i && pair_eqb (x_s (lp_sample (snd (mv t))), x_a (lp_sample (snd (mv t)))) (O, a) then 1 else 0).
  assert (F : forall t, 0 <= f t) by (intros t; unfold f; destruct (_ && _); lra).
  assert (K : forall m, INR m <= rsum (map f (seq 0 (o + m * p)))).
  { induction m as [|m IH]; [apply rsum_part; exact F|].
    replace (o + S m * p)%nat with ((o + m * p) + p)%nat by (cbn [Nat.mul]; lia).
    rewrite seq_app, map_app, rsum_app, S_INR. cbn [plus].
    destruct (rsum_part f (seq (o + m * p) p) F) as [_ P].
    specialize (P (o + m * p + j)%nat ltac:(apply in_seq; lia)).
    assert (f (o + m * p + j)%nat = 1).
    { unfold f. rewrite HM. cbn [fst snd lp_sample x_s x_a]. rewrite eqb_reflx, (proj2 (pair_eqb_spec _ _)) by reflexivity. reflexivity. }
    lra. }
  assert (UB : exists m, M < INR m).
  { exists (Z.to_nat (up M)). destruct (archimed M) as [A _]. destruct (Z_le_dec 0 (up M)) as [P|P].
    - rewrite INR_IZR_INZ, Z2Nat.id by exact P. lra.
    - assert (IZR (up M) < 0) by (apply IZR_lt; lia). pose proof (pos_INR (Z.to_nat (up M))). lra. }
  destruct UB as (m & Hm). exists (o + m * p)%nat. specialize (K m). unfold rates_of_half. fold f. lra.
Qed.

(** Both tables start at zero and every entry of both is updated again and again with rate 1,
    and yet all their entries stay at least 6 below the optimal values for ever. *)
Theorem double_q_convergence_refuted : exists n lv k gamma e q al sec c xs Q,
  0 <= gamma < 1 /\ (forall s, In s lv -> (s < n)%nat) /\ closed lv k e /\ optimal_values lv k gamma e q /\
  Q O = (tconst n k 0, tconst n k 0) /\ dq_run n lv k gamma e al sec c xs Q /\ both_rates_diverge lv k al sec xs /\
  In O lv /\ (1 <= k)%nat /\
  forall t i s a, In s lv -> (a < k)%nat -> tget (tab (Q t) i) s a + 6 <= q s a.
Proof.
  exists 1%nat, [O], 2%nat, (9 / 10), lp_env,
    (fun _ a => match a with O => 1 + 9 / 10 / (1 - 9 / 10) | _ => 9 / 10 / (1 - 9 / 10) end),
    (fun _ => 1), (fun t => fst (lp_move t)), (fun _ => O), (fun t => lp_sample (snd (lp_move t))), (lp_run (9 / 10) (fun _ => 1) lp_move).
  split; [lra|]. split; [intros s [<-|[]]; lia|]. split; [exact lp_env_ok|]. split; [apply lp_optimal; lra|].
  split; [reflexivity|]. split; [|split; [|split; [left; reflexivity|split; [lia|]]]].
  - apply lp_is_run; [intros; lra|]. intros t. unfold lp_move. destruct (t <? 3)%nat eqn:L.
    + apply Nat.ltb_lt in L. do 3 (destruct t as [|t]; [cbn; lia|]). lia.
    + assert (ML : ((t - 3) mod 12 < 12)%nat) by (apply Nat.mod_upper_bound; lia).
      set (j := ((t - 3) mod 12)%nat) in *. do 12 (destruct j as [|j]; [cbn; lia|]). lia.
  - apply (lp_rates lp_move 3 12).
    assert (MV : forall m j, (j < 12)%nat -> lp_move (3 + m * 12 + j) = nth j lp_cycle (false, O)).
    { intros m j Hj. unfold lp_move. replace (3 + m * 12 + j <? 3)%nat with false by (symmetry; apply Nat.ltb_ge; lia).
      replace (3 + m * 12 + j - 3)%nat with (j + m * 12)%nat by lia. rewrite Nat.mod_add, Nat.mod_small by lia. reflexivity. }
    intros [|] [|[|a]] Ha; try lia;
      [exists 0%nat|exists 5%nat|exists 2%nat|exists 1%nat]; (split; [lia|]); intros m; rewrite MV by lia; reflexivity.
  - intros t i s a [<-|[]] Ha. rewrite <- lp_Q_run. pose proof (lp_small t i a).
    assert (9 / 10 / (1 - 9 / 10) = 9) by lra. destruct a; lra.
Qed.

(** ** A concrete case: gamma = 1/4, the four entries updated in turn. *)
Definition turn (t : nat) : bool * nat := (Nat.eqb ((t / 2) mod 2) 1, t mod 2)%nat.
Example double_q_ex : forall eps, 0 < eps -> exists T, forall t, (T <= t)%nat ->
  Rabs (tget (fst (lp_run (1 / 4) (fun _ => 1) turn t)) 0 0 - 4 / 3) < eps /\ Rabs (tget (snd (lp_run (1 / 4) (fun _ => 1) turn t)) 0 1 - 1 / 3) < eps.
Proof.
  intros eps He.
  destruct (double_q_converges 1 [O] 2 (1 / 4) lp_env _ (fun _ => 1) (fun t => fst (turn t)) (fun _ => O)
     (fun t => lp_sample (snd (turn t))) (lp_run (1 / 4) (fun _ => 1) turn) ltac:(lra) ltac:(intros s [<-|[]]; lia) lp_env_ok
     (lp_optimal (1 / 4) ltac:(lra))) as [CV _].
  - apply lp_is_run; [intros; lra|]. intros t. apply Nat.mod_upper_bound. lia.
  - apply (lp_rates turn 0 4).
    assert (MV : forall m j, (j < 4)%nat -> turn (0 + m * 4 + j) = turn j).
    { intros m j Hj. unfold turn. replace (0 + m * 4 + j)%nat with (j + (m * 2) * 2)%nat by lia.
      rewrite Nat.div_add, Nat.mod_add, Nat.mod_add by lia. reflexivity. }
    intros [|] [|[|a]] Ha; try lia;
      [exists 2%nat|exists 3%nat|exists 0%nat|exists 1%nat]; (split; [lia|]); intros m; rewrite MV by lia; reflexivity.
  - destruct (CV eps He) as (T & HT). exists T. intros t Ht.
    pose proof (HT t Ht false O O (or_introl eq_refl) ltac:(lia)) as A.
    pose proof (HT t Ht true O 1%nat (or_introl eq_refl) ltac:(lia)) as B. cbn [tab] in A, B.
    replace (4 / 3) with (1 + 1 / 4 / (1 - 1 / 4)) by lra. replace (1 / 3) with (1 / 4 / (1 - 1 / 4)) by lra.
    split; assumption.
Qed.

(** gamma = 9/10, the four entries in turn, rate 1 / m in the m-th sweep. *)
Lemma harmonic : forall M, exists N, M <= rsum (map (fun m => / INR (S m)) (seq 0 N)).
Proof.
  intros M.
  assert (K : forall N, ln (INR (S N)) <= rsum (map (fun m => / INR (S m)) (seq 0 N))).
  { induction N as [|N IH]; [cbn [seq map rsum]; change (INR 1) with 1; rewrite ln_1; lra|].
    rewrite seq_S, map_app, rsum_app. cbn [map rsum plus]. rewrite (S_INR (S N)).
    assert (I0 : 0 < INR (S N)) by (apply lt_0_INR; lia). assert (I1 : 0 < / INR (S N)) by (apply Rinv_0_lt_compat; lra).
    replace (INR (S N) + 1) with (INR (S N) * (1 + / INR (S N))) by (field; lra). rewrite ln_mult by lra.
    assert (ln (1 + / INR (S N)) < / INR (S N)); [|lra].
    rewrite <- (ln_exp (/ INR (S N))) at 2. apply ln_increasing; [lra|]. apply exp_ineq1. lra. }
  destruct (archimed (exp M)) as [A _]. pose proof (exp_pos M) as P.
  assert (U : (0 <= up (exp M))%Z) by (apply le_IZR; lra).
  exists (Z.to_nat (up (exp M))). eapply Rle_trans; [|apply K].
  rewrite <- (ln_exp M) at 1. apply Rlt_le, ln_increasing; [exact P|].
  rewrite S_INR, INR_IZR_INZ, Z2Nat.id by exact U. lra.
Qed.

Example double_q_sweeps_ex : forall eps, 0 < eps -> exists T, forall t, (T <= t)%nat ->
  Rabs (tget (fst (lp_run (9 / 10) (fun t => / INR (S (t / 4))) turn t)) 0 0 - 10) < eps.
Proof.
  intros eps He.
  assert (RG : forall m, 0 < / INR (S m) <= 1).
  { intros m. assert (1 <= INR (S m)) by (rewrite S_INR; pose proof (pos_INR m); lra).
    split; [apply Rinv_0_lt_compat; lra|]. rewrite <- Rinv_1. apply Rinv_le_contravar; lra. }
  destruct (double_q_sweeps_converge 1 [O] 2 (9 / 10) lp_env _ (fun t => / INR (S (t / 4))) (fun t => fst (turn t)) (fun _ => O)
     (fun t => lp_sample (snd (turn t))) (lp_run (9 / 10) (fun t => / INR (S (t / 4))) turn) 4 (fun m => / INR (S m))
     ltac:(lra) ltac:(intros s [<-|[]]; lia) lp_env_ok (lp_optimal (9 / 10) ltac:(lra))) with (eps := eps) as (T & HT).
  - apply lp_is_run; [intros; specialize (RG (t / 4)%nat); lra|]. intros t. apply Nat.mod_upper_bound. lia.
  - reflexivity.
  - assert (MV : forall m j, (j < 4)%nat -> turn (m * 4 + j) = turn j).
    { intros m j Hj. unfold turn. replace (m * 4 + j)%nat with (j + (m * 2) * 2)%nat by lia.
      rewrite Nat.div_add, Nat.mod_add, Nat.mod_add by lia. reflexivity. }
    intros m i s a [<-|[]] Ha. exists (2 * (if i then 1 else 0) + a)%nat. split; [destruct i; lia|].
    split.
    + rewrite MV by (destruct i; lia). destruct i, a as [|[|a]]; try lia; repeat split; reflexivity.
    + intros j' Hj' (E1 & _ & E3). rewrite MV in E1, E3 by lia. cbn [lp_sample x_a] in E3.
      destruct j' as [|[|[|[|j']]]]; try lia; destruct i, a as [|[|a]]; try lia; cbn in E1, E3; try discriminate; reflexivity.
  - intros x Hx. destruct (archimed (/ x)) as [A _]. assert (P : 0 < / x) by (apply Rinv_0_lt_compat; lra).
    assert (U : (0 <= up (/ x))%Z) by (apply le_IZR; lra).
    exists (Z.to_nat (up (/ x))). intros m Hm. rewrite <- (Rinv_inv x).
    apply Rinv_lt_contravar; [apply Rmult_lt_0_compat; [exact P|apply lt_0_INR; lia]|].
    apply le_INR in Hm. rewrite INR_IZR_INZ, Z2Nat.id in Hm by exact U. rewrite S_INR. lra.
  - exact harmonic.
  - exact He.
  - exists T. intros t Ht. pose proof (HT t Ht false O O (or_introl eq_refl) ltac:(lia)) as A. cbn [tab] in A.
    replace (1 + 9 / 10 / (1 - 9 / 10)) with 10 in A by lra. exact A.
Qed.

(** The tables of the counterexample over its first moves. *)
Example double_q_stuck_ex : lp_Q 3 = ([[19/10; 9/10]], [[1; 0]]) /\ lp_Q 9 = ([[1; 0]], [[19/10; 9/10]]) /\
  lp_Q 15 = ([[19/10; 9/10]], [[1; 0]]).
Proof.
  split; [exact lp_begin|]. split; [exact (lp_cycles 6)|exact (lp_cycles 12)].
Qed.

Print Assumptions double_q_no_overestimation.
Print Assumptions double_q_converges.
Print Assumptions double_q_limits_optimal.
Print Assumptions double_q_basin.
Print Assumptions double_q_sweeps_converge.
Print Assumptions double_q_convergence_refuted.

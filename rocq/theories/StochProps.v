(** C113: tabular learning in stochastic environments. *)
From Coq Require Import List Arith Lia Bool Reals Lra ZArith.
From Verif Require Import Common PolicyModel PolicySpec PolicyProofs TdModel TdSpec TdProofs ConvProps StochSpec StochProofs.
Import ListNotations.
Local Open Scope R_scope.

(** ** Weighted sums *)
Lemma wsum_close : forall {A} (l : list A) (p f g : A -> R) E, (forall b, In b l -> 0 <= p b) ->
  (forall b, In b l -> Rabs (f b - g b) <= E) ->
  Rabs (rsum (map (fun b => p b * f b) l) - rsum (map (fun b => p b * g b) l)) <= E * rsum (map p l).
Proof.
  intros A. induction l as [|b l IH]; intros p f g E Hp H; cbn [map rsum].
  - rewrite Rminus_0_r, Rabs_R0. lra.
  - specialize (IH p f g E (fun c Hc => Hp c (or_intror Hc)) (fun c Hc => H c (or_intror Hc))).
    match goal with |- Rabs (?a + ?x - (?c + ?y)) <= _ => replace (a + x - (c + y)) with (p b * (f b - g b) + (x - y)) by ring end.
    eapply Rle_trans; [apply Rabs_triang|]. rewrite Rabs_mult, (Rabs_pos_eq (p b)) by (apply Hp; left; auto).
    assert (p b * Rabs (f b - g b) <= p b * E).
    { apply Rmult_le_compat_l; [apply Hp; left; auto|apply H; left; auto]. }
    lra.
Qed.

Lemma wsum_le : forall {A} (l : list A) (p f g : A -> R), (forall b, In b l -> 0 <= p b) ->
  (forall b, In b l -> f b <= g b) -> rsum (map (fun b => p b * f b) l) <= rsum (map (fun b => p b * g b) l).
Proof.
  intros A. induction l as [|b l IH]; intros p f g Hp H; cbn [map rsum]; [lra|].
  specialize (IH p f g (fun c Hc => Hp c (or_intror Hc)) (fun c Hc => H c (or_intror Hc))).
  pose proof (Rmult_le_compat_l (p b) _ _ (Hp b (or_introl eq_refl)) (H b (or_introl eq_refl))). lra.
Qed.

Lemma rsum_map_lin : forall {A} (l : list A) (f : A -> R) c, rsum (map (fun b => f b * c) l) = rsum (map f l) * c.
Proof. intros A l f c. induction l as [|b l IH]; cbn [map rsum]; [ring|rewrite IH; ring]. Qed.

Lemma map_index : forall {A B} (f : A -> B) d (l : list A), map f l = map (fun j => f (nth j l d)) (seq 0 (length l)).
Proof.
  intros A B f d. induction l as [|x l IH]; [reflexivity|]. cbn [map length seq nth]. f_equal.
  rewrite <- seq_shift, map_map. exact IH.
Qed.

(** ** Contractions have fixed points *)
Section Fix.
Variable gamma : R.
Hypothesis G : 0 <= gamma < 1.
Variable op : (nat -> nat -> R) -> nat -> nat -> R.
Hypothesis OP : forall q q' E, 0 <= E -> (forall s a, Rabs (q s a - q' s a) <= E) ->
  forall s a, Rabs (op q s a - op q' s a) <= gamma * E.
Fixpoint it (m : nat) : nat -> nat -> R := match m with O => fun _ _ => 0 | S m' => op (it m') end.
Variable B : R.
Hypothesis B0 : 0 <= B.
Hypothesis HB : forall s a, Rabs (it 1 s a) <= B.

Lemma it_bound : forall m s a, Rabs (it (S m) s a - it m s a) <= gamma ^ m * B.
Proof.
  induction m as [|m IH]; intros s a.
  - rewrite pow_O, Rmult_1_l. change (it 0 s a) with 0. rewrite Rminus_0_r. apply HB.
  - change (it (S (S m))) with (op (it (S m))). change (it (S m) s a) with (op (it m) s a). cbn [pow].
    rewrite Rmult_assoc. apply OP; auto. apply Rmult_le_pos; [apply pow_le|]; lra.
Qed.

Lemma it_tail : forall m p s a, Rabs (it (m + p) s a - it m s a) <= gamma ^ m * (B / (1 - gamma)).
Proof.
  assert (D : 0 < 1 - gamma) by lra. intros m p s a.
  assert (K : Rabs (it (m + p) s a - it m s a) <= gamma ^ m * (B * (1 - gamma ^ p) / (1 - gamma))).
  { induction p as [|p IH].
    - rewrite Nat.add_0_r, Rminus_diag_eq, Rabs_R0 by auto. rewrite pow_O.
      replace (gamma ^ m * (B * (1 - 1) / (1 - gamma))) with 0; [lra|field; lra].
    - replace (m + S p)%nat with (S (m + p)) by lia.
      replace (it (S (m + p)) s a - it m s a) with
        ((it (S (m + p)) s a - it (m + p) s a) + (it (m + p) s a - it m s a)) by ring.
      eapply Rle_trans; [apply Rabs_triang|]. pose proof (it_bound (m + p)%nat s a) as H1. rewrite pow_add in H1.
      replace (gamma ^ m * (B * (1 - gamma ^ S p) / (1 - gamma)))
        with (gamma ^ m * gamma ^ p * B + gamma ^ m * (B * (1 - gamma ^ p) / (1 - gamma))); [lra|].
      cbn [pow]. field. lra. }
  eapply Rle_trans; [exact K|]. apply Rmult_le_compat_l; [apply pow_le; lra|].
  unfold Rdiv. apply Rmult_le_compat_r; [apply Rlt_le, Rinv_0_lt_compat; lra|].
  assert (0 <= gamma ^ p) by (apply pow_le; lra). nra.
Qed.

Lemma C0 : 0 <= B / (1 - gamma).
Proof. apply Rmult_le_pos; [lra|apply Rlt_le, Rinv_0_lt_compat; lra]. Qed.

Lemma it_cauchy : forall s a, Cauchy_crit (fun m => it m s a).
Proof.
  intros s a eps He. destruct (gpow_small gamma G (B / (1 - gamma)) (eps / 2) C0) as (N & HN); [lra|].
  exists N. intros i j Hi Hj. unfold R_dist.
  pose proof (it_tail N (i - N)%nat s a) as X. replace (N + (i - N))%nat with i in X by lia.
  pose proof (it_tail N (j - N)%nat s a) as Y. replace (N + (j - N))%nat with j in Y by lia.
  specialize (HN N (Nat.le_refl _)).
  replace (it i s a - it j s a) with ((it i s a - it N s a) - (it j s a - it N s a)) by ring.
  eapply Rle_lt_trans; [apply Rabs_triang|]. rewrite Rabs_Ropp. lra.
Qed.
Definition lim_it (s a : nat) : R := proj1_sig (R_complete _ (it_cauchy s a)).

Lemma lim_tail : forall m s a, Rabs (lim_it s a - it m s a) <= gamma ^ m * (B / (1 - gamma)).
Proof.
  intros m s a. unfold lim_it. destruct (R_complete _ (it_cauchy s a)) as [l Hl]. cbn [proj1_sig].
  apply Rnot_lt_le. intros L. destruct (Hl (Rabs (l - it m s a) - gamma ^ m * (B / (1 - gamma)))) as (N & HN); [lra|].
  specialize (HN (m + N)%nat ltac:(lia)). unfold R_dist in HN. pose proof (it_tail m N s a) as HC.
  assert (Rabs (l - it m s a) <= Rabs (it (m + N) s a - l) + Rabs (it (m + N) s a - it m s a)); [|lra].
  replace (l - it m s a) with (- (it (m + N) s a - l) + (it (m + N) s a - it m s a)) by ring.
  eapply Rle_trans; [apply Rabs_triang|]. rewrite Rabs_Ropp. lra.
Qed.

Lemma lim_fix : forall s a, lim_it s a = op lim_it s a.
Proof.
  intros s a. apply cond_eq. intros eps He. destruct (gpow_small gamma G (B / (1 - gamma)) (eps / 2) C0) as (N & HN); [lra|].
  replace (lim_it s a - op lim_it s a) with ((lim_it s a - it (S N) s a) + (op (it N) s a - op lim_it s a)) by (cbn [it]; ring).
  eapply Rle_lt_trans; [apply Rabs_triang|].
  pose proof (lim_tail (S N) s a) as X. pose proof (HN (S N) ltac:(lia)) as X'. pose proof (HN N ltac:(lia)) as Y'.
  assert (Y : Rabs (op (it N) s a - op lim_it s a) <= gamma * (gamma ^ N * (B / (1 - gamma)))).
  { apply OP; [apply Rmult_le_pos; [apply pow_le; lra|apply C0]|]. intros s0 a0. rewrite Rabs_minus_sym. apply lim_tail. }
  cbn [pow] in X, X'. rewrite <- Rmult_assoc in Y. lra.
Qed.
End Fix.

(** ** Optimal values *)
Section Opt.
Variable lv : list nat.
Variable k : nat.
Variable gamma : R.
Variable e : senv.
Hypothesis G : 0 <= gamma < 1.
Hypothesis K1 : (1 <= k)%nat.
Hypothesis OKE : senv_ok lv k e.

Definition nextv (v : nat -> R) (o : outcome) : R := if o_abs o then 0 else v (o_s o).
Definition backup (v : nat -> R) (s a : nat) : R := rsum (map (fun o => o_p o * (o_r o + gamma * nextv v o)) (e s a)).

Lemma backup_close : forall v v' E s a, In s lv -> (a < k)%nat -> 0 <= E -> (forall s', In s' lv -> Rabs (v s' - v' s') <= E) ->
  Rabs (backup v s a - backup v' s a) <= gamma * E.
Proof.
  intros v v' E s a Hs Ha E0 H. destruct (OKE s a Hs Ha) as [O1 O2]. unfold backup.
  eapply Rle_trans; [apply (wsum_close (e s a) o_p (fun o => o_r o + gamma * nextv v o) (fun o => o_r o + gamma * nextv v' o) (gamma * E))|rewrite O2; lra].
  - intros o Ho. apply O1, Ho.
  - intros o Ho. replace (o_r o + gamma * nextv v o - (o_r o + gamma * nextv v' o)) with (gamma * (nextv v o - nextv v' o)) by ring.
    rewrite Rabs_mult, Rabs_pos_eq by lra. apply Rmult_le_compat_l; [lra|]. unfold nextv.
    destruct (o_abs o) eqn:A; [rewrite Rminus_diag_eq, Rabs_R0 by auto; lra|]. apply H. apply (O1 o Ho). exact A.
Qed.

Theorem stochastic_optimum_unique : forall q q', s_optimal lv k gamma e q -> s_optimal lv k gamma e q' ->
  forall s a, In s lv -> (a < k)%nat -> q s a = q' s a.
Proof.
  intros q q' (v & V & Q) (v' & V' & Q'). destruct (finite_bound lv k K1 (fun s a => q s a - q' s a)) as (B & B0 & HB).
  assert (K : forall m s a, In s lv -> (a < k)%nat -> Rabs (q s a - q' s a) <= gamma ^ m * B).
  { induction m as [|m IH]; intros s a Hs Ha; [rewrite pow_O, Rmult_1_l; auto|].
    rewrite (Q s a Hs Ha), (Q' s a Hs Ha). cbn [pow]. rewrite Rmult_assoc.
    apply (backup_close v v'); auto; [apply Rmult_le_pos; [apply pow_le|]; lra|].
    intros s' Hs'. apply (is_max_close k (q s') (q' s')); auto. }
  intros s a Hs Ha. apply cond_eq. intros eps He. destruct (gpow_small gamma G B eps B0 He) as (m & Hm).
  eapply Rle_lt_trans; [apply (K m); auto|]. apply Hm. lia.
Qed.

Definition sop (q : nat -> nat -> R) (s a : nat) : R :=
  if existsb (Nat.eqb s) lv && (a <? k)%nat then backup (fun s' => qmax (map (q s') (seq 0 k))) s a else 0.

Theorem stochastic_optimum_exists : exists q, s_optimal lv k gamma e q.
Proof.
  assert (IFF : forall s a, existsb (Nat.eqb s) lv && (a <? k)%nat = true <-> In s lv /\ (a < k)%nat).
  { intros s a. rewrite andb_true_iff, live_In, Nat.ltb_lt. tauto. }
  assert (OP : forall q q' E, 0 <= E -> (forall s a, Rabs (q s a - q' s a) <= E) ->
    forall s a, Rabs (sop q s a - sop q' s a) <= gamma * E).
  { intros q q' E E0 H s a. unfold sop. destruct (existsb (Nat.eqb s) lv && (a <? k)%nat) eqn:C.
    - apply IFF in C as [Hs Ha]. apply backup_close; auto. intros s' _.
      apply (is_max_close k (q s') (q' s')); auto using qmax_is_max.
    - rewrite Rminus_diag_eq, Rabs_R0 by auto. apply Rmult_le_pos; lra. }
  destruct (finite_bound lv k K1 (it sop 1)) as (B & B0 & HB).
  assert (HB' : forall s a, Rabs (it sop 1 s a) <= B).
  { intros s a. destruct (existsb (Nat.eqb s) lv && (a <? k)%nat) eqn:C; [apply IFF in C as [Hs Ha]; auto|].
    cbn [it]. unfold sop. rewrite C, Rabs_R0. exact B0. }
  set (q := lim_it gamma G sop OP B B0 HB'). exists q. exists (fun s => qmax (map (q s) (seq 0 k))). split.
  - intros s _. apply qmax_is_max, K1.
  - intros s a Hs Ha. unfold q at 1. rewrite lim_fix. fold q. unfold sop. rewrite (proj2 (IFF s a) (conj Hs Ha)). reflexivity.
Qed.

(** Each optimal value is the supremum of the expected returns of the plans that start with the
    pair; a plan may react to everything that has happened. *)
Theorem stochastic_optimum_is_return : forall q, s_optimal lv k gamma e q -> exists B, 0 <= B /\
  forall s a, In s lv -> (a < k)%nat ->
    (forall m cont, plan_ok k (S m) (Do a cont) -> eret gamma e (Do a cont) s <= q s a + gamma ^ S m * B) /\
    (forall m, exists cont, plan_ok k (S m) (Do a cont) /\ q s a - gamma ^ S m * B <= eret gamma e (Do a cont) s).
Proof.
  intros q (v & V & Q). destruct (finite_bound lv k K1 q) as (B & B0 & HB). exists B. split; auto.
  assert (GP : forall m, 0 <= gamma ^ m * B) by (intros; apply Rmult_le_pos; [apply pow_le|]; lra).
  assert (VB : forall s, In s lv -> - B <= v s <= B).
  { intros s Hs. destruct (V s Hs) as [(b & Hb & <-) _]. specialize (HB s b Hs Hb). split.
    - pose proof (Rle_abs (- q s b)) as Z. rewrite Rabs_Ropp in Z. lra.
    - pose proof (Rle_abs (q s b)). lra. }
  (* the return of a plan and the optimal value, outcome by outcome *)
  assert (QE : forall s a, In s lv -> (a < k)%nat -> q s a = rsum (map (fun j => let o := nth j (e s a) o_dflt in
      o_p o * (o_r o + gamma * nextv v o)) (seq 0 (length (e s a))))).
  { intros s a Hs Ha. rewrite (Q s a Hs Ha). rewrite (map_index _ o_dflt). reflexivity. }
  assert (SH : forall s a c, In s lv -> (a < k)%nat -> rsum (map (fun j => let o := nth j (e s a) o_dflt in
      o_p o * (o_r o + gamma * nextv v o + c)) (seq 0 (length (e s a)))) = q s a + c).
  { intros s a c Hs Ha. rewrite (QE s a Hs Ha). destruct (OKE s a Hs Ha) as [_ O2].
    rewrite (map_index _ o_dflt) in O2.
    rewrite (rsum_map_ext _ _ (fun j => o_p (nth j (e s a) o_dflt) * (o_r (nth j (e s a) o_dflt) + gamma * nextv v (nth j (e s a) o_dflt)) + o_p (nth j (e s a) o_dflt) * c)).
    2: { intros j _. cbv zeta. ring. }
    rewrite rsum_map_plus. cbv zeta. rewrite (rsum_map_lin (seq 0 (length (e s a))) (fun j => o_p (nth j (e s a) o_dflt)) c), O2. ring. }
  assert (PO : forall s a j, In s lv -> (a < k)%nat -> In j (seq 0 (length (e s a))) ->
     0 <= o_p (nth j (e s a) o_dflt) /\ (o_abs (nth j (e s a) o_dflt) = false -> In (o_s (nth j (e s a) o_dflt)) lv)).
  { intros s a j Hs Ha Hj. apply in_seq in Hj. destruct (OKE s a Hs Ha) as [O1 _]. apply O1, nth_In. lia. }
  assert (UP : forall m p s, In s lv -> plan_ok k m p -> eret gamma e p s <= v s + gamma ^ m * B).
  { induction m as [|m IH]; intros [|a cont] s Hs OK; cbn [plan_ok] in OK; try contradiction.
    - cbn [eret]. rewrite pow_O. specialize (VB s Hs). lra.
    - destruct OK as [Ha OK]. destruct (V s Hs) as [_ Mx]. apply Rle_trans with (q s a + gamma ^ S m * B); [|specialize (Mx a Ha); lra].
      rewrite <- (SH s a _ Hs Ha). cbn [eret].
      apply (wsum_le _ (fun j => o_p (nth j (e s a) o_dflt))); [intros j Hj; apply (PO s a j Hs Ha Hj)|].
      intros j Hj. cbv zeta. destruct (PO s a j Hs Ha Hj) as [_ L]. unfold nextv. pose proof (GP (S m)) as GS. cbn [pow] in *.
      destruct (o_abs (nth j (e s a) o_dflt)); [lra|].
      specialize (IH (cont j) _ (L eq_refl) (OK j)). apply (Rmult_le_compat_l gamma) in IH; lra. }
  assert (LO : forall m s, In s lv -> exists p, plan_ok k m p /\ v s - gamma ^ m * B <= eret gamma e p s).
  { induction m as [|m IH]; intros s Hs.
    - exists Stop. split; [exact I|]. cbn [eret]. rewrite pow_O. specialize (VB s Hs). lra.
    - destruct (V s Hs) as [(a & Ha & Ea) _].
      assert (CH : forall l : list nat, (forall j, In j l -> In j (seq 0 (length (e s a)))) -> exists cont, forall j, plan_ok k m (cont j) /\
        (In j l -> o_abs (nth j (e s a) o_dflt) = false -> v (o_s (nth j (e s a) o_dflt)) - gamma ^ m * B <= eret gamma e (cont j) (o_s (nth j (e s a) o_dflt)))).
      { induction l as [|j l IHl]; intros HI.
        - destruct (IH s Hs) as (p & Hp & _). exists (fun _ => p). intros j. split; [exact Hp|intros []].
        - destruct IHl as (cont & HC); [intros i Hi; apply HI; right; exact Hi|].
          destruct (o_abs (nth j (e s a) o_dflt)) eqn:A.
          + exists cont. intros i. split; [apply HC|]. intros [<-|Hi] Ab; [congruence|apply HC; auto].
          + destruct (PO s a j Hs Ha (HI j (or_introl eq_refl))) as [_ L]. destruct (IH _ (L A)) as (p & Hp & Lp).
            exists (fun i => if Nat.eqb i j then p else cont i). intros i. destruct (Nat.eqb i j) eqn:EI.
            * apply Nat.eqb_eq in EI. subst i. split; [exact Hp|]. intros _ _. exact Lp.
            * split; [apply HC|]. intros [<-|Hi] Ab; [rewrite Nat.eqb_refl in EI; discriminate|apply HC; auto]. }
      destruct (CH (seq 0 (length (e s a))) (fun j H => H)) as (cont & HC).
      exists (Do a cont). split; [split; [exact Ha|intros j; apply HC]|]. rewrite <- Ea.
      replace (q s a - gamma ^ S m * B) with (q s a + - (gamma ^ S m * B)) by ring. rewrite <- (SH s a _ Hs Ha). cbn [eret].
      apply (wsum_le _ (fun j => o_p (nth j (e s a) o_dflt))); [intros j Hj; apply (PO s a j Hs Ha Hj)|].
      intros j Hj. cbv zeta. unfold nextv. pose proof (GP (S m)) as GS. cbn [pow] in *.
      destruct (HC j) as [_ L]. destruct (o_abs (nth j (e s a) o_dflt)) eqn:A; [lra|].
      specialize (L Hj eq_refl). apply (Rmult_le_compat_l gamma) in L; lra. }
  intros s a Hs Ha. split.
  - intros m cont [_ OK]. rewrite <- (SH s a _ Hs Ha). cbn [eret].
    apply (wsum_le _ (fun j => o_p (nth j (e s a) o_dflt))); [intros j Hj; apply (PO s a j Hs Ha Hj)|].
    intros j Hj. cbv zeta. destruct (PO s a j Hs Ha Hj) as [_ L]. unfold nextv. pose proof (GP (S m)) as GS. cbn [pow] in *.
    destruct (o_abs (nth j (e s a) o_dflt)); [lra|].
    pose proof (UP m (cont j) _ (L eq_refl) (OK j)) as U. apply (Rmult_le_compat_l gamma) in U; lra.
  - intros m.
    assert (CH : forall l : list nat, (forall j, In j l -> In j (seq 0 (length (e s a)))) -> exists cont, forall j, plan_ok k m (cont j) /\
      (In j l -> o_abs (nth j (e s a) o_dflt) = false -> v (o_s (nth j (e s a) o_dflt)) - gamma ^ m * B <= eret gamma e (cont j) (o_s (nth j (e s a) o_dflt)))).
    { induction l as [|j l IHl]; intros HI.
      - destruct (LO m s Hs) as (p & Hp & _). exists (fun _ => p). intros j. split; [exact Hp|intros []].
      - destruct IHl as (cont & HC); [intros i Hi; apply HI; right; exact Hi|].
        destruct (o_abs (nth j (e s a) o_dflt)) eqn:A.
        + exists cont. intros i. split; [apply HC|]. intros [<-|Hi] Ab; [congruence|apply HC; auto].
        + destruct (PO s a j Hs Ha (HI j (or_introl eq_refl))) as [_ L]. destruct (LO m _ (L A)) as (p & Hp & Lp).
          exists (fun i => if Nat.eqb i j then p else cont i). intros i. destruct (Nat.eqb i j) eqn:EI.
          * apply Nat.eqb_eq in EI. subst i. split; [exact Hp|]. intros _ _. exact Lp.
          * split; [apply HC|]. intros [<-|Hi] Ab; [rewrite Nat.eqb_refl in EI; discriminate|apply HC; auto]. }
    destruct (CH (seq 0 (length (e s a))) (fun j H => H)) as (cont & HC).
    exists cont. split; [split; [exact Ha|intros j; apply HC]|].
    replace (q s a - gamma ^ S m * B) with (q s a + - (gamma ^ S m * B)) by ring. rewrite <- (SH s a _ Hs Ha). cbn [eret].
    apply (wsum_le _ (fun j => o_p (nth j (e s a) o_dflt))); [intros j Hj; apply (PO s a j Hs Ha Hj)|].
    intros j Hj. cbv zeta. unfold nextv. pose proof (GP (S m)) as GS. cbn [pow] in *.
    destruct (HC j) as [_ L]. destruct (o_abs (nth j (e s a) o_dflt)) eqn:A; [lra|].
    specialize (L Hj eq_refl). apply (Rmult_le_compat_l gamma) in L; lra.
Qed.
End Opt.

(** ** Learning *)
Lemma filt_share : forall al xs w s a j t,
  filt pair_eq_dec (fun t => (x_s (xs t), x_a (xs t))) al (fun i => if Nat.eqb (w i) j then 1 else 0) (s, a) t =
  weighted_share al xs w s a j t.
Proof.
  intros al xs w s a j. induction t as [|t IH]; [reflexivity|]. cbn [filt weighted_share]. rewrite IH. unfold wt.
  destruct (pair_eq_dec _ _) as [E|E].
  - rewrite (proj2 (pair_eqb_spec _ _) E). reflexivity.
  - destruct (pair_eqb _ _) eqn:Q; [apply pair_eqb_spec in Q; contradiction|]. cbv zeta. ring.
Qed.

(** The visited entry moves towards r + gamma * nxt; nxt is as close to [val] of the outcome as the
    table is to q. *)
Lemma s_table_converges : forall n lv k gamma e (q : nat -> nat -> R) (val : outcome -> R) al xs w (Q : nat -> table) (nxt : nat -> R),
  0 <= gamma < 1 -> (forall s, In s lv -> (s < n)%nat) -> senv_ok lv k e ->
  (forall s a, In s lv -> (a < k)%nat -> q s a = rsum (map (fun o => o_p o * (o_r o + gamma * val o)) (e s a))) ->
  shaped n k (Q O) ->
  (forall t, 0 <= al t <= 1 /\ is_outcome lv k e (xs t) (w t) /\
     Q (S t) = tset (Q t) (x_s (xs t)) (x_a (xs t))
       (tget (Q t) (x_s (xs t)) (x_a (xs t)) +
        al t * (x_r (xs t) + gamma * nxt t - tget (Q t) (x_s (xs t)) (x_a (xs t))))) ->
  (forall t E, shaped n k (Q t) -> (forall s a, In s lv -> (a < k)%nat -> Rabs (tget (Q t) s a - q s a) <= E) -> 0 <= E ->
     Rabs (nxt t - val (nth (w t) (e (x_s (xs t)) (x_a (xs t))) o_dflt)) <= E) ->
  rates_diverge lv k al xs -> weighted_fairly lv k e al xs w ->
  forall eps, 0 < eps -> exists N, forall t, (N <= t)%nat -> forall s a, In s lv -> (a < k)%nat ->
    Rabs (tget (Q t) s a - q s a) < eps.
Proof.
  intros n lv k gamma e q val al xs w Q nxt G IN OKE HQ S0 ST NX RD WF eps He.
  assert (SH : forall t, shaped n k (Q t)).
  { induction t as [|t IH]; auto. destruct (ST t) as (_ & _ & ->). apply tset_shaped; auto. }
  assert (KK : forall s a, In (s, a) (list_prod lv (seq 0 k)) <-> In s lv /\ (a < k)%nat).
  { intros s a. rewrite in_prod_iff, in_seq. intuition lia. }
  set (dv := fun s a j => let o := nth j (e s a) o_dflt in o_r o + gamma * val o - q s a).
  set (noise := fun t => dv (x_s (xs t)) (x_a (xs t)) (w t)).
  destruct (noisy_async_converges pair_eq_dec (list_prod lv (seq 0 k))
     (fun t z => tget (Q t) (fst z) (snd z)) (fun z => q (fst z) (snd z))
     (fun t => (x_s (xs t), x_a (xs t))) al (fun t => x_r (xs t) + gamma * nxt t) noise gamma G) with (eps := eps) as (N & HN).
  - intros t. apply ST.
  - intros t. destruct (ST t) as (_ & (A & B & _) & ->). cbn [fst snd].
    rewrite (tget_tset_eq n k) by auto. ring.
  - intros t [s a] NE. destruct (ST t) as (_ & _ & ->). cbn [fst snd]. apply tget_tset_neq. exact NE.
  - intros t E HE. cbn [fst snd]. destruct (ST t) as (_ & (A & B & C & D) & _). cbv zeta in D. destruct D as (Er & _ & _).
    unfold noise, dv. cbv zeta. rewrite Er.
    match goal with |- Rabs ?x <= _ => replace x with (gamma * (nxt t - val (nth (w t) (e (x_s (xs t)) (x_a (xs t))) o_dflt))) by ring end.
    rewrite Rabs_mult, Rabs_pos_eq by lra. apply Rmult_le_compat_l; [lra|].
    assert (HE' : forall s a, In s lv -> (a < k)%nat -> Rabs (tget (Q t) s a - q s a) <= E).
    { intros s a Hs Ha. apply (HE (s, a)). apply KK. auto. }
    apply NX; auto. eapply Rle_trans; [apply Rabs_pos|apply (HE' _ _ A B)].
  - intros [s a] Hz M. apply KK in Hz as [Hs Ha]. destruct (RD s a Hs Ha M) as (N & HN). exists N.
    rewrite rates_wsum. exact HN.
  - intros [s a] Hz. apply KK in Hz as [Hs Ha]. destruct (OKE s a Hs Ha) as [_ O2].
    set (js := seq 0 (length (e s a))).
    (* the deviations have mean zero *)
    assert (MZ : rsum (map (fun j => o_p (nth j (e s a) o_dflt) * dv s a j) js) = 0).
    { pose proof (HQ s a Hs Ha) as HQ'. rewrite (map_index _ o_dflt) in HQ'. rewrite (map_index _ o_dflt) in O2. fold js in HQ', O2.
      rewrite (rsum_map_ext _ _ (fun j => o_p (nth j (e s a) o_dflt) * (o_r (nth j (e s a) o_dflt) + gamma * val (nth j (e s a) o_dflt)) +
         o_p (nth j (e s a) o_dflt) * (- q s a))).
      2: { intros j _. unfold dv. cbv zeta. ring. }
      rewrite rsum_map_plus, <- HQ', (rsum_map_lin js (fun j => o_p (nth j (e s a) o_dflt)) (- q s a)), O2. ring. }
    assert (EQ : forall t, filt pair_eq_dec (fun t => (x_s (xs t), x_a (xs t))) al noise (s, a) t =
       rsum (map (fun j => dv s a j * (weighted_share al xs w s a j t - o_p (nth j (e s a) o_dflt))) js)).
    { assert (EQ1 : forall t, filt pair_eq_dec (fun t => (x_s (xs t), x_a (xs t))) al noise (s, a) t =
         rsum (map (fun j => dv s a j * weighted_share al xs w s a j t) js)).
      { induction t as [|t IH].
        - cbn [filt weighted_share]. rewrite (rsum_map_ext _ _ (fun j => (fun _ => 0) j * 0)) by (intros; ring). rewrite rsum_map_lin. ring.
        - cbn [filt weighted_share]. rewrite IH. unfold wt. destruct (pair_eq_dec _ _) as [E|E].
          + rewrite (proj2 (pair_eqb_spec _ _) E). injection E as E1 E2.
            rewrite (rsum_map_ext _ (fun j => dv s a j * ((1 - al t) * weighted_share al xs w s a j t + al t * (if Nat.eqb (w t) j then 1 else 0)))
              (fun j => (dv s a j * weighted_share al xs w s a j t) * (1 - al t) + (if Nat.eqb (w t) j then dv s a j else 0) * al t)).
            2: { intros j _. destruct (Nat.eqb (w t) j); ring. }
            rewrite rsum_map_plus, !rsum_map_lin.
            assert (ON : rsum (map (fun j => if Nat.eqb (w t) j then dv s a j else 0) js) = noise t).
            { unfold noise. rewrite E1, E2. destruct (ST t) as (_ & (_ & _ & C & _) & _). rewrite E1, E2 in C.
              unfold js. rewrite (rsum_single (length (e s a)) (w t)); [|exact C|].
              - rewrite Nat.eqb_refl. reflexivity.
              - intros j _ NE. destruct (Nat.eqb (w t) j) eqn:X; [apply Nat.eqb_eq in X; congruence|reflexivity]. }
            rewrite ON. ring.
          + destruct (pair_eqb _ _) eqn:X; [apply pair_eqb_spec in X; contradiction|]. ring. }
      intros t. rewrite EQ1.
      rewrite (rsum_map_ext _ (fun j => dv s a j * (weighted_share al xs w s a j t - o_p (nth j (e s a) o_dflt)))
        (fun j => dv s a j * weighted_share al xs w s a j t + (o_p (nth j (e s a) o_dflt) * dv s a j) * (-1))) by (intros; ring).
      rewrite rsum_map_plus, rsum_map_lin, MZ. ring. }
    apply (vanishes_ext _ _ (fun t => eq_sym (EQ t))).
    apply (vanishes_sum js (fun j t => dv s a j * (weighted_share al xs w s a j t - o_p (nth j (e s a) o_dflt)))).
    intros j Hj. apply in_seq in Hj. apply vanishes_scale. intros d Hd. apply (WF s a j Hs Ha); [lia|exact Hd].
  - exact He.
  - exists N. intros t Ht s a Hs Ha. apply (HN t Ht (s, a)). apply KK. auto.
Qed.

(** From some time on, what is greedy for a table that converges to q is greedy for q. *)
Lemma greedy_eventually : forall n lv k (q : nat -> nat -> R) (Q : nat -> table),
  (forall s, In s lv -> (s < n)%nat) -> (1 <= k)%nat -> (forall t, shaped n k (Q t)) ->
  (forall eps, 0 < eps -> exists N, forall t, (N <= t)%nat -> forall s a, In s lv -> (a < k)%nat ->
     Rabs (tget (Q t) s a - q s a) < eps) ->
  exists N, forall t, (N <= t)%nat -> forall s a, In s lv -> In a (argmaxs (row (Q t) s)) -> is_max k (q s) (q s a).
Proof.
  intros n lv k q Q IN K1 SH CV.
  destruct (value_gap lv k q) as (d & D0 & Gap). destruct (CV (d / 2)) as (N & HN); [lra|].
  exists N. intros t Ht s a Hs Ia.
  pose proof (row_length n k (Q t) s (SH t) (IN _ Hs)) as LR.
  apply argmaxs_In in Ia as [La Ma]; [|destruct (row (Q t) s); simpl in LR; [lia|discriminate]].
  rewrite LR in La, Ma. split; [exists a; auto|]. intros b Hb. apply Rnot_lt_le. intros Lt.
  specialize (Gap s a b Hs La Hb Lt). specialize (Ma b Hb).
  pose proof (HN t Ht s a Hs La) as Ea. pose proof (HN t Ht s b Hs Hb) as Eb. unfold tget in Ea, Eb.
  apply Rabs_def2 in Ea. apply Rabs_def2 in Eb. lra.
Qed.

(** Q-learning, with any learning rates. *)
Theorem q_learning_converges_stochastic : forall n lv k gamma e q al xs w (Q : nat -> table),
  0 <= gamma < 1 -> (forall s, In s lv -> (s < n)%nat) -> senv_ok lv k e -> s_optimal lv k gamma e q -> shaped n k (Q O) ->
  (forall t, 0 <= al t <= 1 /\ is_outcome lv k e (xs t) (w t) /\ Q (S t) = ql_update gamma (al t) (Q t) (xs t)) ->
  rates_diverge lv k al xs -> weighted_fairly lv k e al xs w ->
  (forall eps, 0 < eps -> exists N, forall t, (N <= t)%nat -> forall s a, In s lv -> (a < k)%nat ->
     Rabs (tget (Q t) s a - q s a) < eps) /\
  (exists N, forall t, (N <= t)%nat -> forall s a, In s lv -> In a (argmaxs (row (Q t) s)) ->
     is_max k (q s) (q s a)).
Proof.
  intros n lv k gamma e q al xs w Q G IN OKE (v & V & HQ) S0 ST RD WF.
  assert (SH : forall t, shaped n k (Q t)).
  { induction t as [|t IH]; auto. destruct (ST t) as (_ & _ & ->). apply tset_shaped; auto. }
  assert (K1 : (1 <= k)%nat) by (destruct (ST O) as (_ & (_ & B & _) & _); lia).
  assert (CV : forall eps, 0 < eps -> exists N, forall t, (N <= t)%nat -> forall s a, In s lv -> (a < k)%nat ->
     Rabs (tget (Q t) s a - q s a) < eps).
  { apply (s_table_converges n lv k gamma e q (nextv v) al xs w Q
       (fun t => if x_abs (xs t) then 0 else qmax (row (Q t) (x_s' (xs t))))); auto.
    intros t E Sh HE E0. destruct (ST t) as (_ & (A & B & C & D) & _). cbv zeta in D. destruct D as (_ & -> & ->).
    unfold nextv. destruct (OKE _ _ A B) as [O1 _]. destruct (O1 _ (nth_In _ o_dflt C)) as [_ O3].
    destruct (o_abs _); [rewrite Rminus_diag_eq, Rabs_R0 by auto; lra|].
    specialize (O3 eq_refl). set (s' := o_s _) in *.
    apply (is_max_close k (tget (Q t) s') (q s')); [|apply V; auto|auto].
    pose proof (row_length n k (Q t) s' Sh (IN _ O3)) as LR.
    destruct (qmax_spec (row (Q t) s')) as [I M]; [destruct (row (Q t) s'); simpl in LR; [lia|discriminate]|]. split.
    + apply (In_nth _ _ 0) in I as (b & Hb & E'). exists b. split; [lia|exact E'].
    + intros b Hb. apply M. apply nth_In. lia. }
  split; [exact CV|]. apply (greedy_eventually n lv k q Q); auto.
Qed.

(** Expected SARSA with a fixed policy. *)
Theorem expected_sarsa_converges_stochastic : forall n lv k gamma e pi q al xs w (Q : nat -> table),
  0 <= gamma < 1 -> (forall s, In s lv -> (s < n)%nat) -> senv_ok lv k e ->
  (forall s, In s lv -> length (pi s) = k /\ distribution (pi s)) ->
  s_policy_values lv k gamma e pi q -> shaped n k (Q O) ->
  (forall t, 0 <= al t <= 1 /\ is_outcome lv k e (xs t) (w t) /\
     Q (S t) = esarsa_update gamma (al t) (pi (x_s' (xs t))) (Q t) (xs t)) ->
  rates_diverge lv k al xs -> weighted_fairly lv k e al xs w ->
  forall eps, 0 < eps -> exists N, forall t, (N <= t)%nat -> forall s a, In s lv -> (a < k)%nat ->
    Rabs (tget (Q t) s a - q s a) < eps.
Proof.
  intros n lv k gamma e pi q al xs w Q G IN OKE HP PV S0 ST RD WF.
  apply (s_table_converges n lv k gamma e q
     (fun o => if o_abs o then 0 else rsum (map (fun b => nth b (pi (o_s o)) 0 * q (o_s o) b) (seq 0 k)))
     al xs w Q (fun t => if x_abs (xs t) then 0 else dot (row (Q t) (x_s' (xs t))) (pi (x_s' (xs t))))); auto.
  intros t E Sh HE E0. destruct (ST t) as (_ & (A & B & C & D) & _). cbv zeta in D. destruct D as (_ & -> & ->).
  destruct (OKE _ _ A B) as [O1 _]. destruct (O1 _ (nth_In _ o_dflt C)) as [_ O3].
  destruct (o_abs _); [rewrite Rminus_diag_eq, Rabs_R0 by auto; lra|].
  specialize (O3 eq_refl). set (s' := o_s _) in *. destruct (HP s' O3) as (LP & DP0 & DP1).
  pose proof (row_length n k (Q t) s' Sh (IN _ O3)) as LR.
  rewrite dot_nth, LR by lia.
  rewrite (rsum_map_ext _ (fun i => nth i (row (Q t) s') 0 * nth i (pi s') 0) (fun i => nth i (pi s') 0 * tget (Q t) s' i)).
  2: { intros i _. unfold tget. ring. }
  assert (SP : rsum (map (fun b => nth b (pi s') 0) (seq 0 k)) = 1).
  { rewrite <- DP1. f_equal. rewrite <- LP. clear. induction (pi s') as [|x l IH]; [reflexivity|].
    cbn [length seq map nth]. f_equal. rewrite <- seq_shift, map_map. exact IH. }
  eapply Rle_trans; [apply (rsum_close (seq 0 k) (fun b => nth b (pi s') 0) (tget (Q t) s') (q s') E)|rewrite SP; lra].
  - intros b Hb. apply in_seq in Hb. apply DP0, nth_In. lia.
  - intros b Hb. apply in_seq in Hb. apply HE; auto. lia.
Qed.

(** ** Learning rate 1/n *)
Lemma averaging_share : forall al xs w s a j t, averaging al xs ->
  weighted_share al xs w s a j t * INR (visits xs s a t) = INR (met_outcome xs w s a j t).
Proof.
  intros al xs w s a j t AV. induction t as [|t IH]; [cbn; ring|]. cbn [weighted_share visits met_outcome].
  destruct (pair_eqb (x_s (xs t), x_a (xs t)) (s, a)) eqn:P; [|exact IH].
  apply pair_eqb_spec in P. injection P as P1 P2. pose proof (AV t) as A. rewrite P1, P2 in A. cbv zeta. rewrite A. cbn [andb].
  set (v := visits xs s a t) in *. set (m := met_outcome xs w s a j t) in *. change (1 + v)%nat with (S v).
  assert (I0 : INR (S v) <> 0) by (apply not_0_INR; lia).
  replace (INR ((if Nat.eqb (w t) j then 1 else 0) + m)) with ((if Nat.eqb (w t) j then 1 else 0) + INR m)
    by (destruct (Nat.eqb (w t) j); rewrite plus_INR; cbn [INR]; ring).
  rewrite <- IH.
  transitivity ((INR (S v) - 1) * weighted_share al xs w s a j t + (if Nat.eqb (w t) j then 1 else 0)); [field; exact I0|].
  rewrite S_INR. ring.
Qed.

Lemma averaging_rates : forall lv k al xs, averaging al xs -> visited_forever lv k xs ->
  (forall t, 0 <= al t <= 1) /\ rates_diverge lv k al xs.
Proof.
  intros lv k al xs AV VF. split.
  - intros t. rewrite AV. assert (1 <= INR (S (visits xs (x_s (xs t)) (x_a (xs t)) t))) by (rewrite S_INR; pose proof (pos_INR (visits xs (x_s (xs t)) (x_a (xs t)) t)); lra).
    split; [apply Rlt_le, Rinv_0_lt_compat; lra|]. rewrite <- Rinv_1. apply Rinv_le_contravar; lra.
  - apply (decaying_rates_diverge lv k al xs 1); [lra|exact VF|]. intros t. rewrite AV. unfold Rdiv. lra.
Qed.

Lemma averaging_fair : forall lv k e al xs w, averaging al xs -> visited_forever lv k xs ->
  sampled_fairly lv k e xs w -> weighted_fairly lv k e al xs w.
Proof.
  intros lv k e al xs w AV VF SF s a j Hs Ha Hj eps He.
  destruct (SF s a j Hs Ha Hj eps He) as (N & HN). destruct (visits_unbounded lv k xs s a VF Hs Ha 1) as (M & HM).
  exists (Nat.max N M). intros t Ht. specialize (HN t ltac:(lia)).
  assert (VM : (1 <= visits xs s a t)%nat).
  { assert (Mo : forall i i', (i <= i')%nat -> (visits xs s a i <= visits xs s a i')%nat).
    { intros i i' H. induction H; auto. cbn [visits]. lia. }
    specialize (Mo M t ltac:(lia)). lia. }
  rewrite <- (averaging_share al xs w s a j t AV) in HN.
  replace (weighted_share al xs w s a j t * INR (visits xs s a t) / INR (visits xs s a t)) with (weighted_share al xs w s a j t) in HN; [exact HN|].
  field. apply not_0_INR. lia.
Qed.

(** With the rate 1/n it is enough that every pair is visited again and again and that the outcomes
    have, in the long run, the frequencies of the environment. *)
Theorem q_learning_averages : forall n lv k gamma e q al xs w (Q : nat -> table),
  0 <= gamma < 1 -> (forall s, In s lv -> (s < n)%nat) -> senv_ok lv k e -> s_optimal lv k gamma e q -> shaped n k (Q O) ->
  (forall t, is_outcome lv k e (xs t) (w t) /\ Q (S t) = ql_update gamma (al t) (Q t) (xs t)) ->
  averaging al xs -> visited_forever lv k xs -> sampled_fairly lv k e xs w ->
  (forall eps, 0 < eps -> exists N, forall t, (N <= t)%nat -> forall s a, In s lv -> (a < k)%nat ->
     Rabs (tget (Q t) s a - q s a) < eps) /\
  (exists N, forall t, (N <= t)%nat -> forall s a, In s lv -> In a (argmaxs (row (Q t) s)) ->
     is_max k (q s) (q s a)).
Proof.
  intros n lv k gamma e q al xs w Q G IN OKE OV S0 ST AV VF SF. destruct (averaging_rates lv k al xs AV VF) as [R1 R2].
  apply (q_learning_converges_stochastic n lv k gamma e q al xs w Q); try assumption.
  - intros t. destruct (ST t) as [ST1 ST2]. split; [apply R1|]. split; [exact ST1|exact ST2].
  - apply averaging_fair; assumption.
Qed.

Theorem expected_sarsa_averages : forall n lv k gamma e pi q al xs w (Q : nat -> table),
  0 <= gamma < 1 -> (forall s, In s lv -> (s < n)%nat) -> senv_ok lv k e ->
  (forall s, In s lv -> length (pi s) = k /\ distribution (pi s)) ->
  s_policy_values lv k gamma e pi q -> shaped n k (Q O) ->
  (forall t, is_outcome lv k e (xs t) (w t) /\ Q (S t) = esarsa_update gamma (al t) (pi (x_s' (xs t))) (Q t) (xs t)) ->
  averaging al xs -> visited_forever lv k xs -> sampled_fairly lv k e xs w ->
  forall eps, 0 < eps -> exists N, forall t, (N <= t)%nat -> forall s a, In s lv -> (a < k)%nat ->
    Rabs (tget (Q t) s a - q s a) < eps.
Proof.
  intros n lv k gamma e pi q al xs w Q G IN OKE HP PV S0 ST AV VF SF. destruct (averaging_rates lv k al xs AV VF) as [R1 R2].
  apply (expected_sarsa_converges_stochastic n lv k gamma e pi q al xs w Q); try assumption.
  - intros t. destruct (ST t) as [ST1 ST2]. split; [apply R1|]. split; [exact ST1|exact ST2].
  - apply averaging_fair; assumption.
Qed.

(** ** A coin *)
(** One state, one action; the episode ends at once with reward 0 or 1, equally likely. *)
Definition coin : senv := fun _ _ => [mkO (1 / 2) 0 0 true; mkO (1 / 2) 1 0 true].
Definition toss_at (t : nat) : nat := if Nat.even t then 0%nat else 1%nat.
Definition coin_xs (t : nat) : sample := {| x_s := 0; x_a := 0; x_r := INR (toss_at t); x_s' := 0; x_abs := true |}.

Lemma coin_ok : senv_ok [0%nat] 1 coin /\ s_optimal [0%nat] 1 (1 / 2) coin (fun _ _ => 1 / 2) /\
  (forall t, is_outcome [0%nat] 1 coin (coin_xs t) (toss_at t)) /\ visited_forever [0%nat] 1 coin_xs.
Proof.
  split; [|split; [|split]].
  - intros s a Hs Ha. split; [|cbn; lra]. intros o [<-|[<-|[]]]; cbn; (split; [lra|discriminate]).
  - exists (fun _ => 1 / 2). split.
    + intros s _. split; [exists O; split; [lia|reflexivity]|intros; lra].
    + intros s a _ _. cbn. lra.
  - intros t. unfold is_outcome, coin_xs, toss_at, coin. cbn [x_s x_a x_r x_s' x_abs]. split; [left; reflexivity|]. split; [lia|].
    destruct (Nat.even t); cbn; (split; [lia|auto]).
  - intros s a [<-|[]] Ha T. exists T. split; [lia|]. cbn. split; [reflexivity|lia].
Qed.

Lemma coin_visits : forall t, visits coin_xs 0 0 t = t.
Proof. induction t as [|t IH]; [reflexivity|]. cbn [visits]. rewrite IH. reflexivity. Qed.

Lemma coin_met : forall j t, (j < 2)%nat -> (2 * met_outcome coin_xs toss_at 0 0 j t <= t + 1 /\ t <= 2 * met_outcome coin_xs toss_at 0 0 j t + 1)%nat.
Proof.
  intros j t Hj.
  assert (K : forall m, met_outcome coin_xs toss_at 0 0 j (2 * m) = m).
  { induction m as [|m IH]; [reflexivity|]. replace (2 * S m)%nat with (S (S (2 * m))) by lia. cbn [met_outcome]. rewrite IH.
    unfold toss_at. rewrite Nat.even_succ, <- Nat.negb_even, Nat.even_mul. cbn [Nat.even orb negb].
    change (pair_eqb (x_s (coin_xs (2 * m)), x_a (coin_xs (2 * m))) (0%nat, 0%nat)) with true.
    change (pair_eqb (x_s (coin_xs (S (2 * m))), x_a (coin_xs (S (2 * m)))) (0%nat, 0%nat)) with true. cbn [andb].
    destruct j as [|[|j]]; [| |lia]; cbn [Nat.eqb]; lia. }
  destruct (Nat.Even_or_Odd t) as [(m & ->)|(m & ->)].
  - rewrite K. lia.
  - rewrite Nat.add_1_r. cbn [met_outcome]. rewrite K. destruct (_ && _); lia.
Qed.

Lemma coin_fair : sampled_fairly [0%nat] 1 coin coin_xs toss_at.
Proof.
  intros s a j Hs Ha Hj eps He. assert (s = 0%nat) by (destruct Hs as [<-|[]]; reflexivity). assert (a = 0%nat) by lia. subst s a.
  cbn [coin length] in Hj. assert (EP : o_p (nth j (coin 0%nat 0%nat) o_dflt) = 1 / 2) by (destruct j as [|[|j]]; [reflexivity|reflexivity|lia]).
  rewrite EP. destruct (archimed (/ eps)) as [AR _]. assert (UP : (0 <= up (/ eps))%Z).
  { apply le_IZR. pose proof (Rinv_0_lt_compat eps He). lra. }
  exists (S (Z.to_nat (up (/ eps)))). intros t Ht. rewrite coin_visits.
  destruct (coin_met j t Hj) as [M1 M2]. apply le_INR in M1, M2. rewrite !plus_INR, !mult_INR in *. change (INR 1) with 1 in *. change (INR 2) with 2 in *.
  set (m := INR (met_outcome coin_xs toss_at 0 0 j t)) in *.
  assert (T0 : / eps < INR t).
  { apply le_INR in Ht. rewrite S_INR, INR_IZR_INZ, Z2Nat.id in Ht by exact UP. lra. }
  pose proof (Rinv_0_lt_compat eps He) as E0.
  replace (m / INR t - 1 / 2) with ((2 * m - INR t) / (2 * INR t)) by (field; lra).
  unfold Rdiv. rewrite Rabs_mult, (Rabs_pos_eq (/ (2 * INR t))) by (apply Rlt_le, Rinv_0_lt_compat; lra).
  assert (A : Rabs (2 * m - INR t) <= 1) by (apply Rabs_le; lra).
  assert (B : 0 < / (2 * INR t)) by (apply Rinv_0_lt_compat; lra).
  apply Rle_lt_trans with (1 * / (2 * INR t)); [apply Rmult_le_compat_r; lra|]. rewrite Rmult_1_l.
  rewrite <- (Rinv_inv eps). apply Rinv_lt_contravar; [apply Rmult_lt_0_compat; lra|lra].
Qed.

(** Averaging learns the value 1/2. *)
Fixpoint coin_Q (al : nat -> R) (t : nat) : table :=
  match t with O => [[0]] | S t' => ql_update (1 / 2) (al t') (coin_Q al t') (coin_xs t') end.

Example coin_learns_ex : forall eps, 0 < eps -> exists N, forall t, (N <= t)%nat ->
  Rabs (tget (coin_Q (fun t => / INR (S t)) t) 0 0 - 1 / 2) < eps.
Proof.
  intros eps He. destruct coin_ok as (A & B & C & D).
  destruct (q_learning_averages 1 [0%nat] 1 (1 / 2) coin (fun _ _ => 1 / 2) (fun t => / INR (S t)) coin_xs toss_at (coin_Q (fun t => / INR (S t)))) as [CV _]; auto.
  - lra.
  - intros s [<-|[]]. lia.
  - split; [reflexivity|]. intros l [<-|[]]. reflexivity.
  - intros t. change (x_s (coin_xs t)) with 0%nat. change (x_a (coin_xs t)) with 0%nat. rewrite coin_visits. reflexivity.
  - apply coin_fair.
  - destruct (CV eps He) as (N & HN). exists N. intros t Ht. apply HN; auto. left. reflexivity.
Qed.

(** A constant learning rate, which is enough in deterministic environments, is not: the table
    does not converge at all, although every pair is visited forever and the outcomes are fair. *)
Theorem constant_rate_stochastic_refuted :
  exists n lv k gamma e q alpha xs w (Q : nat -> table),
    0 <= gamma < 1 /\ (forall s, In s lv -> (s < n)%nat) /\ senv_ok lv k e /\ s_optimal lv k gamma e q /\ shaped n k (Q O) /\
    0 < alpha < 1 /\ (forall t, is_outcome lv k e (xs t) (w t) /\ Q (S t) = ql_update gamma alpha (Q t) (xs t)) /\
    visited_forever lv k xs /\ sampled_fairly lv k e xs w /\
    exists s a, In s lv /\ (a < k)%nat /\
      forall l, ~ (forall eps, 0 < eps -> exists N, forall t, (N <= t)%nat -> Rabs (tget (Q t) s a - l) < eps).
Proof.
  destruct coin_ok as (A & B & C & D).
  exists 1%nat, [0%nat], 1%nat, (1 / 2), coin, (fun _ _ => 1 / 2), (1 / 2), coin_xs, toss_at, (coin_Q (fun _ => 1 / 2)).
  split; [lra|]. split; [intros s [<-|[]]; lia|]. split; [exact A|]. split; [exact B|].
  split. { split; [reflexivity|]. intros l [<-|[]]. reflexivity. }
  split; [lra|]. split. { intros t. split; [apply C|reflexivity]. }
  split; [exact D|]. split; [apply coin_fair|]. exists 0%nat, 0%nat. split; [left; reflexivity|]. split; [lia|].
  assert (ST : forall t, exists x, coin_Q (fun _ => 1 / 2) t = [[x]] /\ 0 <= x <= 1 /\
     tget (coin_Q (fun _ => 1 / 2) (S t)) 0 0 = 1 / 2 * x + 1 / 2 * INR (toss_at t)).
  { induction t as [|t (x & EX & HX & EN)].
    - exists 0. split; [reflexivity|]. split; [lra|]. unfold tget, row. cbn. lra.
    - exists (1 / 2 * x + 1 / 2 * INR (toss_at t)). split; [|split].
      + cbn [coin_Q]. rewrite EX. unfold ql_update. cbn. do 2 f_equal. lra.
      + assert (0 <= INR (toss_at t) <= 1) by (unfold toss_at; destruct (Nat.even t); cbn; lra). lra.
      + change (coin_Q (fun _ => 1 / 2) (S (S t))) with (ql_update (1 / 2) (1 / 2) (coin_Q (fun _ => 1 / 2) (S t)) (coin_xs (S t))).
        rewrite <- EN. cbn [coin_Q] in *. rewrite EX in *. unfold ql_update, tget, row. cbn -[INR toss_at]. lra. }
  intros l H. destruct (H (1 / 8) ltac:(lra)) as (N & HN).
  destruct (ST (2 * N + 1)%nat) as (x & EX & HX & EN).
  destruct (ST (2 * N + 2)%nat) as (y & EY & HY & EN2).
  pose proof (HN (2 * N + 2)%nat ltac:(lia)) as B1. pose proof (HN (2 * N + 3)%nat ltac:(lia)) as B2.
  assert (T1 : toss_at (2 * N + 1) = 1%nat) by (unfold toss_at; rewrite Nat.add_1_r, Nat.even_succ, <- Nat.negb_even, Nat.even_mul; reflexivity).
  assert (T2 : toss_at (2 * N + 2) = 0%nat) by (unfold toss_at; replace (2 * N + 2)%nat with (2 * (N + 1))%nat by lia; rewrite Nat.even_mul; reflexivity).
  replace (2 * N + 3)%nat with (S (2 * N + 2)) in B2 by lia. rewrite EN2, T2 in B2.
  replace (2 * N + 2)%nat with (S (2 * N + 1)) in B1, EY by lia. rewrite EN, T1 in B1. 
  assert (YE : y = 1 / 2 * x + 1 / 2 * INR 1). { rewrite <- T1, <- EN, EY. reflexivity. }
  change (INR 1) with 1 in *. change (INR 0) with 0 in *.
  apply Rabs_def2 in B1. apply Rabs_def2 in B2. lra.
Qed.

Print Assumptions stochastic_optimum_unique.
Print Assumptions stochastic_optimum_exists.
Print Assumptions stochastic_optimum_is_return.
Print Assumptions q_learning_converges_stochastic.
Print Assumptions expected_sarsa_converges_stochastic.
Print Assumptions q_learning_averages.
Print Assumptions expected_sarsa_averages.
Print Assumptions constant_rate_stochastic_refuted.

(** Convergence of the tabular algorithms of TdModel (algorithms/value/td/q_learning.py,
    expected_sarsa.py, maxmin_q_learning.py) on deterministic environments: whatever the order in
    which the state-action pairs are visited, the tables converge to the optimal values (to the
    values of the policy) as soon as the learning rates of every pair sum to infinity. *)
From Coq Require Import List Arith Lia Reals Lra Psatz Bool.
From Verif Require Import Common PolicyModel PolicySpec PolicyProofs TdModel TdSpec TdProofs.
Import ListNotations.
Local Open Scope R_scope.

(** ** Asynchronous contractions *)
Section Async.
Context {Z : Type}.
Variable zeq : forall a b : Z, {a = b} + {a <> b}.
Variable keys : list Z.
Variable u : nat -> Z -> R.
Variable star : Z -> R.
Variable upd : nat -> Z.
Variables rate target : nat -> R.
Variable gamma : R.
Hypothesis G : 0 <= gamma < 1.
Hypothesis U2 : forall t, 0 <= rate t <= 1.
Hypothesis U3 : forall t, u (S t) (upd t) = (1 - rate t) * u t (upd t) + rate t * target t.
Hypothesis U4 : forall t z, z <> upd t -> u (S t) z = u t z.
Hypothesis C1 : forall t E, (forall z, In z keys -> Rabs (u t z - star z) <= E) ->
  Rabs (target t - star (upd t)) <= gamma * E.

Definition wt (z : Z) (t : nat) : R := if zeq (upd t) z then rate t else 0.
Fixpoint wsum (z : Z) (t : nat) : R := match t with O => 0 | S t' => wsum z t' + wt z t' end.
Hypothesis H3 : forall z, In z keys -> forall M, exists N, M <= wsum z N.

Definition err (t : nat) (z : Z) : R := Rabs (u t z - star z).
Definition all_le (t : nat) (E : R) : Prop := forall z, In z keys -> err t z <= E.

Lemma wt_nonneg : forall z t, 0 <= wt z t.
Proof. intros z t. unfold wt. destruct (zeq _ _); [apply U2|lra]. Qed.
Lemma wsum_mono : forall z a b, (a <= b)%nat -> wsum z a <= wsum z b.
Proof.
  intros z a b H. induction H; [lra|]. simpl. pose proof (wt_nonneg z m). lra.
Qed.

Lemma err_step : forall t z E, all_le t E -> In z keys ->
  err (S t) z <= (1 - wt z t) * err t z + wt z t * (gamma * E).
Proof.
  intros t z E HE Hz. unfold err, wt. destruct (zeq (upd t) z) as [<-|N].
  - rewrite U3. pose proof (C1 t E HE) as HT. pose proof (U2 t).
    replace ((1 - rate t) * u t (upd t) + rate t * target t - star (upd t))
      with ((1 - rate t) * (u t (upd t) - star (upd t)) + rate t * (target t - star (upd t))) by ring.
    eapply Rle_trans; [apply Rabs_triang|]. rewrite !Rabs_mult, (Rabs_pos_eq (1 - rate t)), (Rabs_pos_eq (rate t)) by lra.
    assert (rate t * Rabs (target t - star (upd t)) <= rate t * (gamma * E)) by (apply Rmult_le_compat_l; lra). lra.
  - rewrite U4 by congruence. lra.
Qed.

Lemma all_le_step : forall t E, all_le t E -> all_le (S t) E.
Proof.
  intros t E HE z Hz. eapply Rle_trans; [apply (err_step t z E); auto|].
  pose proof (HE z Hz). pose proof (wt_nonneg z t).
  assert (wt z t <= 1) by (unfold wt; destruct (zeq _ _); [apply U2|lra]).
  assert (0 <= err t z) by apply Rabs_pos. assert (0 <= E) by lra.
  assert (gamma * E <= 1 * E) by (apply Rmult_le_compat_r; lra).
  assert ((1 - wt z t) * err t z <= (1 - wt z t) * E) by (apply Rmult_le_compat_l; lra).
  assert (wt z t * (gamma * E) <= wt z t * E) by (apply Rmult_le_compat_l; lra). lra.
Qed.
Lemma all_le_later : forall t t' E, (t <= t')%nat -> all_le t E -> all_le t' E.
Proof. intros t t' E H. induction H; auto. intros. apply all_le_step. auto. Qed.

Lemma err_decay : forall T E z, all_le T E -> In z keys -> forall d,
  (err (T + d) z - gamma * E) * (1 + (wsum z (T + d) - wsum z T)) <= (1 - gamma) * E.
Proof.
  intros T E z HE Hz. assert (E0 : 0 <= E).
  { pose proof (HE z Hz). assert (0 <= err T z) by apply Rabs_pos. lra. }
  induction d as [|d IH].
  - rewrite Nat.add_0_r. pose proof (HE z Hz). lra.
  - replace (T + S d)%nat with (S (T + d)) by lia. cbn [wsum].
    assert (HE' : all_le (T + d) E) by (apply (all_le_later T); auto; lia).
    pose proof (err_step (T + d) z E HE' Hz) as ES. pose proof (wt_nonneg z (T + d)) as W0.
    assert (W1 : wt z (T + d) <= 1) by (unfold wt; destruct (zeq _ _); [apply U2|lra]).
    assert (S0 : 0 <= wsum z (T + d) - wsum z T) by (pose proof (wsum_mono z T (T + d) ltac:(lia)); lra).
    set (w := wt z (T + d)) in *. set (s := wsum z (T + d) - wsum z T) in *.
    replace (wsum z (T + d) + w - wsum z T) with (s + w) by (unfold s; ring).
    set (x := err (T + d) z - gamma * E) in *.
    assert (Y : err (S (T + d)) z - gamma * E <= (1 - w) * x) by (unfold x; lra).
    assert (P : (err (S (T + d)) z - gamma * E) * (1 + (s + w)) <= (1 - w) * x * (1 + (s + w)))
      by (apply Rmult_le_compat_r; lra).
    assert (Q : 0 <= (1 - gamma) * E) by (apply Rmult_le_pos; lra).
    destruct (Rle_dec x 0) as [N|N].
    + assert ((1 - w) * x * (1 + (s + w)) <= 0); [|lra].
      assert (0 <= (1 - w) * (1 + (s + w))) by (apply Rmult_le_pos; lra).
      replace ((1 - w) * x * (1 + (s + w))) with ((1 - w) * (1 + (s + w)) * x) by ring.
      nra.
    + assert ((1 - w) * x * (1 + (s + w)) <= x * (1 + s)); [|lra].
      replace ((1 - w) * x * (1 + (s + w))) with (x * ((1 + s) - w * s - w * w)) by ring.
      apply Rmult_le_compat_l; nra.
Qed.

Lemma one_round : forall T E, all_le T E -> exists T', (T <= T')%nat /\ all_le T' ((1 + gamma) / 2 * E).
Proof.
  intros T E HE.
  assert (K : forall l, incl l keys -> exists T', (T <= T')%nat /\
     forall t, (T' <= t)%nat -> forall z, In z l -> err t z <= (1 + gamma) / 2 * E).
  { induction l as [|z l IH]; intros HI.
    - exists T. split; auto. intros t _ z [].
    - destruct IH as (T1 & L1 & K1); [intros y Hy; apply HI; right; auto|].
      assert (Hz : In z keys) by (apply HI; left; auto).
      destruct (H3 z Hz (wsum z T + 1)) as (N & HN).
      exists (Nat.max T1 (Nat.max T N)). split; [lia|]. intros t Ht y [<-|Hy]; [|apply K1; auto; lia].
      pose proof (err_decay T E z HE Hz (t - T)) as D. replace (T + (t - T))%nat with t in D by lia.
      pose proof (wsum_mono z N t ltac:(lia)) as MW.
      set (s := wsum z t - wsum z T) in *. assert (1 <= s) by (unfold s; lra).
      assert (E0 : 0 <= E). { pose proof (HE z Hz). assert (0 <= err T z) by apply Rabs_pos. lra. }
      destruct (Rle_dec (err t z) (gamma * E)) as [A|A].
      + assert (gamma * E <= (1 + gamma) / 2 * E) by (apply Rmult_le_compat_r; lra). lra.
      + assert ((err t z - gamma * E) * 2 <= (err t z - gamma * E) * (1 + s)) by (apply Rmult_le_compat_l; lra).
        lra. }
  destruct (K keys (fun z H => H)) as (T' & L & K'). exists T'. split; auto. intros z Hz. apply K'; auto.
Qed.

Lemma bounded_start : exists E, 0 <= E /\ all_le 0 E.
Proof.
  assert (K : forall l, exists E, 0 <= E /\ forall z, In z l -> err 0 z <= E).
  { induction l as [|z l (E & E0 & H)]; [exists 0; split; [lra|intros z []]|].
    exists (Rmax E (err 0 z)). split; [eapply Rle_trans; [exact E0|apply Rmax_l]|].
    intros y [<-|Hy]; [apply Rmax_r|]. eapply Rle_trans; [apply H; auto|apply Rmax_l]. }
  apply K.
Qed.

Theorem async_converges : forall eps, 0 < eps -> exists N, forall t, (N <= t)%nat ->
  forall z, In z keys -> Rabs (u t z - star z) < eps.
Proof.
  intros eps He. destruct bounded_start as (E & E0 & HE).
  assert (K : forall m, exists T, all_le T (((1 + gamma) / 2) ^ m * E)).
  { induction m as [|m (T & HT)].
    - exists O. rewrite pow_O, Rmult_1_l. exact HE.
    - destruct (one_round T _ HT) as (T' & _ & HT'). exists T'. cbn [pow]. rewrite Rmult_assoc. exact HT'. }
  destruct (pow_lt_1_zero ((1 + gamma) / 2)) with (y := eps / (E + 1)) as (m & Hm).
  { rewrite Rabs_pos_eq; lra. } { apply Rdiv_lt_0_compat; lra. }
  specialize (Hm m (Nat.le_refl _)). destruct (K m) as (T & HT). exists T. intros t Ht z Hz.
  pose proof (all_le_later T t _ Ht HT z Hz) as F. unfold err in F.
  eapply Rle_lt_trans; [exact F|].
  assert (P0 : 0 <= ((1 + gamma) / 2) ^ m) by (apply pow_le; lra).
  rewrite Rabs_pos_eq in Hm by exact P0.
  assert (((1 + gamma) / 2) ^ m * E <= ((1 + gamma) / 2) ^ m * (E + 1)) by (apply Rmult_le_compat_l; lra).
  assert (((1 + gamma) / 2) ^ m * (E + 1) < eps / (E + 1) * (E + 1)) by (apply Rmult_lt_compat_r; lra).
  assert (eps / (E + 1) * (E + 1) = eps) by (field; lra). lra.
Qed.
End Async.

(** ** Deterministic environments *)
(** Reward, next state and absorbing flag of every pair. *)
Definition denv := nat -> nat -> R * nat * bool.
Definition d_r (e : denv) s a : R := fst (fst (e s a)).
Definition d_s (e : denv) s a : nat := snd (fst (e s a)).
Definition d_abs (e : denv) s a : bool := snd (e s a).
Definition closed (lv : list nat) (k : nat) (e : denv) : Prop := forall s a, In s lv -> (a < k)%nat -> d_abs e s a = false -> In (d_s e s a) lv.

(** [v] is the largest of f 0, ..., f (k-1). *)
Definition is_max (k : nat) (f : nat -> R) (v : R) : Prop :=
  (exists b, (b < k)%nat /\ f b = v) /\ forall b, (b < k)%nat -> f b <= v.

(** The optimality equations. *)
Definition optimal_values (lv : list nat) (k : nat) (gamma : R) (e : denv) (q : nat -> nat -> R) : Prop :=
  forall s a, In s lv -> (a < k)%nat ->
    exists v, q s a = d_r e s a + gamma * v /\
      (d_abs e s a = true -> v = 0) /\ (d_abs e s a = false -> is_max k (q (d_s e s a)) v).

(** The discounted return of a sequence of actions. *)
Fixpoint ret (gamma : R) (e : denv) (acts : list nat) (s : nat) : R :=
  match acts with
  | [] => 0
  | a :: rest => d_r e s a + (if d_abs e s a then 0 else gamma * ret gamma e rest (d_s e s a))
  end.

Lemma is_max_close : forall k f g v w E, is_max k f v -> is_max k g w ->
  (forall b, (b < k)%nat -> Rabs (f b - g b) <= E) -> Rabs (v - w) <= E.
Proof.
  intros k f g v w E [(b & Hb & <-) Mf] [(c & Hc & <-) Mg] H.
  pose proof (H b Hb) as X. pose proof (H c Hc) as Y. specialize (Mf c Hc). specialize (Mg b Hb).
  apply Rabs_le. unfold Rabs in X, Y. destruct (Rcase_abs (f b - g b)), (Rcase_abs (f c - g c)); lra.
Qed.

Lemma qmax_is_max : forall k f, (1 <= k)%nat -> is_max k f (qmax (map f (seq 0 k))).
Proof.
  intros k f Hk. destruct (qmax_spec (map f (seq 0 k))) as [A B]; [destruct k; [lia|discriminate]|]. split.
  - apply in_map_iff in A as (b & E & I). apply in_seq in I. exists b. split; [lia|exact E].
  - intros b Hb. apply B, in_map, in_seq. lia.
Qed.

Section Opt.
Variable lv : list nat.
Variable k : nat.
Variable gamma : R.
Variable e : denv.
Hypothesis G : 0 <= gamma < 1.
Hypothesis K1 : (1 <= k)%nat.
Hypothesis CL : closed lv k e.

Lemma finite_bound : forall f : nat -> nat -> R, exists B, 0 <= B /\
  forall s a, In s lv -> (a < k)%nat -> Rabs (f s a) <= B.
Proof.
  intros f. assert (L : forall l : list (nat * nat), exists B, 0 <= B /\ forall p, In p l -> Rabs (f (fst p) (snd p)) <= B).
  { induction l as [|p l (B & B0 & H)]; [exists 0; split; [lra|intros p []]|].
    exists (Rmax B (Rabs (f (fst p) (snd p)))). split; [eapply Rle_trans; [exact B0|apply Rmax_l]|].
    intros q [<-|Hq]; [apply Rmax_r|]. eapply Rle_trans; [apply H; auto|apply Rmax_l]. }
  destruct (L (list_prod lv (seq 0 k))) as (B & B0 & H). exists B. split; auto. intros s a Hs Ha.
  apply (H (s, a)). apply in_prod; [exact Hs|apply in_seq; lia].
Qed.

Theorem optimal_unique : forall q q', optimal_values lv k gamma e q -> optimal_values lv k gamma e q' ->
  forall s a, In s lv -> (a < k)%nat -> q s a = q' s a.
Proof.
  intros q q' O O'. destruct (finite_bound (fun s a => q s a - q' s a)) as (B & B0 & HB).
  assert (K : forall m s a, In s lv -> (a < k)%nat -> Rabs (q s a - q' s a) <= gamma ^ m * B).
  { induction m as [|m IH]; intros s a Hs Ha; [rewrite pow_O, Rmult_1_l; auto|].
    destruct (O s a Hs Ha) as (v & -> & V1 & V2). destruct (O' s a Hs Ha) as (w & -> & W1 & W2).
    replace (d_r e s a + gamma * v - (d_r e s a + gamma * w)) with (gamma * (v - w)) by ring.
    rewrite Rabs_mult, Rabs_pos_eq by lra. cbn [pow]. rewrite Rmult_assoc. apply Rmult_le_compat_l; [lra|].
    destruct (d_abs e s a) eqn:Ab.
    - rewrite V1, W1 by auto. rewrite Rminus_diag_eq, Rabs_R0 by auto. apply Rmult_le_pos; [apply pow_le|]; lra.
    - apply (is_max_close k (q (d_s e s a)) (q' (d_s e s a))); auto. }
  intros s a Hs Ha. apply cond_eq. intros eps He.
  destruct (pow_lt_1_zero gamma) with (y := eps / (B + 1)) as (m & Hm).
  { rewrite Rabs_pos_eq; lra. } { apply Rdiv_lt_0_compat; lra. }
  specialize (Hm m (Nat.le_refl _)). rewrite Rabs_pos_eq in Hm by (apply pow_le; lra).
  eapply Rle_lt_trans; [apply (K m); auto|].
  assert (0 <= gamma ^ m) by (apply pow_le; lra).
  assert (gamma ^ m * B <= gamma ^ m * (B + 1)) by (apply Rmult_le_compat_l; lra).
  assert (gamma ^ m * (B + 1) < eps / (B + 1) * (B + 1)) by (apply Rmult_lt_compat_r; lra).
  assert (eps / (B + 1) * (B + 1) = eps) by (field; lra). lra.
Qed.

Lemma live_In : forall s, existsb (Nat.eqb s) lv = true <-> In s lv.
Proof.
  intros s. rewrite existsb_exists. split.
  - intros (x & Hx & E). apply Nat.eqb_eq in E. subst. exact Hx.
  - intros H. exists s. split; [exact H|apply Nat.eqb_refl].
Qed.

(** Existence, by value iteration. *)
Definition bop (q : nat -> nat -> R) (s a : nat) : R :=
  if (existsb (Nat.eqb s) lv && (a <? k)%nat)
  then d_r e s a + gamma * (if d_abs e s a then 0 else qmax (map (q (d_s e s a)) (seq 0 k)))
  else 0.
Fixpoint qi (m : nat) : nat -> nat -> R := match m with O => fun _ _ => 0 | S m' => bop (qi m') end.

Lemma bop_close : forall q q' E, 0 <= E -> (forall s a, Rabs (q s a - q' s a) <= E) ->
  forall s a, Rabs (bop q s a - bop q' s a) <= gamma * E.
Proof.
  intros q q' E E0 H s a. unfold bop. destruct (existsb (Nat.eqb s) lv && (a <? k)%nat).
  - match goal with |- Rabs (_ + gamma * ?v - (_ + gamma * ?w)) <= _ =>
      replace (d_r e s a + gamma * v - (d_r e s a + gamma * w)) with (gamma * (v - w)) by ring end.
    rewrite Rabs_mult, Rabs_pos_eq by lra. apply Rmult_le_compat_l; [lra|].
    destruct (d_abs e s a); [rewrite Rminus_diag_eq, Rabs_R0 by auto; lra|].
    apply (is_max_close k (q (d_s e s a)) (q' (d_s e s a))); auto using qmax_is_max.
  - rewrite Rminus_diag_eq, Rabs_R0 by auto. apply Rmult_le_pos; lra.
Qed.

Lemma qi_bound : exists B, 0 <= B /\ forall m s a, Rabs (qi (S m) s a - qi m s a) <= gamma ^ m * B.
Proof.
  destruct (finite_bound (qi 1)) as (B & B0 & HB). exists B. split; auto.
  induction m as [|m IH]; intros s a.
  - rewrite pow_O, Rmult_1_l. cbn [qi]. rewrite Rminus_0_r.
    destruct (in_dec Nat.eq_dec s lv) as [Hs|Hs]; [destruct (lt_dec a k) as [Ha|Ha]|]; [apply HB; auto| |];
      unfold bop; [replace (a <? k)%nat with false by (symmetry; apply Nat.ltb_ge; lia); rewrite andb_false_r
                  |destruct (existsb (Nat.eqb s) lv) eqn:X; [apply live_In in X; contradiction|]];
      cbn [andb]; rewrite Rabs_R0; lra.
  - change (qi (S (S m))) with (bop (qi (S m))). change (qi (S m) s a) with (bop (qi m) s a). cbn [pow].
    rewrite Rmult_assoc. apply bop_close; auto. apply Rmult_le_pos; [apply pow_le|]; lra.
Qed.

Lemma qi_tail : exists C, 0 <= C /\ forall m p s a, Rabs (qi (m + p) s a - qi m s a) <= gamma ^ m * C.
Proof.
  destruct qi_bound as (B & B0 & HB). exists (B / (1 - gamma)).
  assert (D : 0 < 1 - gamma) by lra.
  split; [apply Rmult_le_pos; [lra|apply Rlt_le, Rinv_0_lt_compat; lra]|].
  intros m p s a.
  assert (K : Rabs (qi (m + p) s a - qi m s a) <= gamma ^ m * (B * (1 - gamma ^ p) / (1 - gamma))).
  { induction p as [|p IH].
    - rewrite Nat.add_0_r, Rminus_diag_eq, Rabs_R0 by auto. rewrite pow_O. 
      replace (gamma ^ m * (B * (1 - 1) / (1 - gamma))) with 0; [lra|field; lra].
    - replace (m + S p)%nat with (S (m + p)) by lia.
      replace (qi (S (m + p)) s a - qi m s a) with
        ((qi (S (m + p)) s a - qi (m + p) s a) + (qi (m + p) s a - qi m s a)) by ring.
      eapply Rle_trans; [apply Rabs_triang|]. pose proof (HB (m + p)%nat s a) as H1. rewrite pow_add in H1.
      replace (gamma ^ m * (B * (1 - gamma ^ S p) / (1 - gamma)))
        with (gamma ^ m * gamma ^ p * B + gamma ^ m * (B * (1 - gamma ^ p) / (1 - gamma))); [lra|].
      cbn [pow]. field. lra. }
  eapply Rle_trans; [exact K|]. apply Rmult_le_compat_l; [apply pow_le; lra|].
  unfold Rdiv. apply Rmult_le_compat_r; [apply Rlt_le, Rinv_0_lt_compat; lra|].
  assert (0 <= gamma ^ p) by (apply pow_le; lra). nra.
Qed.

Lemma gpow_small : forall C eps, 0 <= C -> 0 < eps -> exists m, forall m', (m <= m')%nat -> gamma ^ m' * C < eps.
Proof.
  intros C eps C0 He. destruct (pow_lt_1_zero gamma) with (y := eps / (C + 1)) as (m & Hm).
  { rewrite Rabs_pos_eq; lra. } { apply Rdiv_lt_0_compat; lra. }
  exists m. intros m' Hm'. specialize (Hm m' Hm'). rewrite Rabs_pos_eq in Hm by (apply pow_le; lra).
  assert (0 <= gamma ^ m') by (apply pow_le; lra).
  assert (gamma ^ m' * C <= gamma ^ m' * (C + 1)) by (apply Rmult_le_compat_l; lra).
  assert (gamma ^ m' * (C + 1) < eps / (C + 1) * (C + 1)) by (apply Rmult_lt_compat_r; lra).
  assert (eps / (C + 1) * (C + 1) = eps) by (field; lra). lra.
Qed.

Lemma qi_cauchy : forall s a, Cauchy_crit (fun m => qi m s a).
Proof.
  intros s a eps He. destruct qi_tail as (C & C0 & HC). destruct (gpow_small C (eps / 2) C0) as (N & HN); [lra|].
  exists N. intros i j Hi Hj. unfold R_dist.
  pose proof (HC N (i - N)%nat s a) as A. replace (N + (i - N))%nat with i in A by lia.
  pose proof (HC N (j - N)%nat s a) as B. replace (N + (j - N))%nat with j in B by lia.
  specialize (HN N (Nat.le_refl _)).
  replace (qi i s a - qi j s a) with ((qi i s a - qi N s a) - (qi j s a - qi N s a)) by ring.
  eapply Rle_lt_trans; [apply Rabs_triang|]. rewrite Rabs_Ropp. lra.
Qed.

Definition qlim (s a : nat) : R := proj1_sig (R_complete _ (qi_cauchy s a)).

Lemma qlim_tail : exists C, 0 <= C /\ forall m s a, Rabs (qlim s a - qi m s a) <= gamma ^ m * C.
Proof.
  destruct qi_tail as (C & C0 & HC). exists C. split; auto. intros m s a.
  unfold qlim. destruct (R_complete _ (qi_cauchy s a)) as [l Hl]. cbn [proj1_sig].
  apply Rnot_lt_le. intros L. destruct (Hl (Rabs (l - qi m s a) - gamma ^ m * C)) as (N & HN); [lra|].
  specialize (HN (m + N)%nat ltac:(lia)). unfold R_dist in HN. specialize (HC m N s a).
  assert (Rabs (l - qi m s a) <= Rabs (qi (m + N) s a - l) + Rabs (qi (m + N) s a - qi m s a)); [|lra].
  replace (l - qi m s a) with (- (qi (m + N) s a - l) + (qi (m + N) s a - qi m s a)) by ring.
  eapply Rle_trans; [apply Rabs_triang|]. rewrite Rabs_Ropp. lra.
Qed.

Theorem optimal_values_exist : exists q, optimal_values lv k gamma e q.
Proof.
  exists qlim. destruct qlim_tail as (C & C0 & HC).
  assert (F : forall s a, qlim s a = bop qlim s a).
  { intros s a. apply cond_eq. intros eps He. destruct (gpow_small C (eps / 2) C0) as (N & HN); [lra|].
    replace (qlim s a - bop qlim s a) with ((qlim s a - qi (S N) s a) + (bop (qi N) s a - bop qlim s a)) by (cbn [qi]; ring).
    eapply Rle_lt_trans; [apply Rabs_triang|].
    pose proof (HC (S N) s a) as A. pose proof (HN (S N) ltac:(lia)) as A'. pose proof (HN N ltac:(lia)) as B'.
    assert (B : Rabs (bop (qi N) s a - bop qlim s a) <= gamma * (gamma ^ N * C)).
    { apply bop_close; [apply Rmult_le_pos; [apply pow_le|]; lra|]. intros s0 a0. rewrite Rabs_minus_sym. apply HC. }
    cbn [pow] in A, A'. rewrite <- Rmult_assoc in B. lra. }
  intros s a Hs Ha. exists (if d_abs e s a then 0 else qmax (map (qlim (d_s e s a)) (seq 0 k))). split.
  - rewrite F at 1. unfold bop. rewrite (proj2 (live_In _) Hs), (proj2 (Nat.ltb_lt _ _) Ha). reflexivity.
  - split; intros ->; [reflexivity|apply qmax_is_max; exact K1].
Qed.

(** The optimal value of a pair is the supremum of the discounted returns that start with it. *)
Theorem optimal_values_are_returns : forall q, optimal_values lv k gamma e q -> exists B, 0 <= B /\
  forall s a, In s lv -> (a < k)%nat ->
    (forall acts, Forall (fun b => (b < k)%nat) acts ->
       ret gamma e (a :: acts) s <= q s a + gamma ^ S (length acts) * B) /\
    (forall m, exists acts, length acts = m /\ Forall (fun b => (b < k)%nat) acts /\
       q s a - gamma ^ S m * B <= ret gamma e (a :: acts) s).
Proof.
  intros q O. destruct (finite_bound q) as (B & B0 & HB). exists B. split; auto.
  assert (VB : forall s a v, In s lv -> (a < k)%nat -> d_abs e s a = false -> is_max k (q (d_s e s a)) v -> - B <= v <= B).
  { intros s a v Hs Ha Ab [(b & Hb & <-) _]. specialize (HB _ b (CL s a Hs Ha Ab) Hb). split; [|].
    - pose proof (Rle_abs (- q (d_s e s a) b)) as Z. rewrite Rabs_Ropp in Z. lra.
    - pose proof (Rle_abs (q (d_s e s a) b)). lra. }
  assert (GP : forall m, 0 <= gamma ^ m * B) by (intros; apply Rmult_le_pos; [apply pow_le|]; lra).
  intros s a Hs Ha. split.
  - intros acts. revert s a Hs Ha. induction acts as [|b acts IH]; intros s a Hs Ha F;
      destruct (O s a Hs Ha) as (v & Ev & V1 & V2); cbn [ret length]; rewrite Ev.
    + cbn [pow]. destruct (d_abs e s a) eqn:Ab.
      * rewrite V1 by auto. pose proof (GP 1%nat). cbn [pow] in *. lra.
      * specialize (VB s a v Hs Ha Ab (V2 eq_refl)). nra.
    + destruct (d_abs e s a) eqn:Ab.
      * rewrite V1 by auto. pose proof (GP (S (S (length acts)))). lra.
      * apply Forall_cons_iff in F as [Fb F]. specialize (IH _ b (CL s a Hs Ha Ab) Fb F). cbn [ret] in IH.
        destruct (V2 eq_refl) as [_ Mx]. specialize (Mx b Fb).
        match goal with |- _ + gamma * ?x <= _ => assert (HX : x <= v + gamma ^ S (length acts) * B) by lra end.
        apply (Rmult_le_compat_l gamma) in HX; [|lra]. cbn [pow] in *. lra.
  - intros m. revert s a Hs Ha. induction m as [|m IH]; intros s a Hs Ha;
      destruct (O s a Hs Ha) as (v & Ev & V1 & V2).
    + exists []. split; [reflexivity|]. split; [constructor|]. cbn [ret]. rewrite Ev. cbn [pow].
      destruct (d_abs e s a) eqn:Ab.
      * rewrite V1 by auto. pose proof (GP 1%nat). cbn [pow] in *. lra.
      * specialize (VB s a v Hs Ha Ab (V2 eq_refl)). nra.
    + destruct (d_abs e s a) eqn:Ab.
      * exists (repeat 0%nat (S m)). split; [apply repeat_length|]. split.
        { apply Forall_forall. intros b Hb. apply repeat_spec in Hb. lia. }
        cbn [repeat ret]. rewrite Ab, Ev, V1 by auto. pose proof (GP (S (S m))). lra.
      * destruct (V2 eq_refl) as [(b & Hb & Eb) _]. destruct (IH _ b (CL s a Hs Ha Ab) Hb) as (acts & L & F & I).
        exists (b :: acts). split; [cbn [length]; lia|]. split; [constructor; auto|].
        change (ret gamma e (a :: b :: acts) s) with
          (d_r e s a + (if d_abs e s a then 0 else gamma * ret gamma e (b :: acts) (d_s e s a))).
        rewrite Ab, Ev. rewrite Eb in I. apply (Rmult_le_compat_l gamma) in I; [|lra]. cbn [pow] in *. lra.
Qed.

(** Acting greedily with respect to the optimal values yields the largest return. *)
Fixpoint greedy_path (q : nat -> nat -> R) (acts : list nat) (s : nat) : Prop :=
  match acts with
  | [] => True
  | a :: rest => (a < k)%nat /\ (forall b, (b < k)%nat -> q s b <= q s a) /\
      (d_abs e s a = false -> greedy_path q rest (d_s e s a))
  end.

Theorem greedy_returns_optimal : forall q, optimal_values lv k gamma e q -> exists B, 0 <= B /\
  forall acts s v, In s lv -> is_max k (q s) v -> greedy_path q acts s ->
    Rabs (ret gamma e acts s - v) <= gamma ^ length acts * B.
Proof.
  intros q O. destruct (finite_bound q) as (B & B0 & HB). exists B. split; auto.
  induction acts as [|a acts IH]; intros s v Hs [(b & Hb & Eb) Mx] GP; cbn [ret length].
  - rewrite pow_O, Rmult_1_l, Rminus_0_l, Rabs_Ropp, <- Eb. apply HB; auto.
  - destruct GP as (Ha & Ga & Gr). assert (EV : v = q s a) by (pose proof (Mx a Ha); pose proof (Ga b Hb); lra).
    destruct (O s a Hs Ha) as (w & Ew & W1 & W2). rewrite EV, Ew. destruct (d_abs e s a) eqn:Ab.
    + rewrite W1 by auto. replace (d_r e s a + 0 - (d_r e s a + gamma * 0)) with 0 by ring. rewrite Rabs_R0.
      apply Rmult_le_pos; [apply pow_le|]; lra.
    + specialize (IH _ w (CL s a Hs Ha Ab) (W2 eq_refl) (Gr eq_refl)).
      replace (d_r e s a + gamma * ret gamma e acts (d_s e s a) - (d_r e s a + gamma * w))
        with (gamma * (ret gamma e acts (d_s e s a) - w)) by ring.
      rewrite Rabs_mult, Rabs_pos_eq by lra. cbn [pow]. rewrite Rmult_assoc. apply Rmult_le_compat_l; [lra|exact IH].
Qed.
End Opt.

(** ** Learning *)
(** The sample is one the environment produces. *)
Definition follows (lv : list nat) (k : nat) (e : denv) (x : sample) : Prop :=
  In (x_s x) lv /\ (x_a x < k)%nat /\ (x_r x, x_s' x, x_abs x) = e (x_s x) (x_a x).

(** The learning rates used for a pair before time N add up to infinity, for every pair. *)
Definition rates_of (al : nat -> R) (xs : nat -> sample) (s a N : nat) : R :=
  rsum (map (fun t => if pair_eqb (x_s (xs t), x_a (xs t)) (s, a) then al t else 0) (seq 0 N)).
Definition rates_diverge (lv : list nat) (k : nat) (al : nat -> R) (xs : nat -> sample) : Prop :=
  forall s a, In s lv -> (a < k)%nat -> forall M, exists N, M <= rates_of al xs s a N.

Definition pair_eq_dec : forall a b : nat * nat, {a = b} + {a <> b}.
Proof. decide equality; apply Nat.eq_dec. Defined.

Lemma rates_wsum : forall al xs s a N,
  wsum pair_eq_dec (fun t => (x_s (xs t), x_a (xs t))) al (s, a) N = rates_of al xs s a N.
Proof.
  intros al xs s a. unfold rates_of. induction N as [|N IH]; [reflexivity|].
  cbn [wsum]. rewrite IH, seq_S, map_app, rsum_app. cbn [map rsum plus]. unfold wt.
  destruct (pair_eq_dec _ _) as [E|E].
  - rewrite (proj2 (pair_eqb_spec _ _) E). ring.
  - destruct (pair_eqb _ _) eqn:Q; [apply pair_eqb_spec in Q; contradiction|ring].
Qed.

Lemma follows_ok : forall lv k e x, follows lv k e x ->
  (In (x_s x) lv /\ (x_a x < k)%nat) /\ x_r x = d_r e (x_s x) (x_a x) /\ x_s' x = d_s e (x_s x) (x_a x) /\ x_abs x = d_abs e (x_s x) (x_a x).
Proof.
  intros lv k e x (A & B & C). unfold d_r, d_s, d_abs. rewrite <- C. cbn [fst snd]. repeat split; auto.
Qed.

(** Convergence of one table whose visited entry moves towards r + gamma * nxt, where nxt is
    zero for absorbing samples and otherwise as close to [star] of the entry as the table is to q. *)
Lemma table_converges : forall n lv k gamma e (q : nat -> nat -> R) (star : nat -> nat -> R) al xs (Q : nat -> table) (nxt : nat -> R),
  0 <= gamma < 1 -> (forall s, In s lv -> (s < n)%nat) -> closed lv k e ->
  (forall s a, In s lv -> (a < k)%nat -> q s a = d_r e s a + gamma * star s a) ->
  shaped n k (Q O) ->
  (forall t, 0 <= al t <= 1 /\ follows lv k e (xs t) /\
     Q (S t) = tset (Q t) (x_s (xs t)) (x_a (xs t))
       (tget (Q t) (x_s (xs t)) (x_a (xs t)) +
        al t * (x_r (xs t) + gamma * nxt t - tget (Q t) (x_s (xs t)) (x_a (xs t))))) ->
  (forall t E, shaped n k (Q t) -> (forall s a, In s lv -> (a < k)%nat -> Rabs (tget (Q t) s a - q s a) <= E) -> 0 <= E ->
     Rabs (nxt t - star (x_s (xs t)) (x_a (xs t))) <= E) ->
  rates_diverge lv k al xs ->
  forall eps, 0 < eps -> exists N, forall t, (N <= t)%nat -> forall s a, In s lv -> (a < k)%nat ->
    Rabs (tget (Q t) s a - q s a) < eps.
Proof.
  intros n lv k gamma e q star al xs Q nxt G IN CL HQ S0 ST NX RD eps He.
  assert (SH : forall t, shaped n k (Q t)).
  { induction t as [|t IH]; auto. destruct (ST t) as (_ & _ & ->). apply tset_shaped; auto. }
  assert (KK : forall s a, In (s, a) (list_prod lv (seq 0 k)) <-> In s lv /\ (a < k)%nat).
  { intros s a. rewrite in_prod_iff, in_seq. intuition lia. }
  destruct (async_converges pair_eq_dec (list_prod lv (seq 0 k))
     (fun t z => tget (Q t) (fst z) (snd z)) (fun z => q (fst z) (snd z))
     (fun t => (x_s (xs t), x_a (xs t))) al (fun t => x_r (xs t) + gamma * nxt t) gamma G) with (eps := eps) as (N & HN).
  - intros t. apply ST.
  - intros t. destruct (ST t) as (_ & (A & B & _) & ->). cbn [fst snd].
    rewrite (tget_tset_eq n k) by auto. ring.
  - intros t [s a] NE. destruct (ST t) as (_ & _ & ->). cbn [fst snd]. apply tget_tset_neq. exact NE.
  - intros t E HE. cbn [fst snd]. destruct (ST t) as (_ & F & _).
    destruct (follows_ok _ _ _ _ F) as ((A & B) & Er & _ & _).
    rewrite HQ, Er by auto.
    replace (d_r e (x_s (xs t)) (x_a (xs t)) + gamma * nxt t -
       (d_r e (x_s (xs t)) (x_a (xs t)) + gamma * star (x_s (xs t)) (x_a (xs t))))
      with (gamma * (nxt t - star (x_s (xs t)) (x_a (xs t)))) by ring.
    rewrite Rabs_mult, Rabs_pos_eq by lra. apply Rmult_le_compat_l; [lra|].
    assert (HE' : forall s a, In s lv -> (a < k)%nat -> Rabs (tget (Q t) s a - q s a) <= E).
    { intros s a Hs Ha. apply (HE (s, a)). apply KK. auto. }
    apply NX; auto. eapply Rle_trans; [apply Rabs_pos|apply (HE' _ _ A B)].
  - intros [s a] Hz M. apply KK in Hz as [Hs Ha]. destruct (RD s a Hs Ha M) as (N & HN). exists N.
    rewrite rates_wsum. exact HN.
  - exact He.
  - exists N. intros t Ht s a Hs Ha. apply (HN t Ht (s, a)). apply KK. auto.
Qed.

(** Values that differ, differ by some fixed gap. *)
Lemma value_gap : forall lv k (q : nat -> nat -> R), exists d, 0 < d /\
  forall s a b, In s lv -> (a < k)%nat -> (b < k)%nat -> q s a < q s b -> q s a + d <= q s b.
Proof.
  intros lv k q.
  assert (L : forall l : list (nat * (nat * nat)), exists d, 0 < d /\ forall p, In p l ->
     q (fst p) (fst (snd p)) < q (fst p) (snd (snd p)) -> q (fst p) (fst (snd p)) + d <= q (fst p) (snd (snd p))).
  { induction l as [|p l (d & D0 & H)]; [exists 1; split; [lra|intros p []]|].
    destruct (Rlt_dec (q (fst p) (fst (snd p))) (q (fst p) (snd (snd p)))) as [C|C].
    - exists (Rmin d (q (fst p) (snd (snd p)) - q (fst p) (fst (snd p)))). split; [apply Rmin_glb_lt; lra|].
      intros p' [<-|Hp] Lt.
      + pose proof (Rmin_r d (q (fst p) (snd (snd p)) - q (fst p) (fst (snd p)))). lra.
      + pose proof (Rmin_l d (q (fst p) (snd (snd p)) - q (fst p) (fst (snd p)))). specialize (H p' Hp Lt). lra.
    - exists d. split; auto. intros p' [<-|Hp] Lt; [contradiction|auto]. }
  destruct (L (list_prod lv (list_prod (seq 0 k) (seq 0 k)))) as (d & D0 & H).
  exists d. split; auto. intros s a b Hs Ha Hb Lt. apply (H (s, (a, b))); auto.
  apply in_prod; [exact Hs|apply in_prod; apply in_seq; lia].
Qed.

(** Q-learning converges to the optimal values, and from some time on every greedy action is an
    optimal one. *)
Theorem q_learning_converges : forall n lv k gamma e q al xs (Q : nat -> table),
  0 <= gamma < 1 -> (forall s, In s lv -> (s < n)%nat) -> closed lv k e -> optimal_values lv k gamma e q -> shaped n k (Q O) ->
  (forall t, 0 <= al t <= 1 /\ follows lv k e (xs t) /\ Q (S t) = ql_update gamma (al t) (Q t) (xs t)) ->
  rates_diverge lv k al xs ->
  (forall eps, 0 < eps -> exists N, forall t, (N <= t)%nat -> forall s a, In s lv -> (a < k)%nat ->
     Rabs (tget (Q t) s a - q s a) < eps) /\
  (exists N, forall t, (N <= t)%nat -> forall s a, In s lv -> In a (argmaxs (row (Q t) s)) ->
     is_max k (q s) (q s a)).
Proof.
  intros n lv k gamma e q al xs Q G IN CL OV S0 ST RD.
  assert (SH : forall t, shaped n k (Q t)).
  { induction t as [|t IH]; auto. destruct (ST t) as (_ & _ & ->). apply tset_shaped; auto. }
  assert (K1 : (1 <= k)%nat) by (destruct (ST O) as (_ & (_ & B & _) & _); lia).
  assert (CV : forall eps, 0 < eps -> exists N, forall t, (N <= t)%nat -> forall s a, In s lv -> (a < k)%nat ->
     Rabs (tget (Q t) s a - q s a) < eps).
  { apply (table_converges n lv k gamma e q (fun s a => if d_abs e s a then 0 else qmax (map (q (d_s e s a)) (seq 0 k))) al xs Q
       (fun t => if x_abs (xs t) then 0 else qmax (row (Q t) (x_s' (xs t))))); auto.
    - intros s a Hs Ha. destruct (OV s a Hs Ha) as (v & -> & V1 & V2). f_equal. f_equal.
      destruct (d_abs e s a); [auto|].
      pose proof (is_max_close k _ _ _ _ 0 (V2 eq_refl) (qmax_is_max k (q (d_s e s a)) K1)) as Z.
      apply Rminus_diag_uniq. pose proof (Rabs_pos (v - qmax (map (q (d_s e s a)) (seq 0 k)))) as Z0.
      destruct (Req_dec (v - qmax (map (q (d_s e s a)) (seq 0 k))) 0) as [|NZ]; auto. exfalso.
      pose proof (Rabs_pos_lt _ NZ). assert (Rabs (v - qmax (map (q (d_s e s a)) (seq 0 k))) <= 0); [|lra].
      apply Z. intros b Hb. rewrite Rminus_diag_eq, Rabs_R0 by auto. lra.
    - intros t E Sh HE E0. destruct (ST t) as (_ & F & _).
      destruct (follows_ok _ _ _ _ F) as ((A & B) & _ & -> & ->).
      destruct (d_abs e (x_s (xs t)) (x_a (xs t))) eqn:Ab; [rewrite Rminus_diag_eq, Rabs_R0 by auto; lra|].
      assert (Hs : In (d_s e (x_s (xs t)) (x_a (xs t))) lv) by (apply CL; auto).
      set (s' := d_s e (x_s (xs t)) (x_a (xs t))) in *.
      apply (is_max_close k (tget (Q t) s') (q s')); [|apply qmax_is_max; auto|auto].
      pose proof (row_length n k (Q t) s' Sh (IN _ Hs)) as LR.
      destruct (qmax_spec (row (Q t) s')) as [I M]; [destruct (row (Q t) s'); simpl in LR; [lia|discriminate]|]. split.
      + apply (In_nth _ _ 0) in I as (b & Hb & E'). exists b. split; [lia|exact E'].
      + intros b Hb. apply M. apply nth_In. lia. }
  split; [exact CV|].
  destruct (value_gap lv k q) as (d & D0 & Gap). destruct (CV (d / 2)) as (N & HN); [lra|].
  exists N. intros t Ht s a Hs Ia.
  pose proof (row_length n k (Q t) s (SH t) (IN _ Hs)) as LR.
  apply argmaxs_In in Ia as [La Ma]; [|destruct (row (Q t) s); simpl in LR; [lia|discriminate]].
  rewrite LR in La, Ma. split; [exists a; auto|]. intros b Hb. apply Rnot_lt_le. intros Lt.
  specialize (Gap s a b Hs La Hb Lt). specialize (Ma b Hb).
  pose proof (HN t Ht s a Hs La) as Ea. pose proof (HN t Ht s b Hs Hb) as Eb. unfold tget in Ea, Eb.
  apply Rabs_def2 in Ea. apply Rabs_def2 in Eb. lra.
Qed.

(** The values of a policy. *)
Definition policy_values (lv : list nat) (k : nat) (gamma : R) (e : denv) (pi : nat -> list R) (q : nat -> nat -> R) : Prop :=
  forall s a, In s lv -> (a < k)%nat ->
    q s a = d_r e s a + gamma * (if d_abs e s a then 0
                                 else rsum (map (fun b => nth b (pi (d_s e s a)) 0 * q (d_s e s a) b) (seq 0 k))).

Lemma rsum_close : forall l (p f g : nat -> R) E, (forall b, In b l -> 0 <= p b) ->
  (forall b, In b l -> Rabs (f b - g b) <= E) ->
  Rabs (rsum (map (fun b => p b * f b) l) - rsum (map (fun b => p b * g b) l)) <= E * rsum (map p l).
Proof.
  induction l as [|b l IH]; intros p f g E Hp H; cbn [map rsum].
  - rewrite Rminus_0_r, Rabs_R0. lra.
  - specialize (IH p f g E (fun c Hc => Hp c (or_intror Hc)) (fun c Hc => H c (or_intror Hc))).
    match goal with |- Rabs (?a + ?x - (?c + ?y)) <= _ => replace (a + x - (c + y)) with (p b * (f b - g b) + (x - y)) by ring end.
    eapply Rle_trans; [apply Rabs_triang|]. rewrite Rabs_mult, (Rabs_pos_eq (p b)) by (apply Hp; left; auto).
    assert (p b * Rabs (f b - g b) <= p b * E).
    { apply Rmult_le_compat_l; [apply Hp; left; auto|apply H; left; auto]. }
    lra.
Qed.

Theorem expected_sarsa_converges : forall n lv k gamma e pi q al xs (Q : nat -> table),
  0 <= gamma < 1 -> (forall s, In s lv -> (s < n)%nat) -> closed lv k e ->
  (forall s, In s lv -> length (pi s) = k /\ distribution (pi s)) ->
  policy_values lv k gamma e pi q -> shaped n k (Q O) ->
  (forall t, 0 <= al t <= 1 /\ follows lv k e (xs t) /\
     Q (S t) = esarsa_update gamma (al t) (pi (x_s' (xs t))) (Q t) (xs t)) ->
  rates_diverge lv k al xs ->
  forall eps, 0 < eps -> exists N, forall t, (N <= t)%nat -> forall s a, In s lv -> (a < k)%nat ->
    Rabs (tget (Q t) s a - q s a) < eps.
Proof.
  intros n lv k gamma e pi q al xs Q G IN CL HP PV S0 ST RD.
  apply (table_converges n lv k gamma e q
     (fun s a => if d_abs e s a then 0 else rsum (map (fun b => nth b (pi (d_s e s a)) 0 * q (d_s e s a) b) (seq 0 k)))
     al xs Q (fun t => if x_abs (xs t) then 0 else dot (row (Q t) (x_s' (xs t))) (pi (x_s' (xs t))))); auto.
  intros t E Sh HE E0. destruct (ST t) as (_ & F & _).
  destruct (follows_ok _ _ _ _ F) as ((A & B) & _ & -> & ->).
  destruct (d_abs e (x_s (xs t)) (x_a (xs t))) eqn:Ab; [rewrite Rminus_diag_eq, Rabs_R0 by auto; lra|].
  assert (Hs : In (d_s e (x_s (xs t)) (x_a (xs t))) lv) by (apply CL; auto).
  set (s' := d_s e (x_s (xs t)) (x_a (xs t))) in *. destruct (HP s' Hs) as (LP & DP0 & DP1).
  pose proof (row_length n k (Q t) s' Sh (IN _ Hs)) as LR.
  rewrite dot_nth, LR by lia.
  rewrite (rsum_map_ext _ (fun i => nth i (row (Q t) s') 0 * nth i (pi s') 0) (fun i => nth i (pi s') 0 * tget (Q t) s' i)).
  2: { intros i _. unfold tget. ring. }
  assert (SP : rsum (map (fun b => nth b (pi s') 0) (seq 0 k)) = 1).
  { rewrite <- DP1. f_equal. rewrite <- LP. clear. induction (pi s') as [|x l IH]; [reflexivity|].
    cbn [length seq map nth]. f_equal. rewrite <- seq_shift, map_map. exact IH. }
  eapply Rle_trans; [apply (rsum_close (seq 0 k) (fun b => nth b (pi s') 0) (tget (Q t) s') (q s') E)|rewrite SP; lra].
  - intros b Hb. apply in_seq in Hb. apply DP0, nth_In. lia.
  - intros b Hb. apply in_seq in Hb. apply HE; auto. lia.
Qed.

(** Maxmin Q-learning: all tables converge, when each of them goes on learning. *)
Definition rates_of_table (al : nat -> R) (ix : nat -> nat) (xs : nat -> sample) (i s a N : nat) : R :=
  rsum (map (fun t => if Nat.eqb (ix t) i && pair_eqb (x_s (xs t), x_a (xs t)) (s, a) then al t else 0) (seq 0 N)).

Theorem maxmin_q_converges : forall n lv k m gamma e q al ix xs (Qs : nat -> list table),
  0 <= gamma < 1 -> (forall s, In s lv -> (s < n)%nat) -> closed lv k e -> optimal_values lv k gamma e q ->
  length (Qs O) = m -> (forall T, In T (Qs O) -> shaped n k T) ->
  (forall t, 0 <= al t <= 1 /\ (ix t < m)%nat /\ follows lv k e (xs t) /\
     Qs (S t) = mm_update gamma (al t) (ix t) (Qs t) (xs t)) ->
  (forall i s a, (i < m)%nat -> In s lv -> (a < k)%nat -> forall M, exists N, M <= rates_of_table al ix xs i s a N) ->
  forall eps, 0 < eps -> exists N, forall t, (N <= t)%nat -> forall i s a, (i < m)%nat -> In s lv -> (a < k)%nat ->
    Rabs (tget (nth i (Qs t) []) s a - q s a) < eps.
Proof.
  intros n lv k m gamma e q al ix xs Qs G IN CL OV LQ S0 ST RD eps He.
  assert (SH : forall t, length (Qs t) = m /\ forall T, In T (Qs t) -> shaped n k T).
  { induction t as [|t [IH1 IH2]]; auto. destruct (ST t) as (_ & Hi & F & ->).
    destruct (follows_ok _ _ _ _ F) as (SO & _). unfold mm_update; cbv zeta. split; [rewrite Common.setnth_length; auto|].
    intros T HT. apply (In_nth _ _ []) in HT as (j & Hj & <-). rewrite Common.setnth_length in Hj.
    destruct (Nat.eq_dec j (ix t)) as [->|NE].
    - rewrite Common.nth_setnth_eq by lia. apply tset_shaped. apply IH2, nth_In. lia.
    - rewrite Common.nth_setnth_neq by auto. apply IH2, nth_In. lia. }
  assert (K1 : (1 <= k)%nat) by (destruct (ST O) as (_ & _ & (_ & B & _) & _); lia).
  assert (zeq : forall a b : nat * (nat * nat), {a = b} + {a <> b}) by (decide equality; [apply pair_eq_dec|apply Nat.eq_dec]).
  set (keys := list_prod (seq 0 m) (list_prod lv (seq 0 k))).
  assert (KK : forall i s a, In (i, (s, a)) keys <-> (i < m)%nat /\ In s lv /\ (a < k)%nat).
  { intros i s a. unfold keys. rewrite !in_prod_iff, !in_seq. intuition lia. }
  destruct (async_converges zeq keys
     (fun t z => tget (nth (fst z) (Qs t) []) (fst (snd z)) (snd (snd z))) (fun z => q (fst (snd z)) (snd (snd z)))
     (fun t => (ix t, (x_s (xs t), x_a (xs t)))) al
     (fun t => x_r (xs t) + gamma * (if x_abs (xs t) then 0 else qmax (ens_min (Qs t) (x_s' (xs t))))) gamma G)
    with (eps := eps) as (N & HN).
  - intros t. apply ST.
  - intros t. destruct (SH t) as [L1 L2]. destruct (ST t) as (_ & Hi & (A & B & _) & ->). cbn [fst snd].
    unfold mm_update; cbv zeta. rewrite Common.nth_setnth_eq by lia.
    rewrite (tget_tset_eq n k) by (auto; apply L2, nth_In; lia). ring.
  - intros t [i [s a]] NE. destruct (SH t) as [L1 L2]. destruct (ST t) as (_ & Hi & _ & ->). cbn [fst snd].
    unfold mm_update; cbv zeta. destruct (Nat.eq_dec i (ix t)) as [->|Ni].
    + rewrite Common.nth_setnth_eq by lia. apply tget_tset_neq. congruence.
    + rewrite Common.nth_setnth_neq by auto. reflexivity.
  - intros t E HE. cbn [fst snd]. destruct (SH t) as [L1 L2]. destruct (ST t) as (_ & Hi & F & _).
    destruct (follows_ok _ _ _ _ F) as ((A & B) & Er & Es & Ea).
    destruct (OV _ _ A B) as (v & -> & V1 & V2). rewrite Er, Ea.
    match goal with |- Rabs (_ + gamma * ?w - _) <= _ =>
      replace (d_r e (x_s (xs t)) (x_a (xs t)) + gamma * w - (d_r e (x_s (xs t)) (x_a (xs t)) + gamma * v))
        with (gamma * (w - v)) by ring end.
    rewrite Rabs_mult, Rabs_pos_eq by lra. apply Rmult_le_compat_l; [lra|].
    assert (E0 : 0 <= E).
    { eapply Rle_trans; [apply Rabs_pos|apply (HE (ix t, (x_s (xs t), x_a (xs t))))]. apply KK. auto. }
    destruct (d_abs e (x_s (xs t)) (x_a (xs t))) eqn:Ab.
    { rewrite V1 by auto. rewrite Rminus_diag_eq, Rabs_R0 by auto. lra. }
    pose proof (CL _ _ A B Ab) as C. rewrite Es in *. set (s' := d_s e (x_s (xs t)) (x_a (xs t))) in *.
    assert (NE : Qs t <> []) by (intros Z; rewrite Z in L1; simpl in L1; lia).
    destruct (ens_min_spec n k (Qs t) s' NE L2 (IN _ C)) as [LE ME].
    apply (is_max_close k (fun b => nth b (ens_min (Qs t) s') 0) (q s')); [|auto|].
    + destruct (qmax_spec (ens_min (Qs t) s')) as [I M]; [intros Z; rewrite Z in LE; simpl in LE; lia|]. split.
      * apply (In_nth _ _ 0) in I as (b & Hb & E'). exists b. split; [lia|exact E'].
      * intros b Hb. apply M, nth_In. lia.
    + intros b Hb. destruct (ME b Hb) as [(T & IT & ET) _]. rewrite ET.
      apply (In_nth _ _ []) in IT as (i & Li & ET2); rewrite <- ET2; clear ET2. apply (HE (i, (s', b))). apply KK. split; [rewrite <- L1; exact Li|]. split; [exact C|exact Hb].
  - intros [i [s a]] Hz M. apply KK in Hz as (Hi & Hs & Ha). destruct (RD i s a Hi Hs Ha M) as (N & HN). exists N.
    eapply Rle_trans; [exact HN|]. apply Req_le. clear. unfold rates_of_table.
    induction N as [|N IH]; [reflexivity|]. cbn [wsum]. rewrite <- IH, seq_S, map_app, rsum_app. cbn [map rsum plus].
    unfold wt. destruct (zeq _ _) as [E|E].
    + injection E as E1 E2 E3. rewrite (proj2 (Nat.eqb_eq _ _) E1), (proj2 (pair_eqb_spec _ _)) by congruence.
      cbn [andb]. ring.
    + destruct (Nat.eqb (ix N) i) eqn:Q1, (pair_eqb _ _) eqn:Q2; cbn [andb]; try ring. exfalso. apply E.
      apply Nat.eqb_eq in Q1. apply pair_eqb_spec in Q2. congruence.
  - exact He.
  - exists N. intros t Ht i s a Hi Hs Ha. apply (HN t Ht (i, (s, a))). apply KK. auto.
Qed.

(** ** Learning rates for which the hypothesis holds *)
Fixpoint visits (xs : nat -> sample) (s a t : nat) : nat :=
  match t with
  | O => O
  | S t' => ((if pair_eqb (x_s (xs t'), x_a (xs t')) (s, a) then 1 else 0) + visits xs s a t')%nat
  end.
Definition visited_forever (lv : list nat) (k : nat) (xs : nat -> sample) : Prop :=
  forall s a, In s lv -> (a < k)%nat -> forall T, exists t, (T <= t)%nat /\ x_s (xs t) = s /\ x_a (xs t) = a.

Lemma visits_unbounded : forall lv k xs s a, visited_forever lv k xs -> In s lv -> (a < k)%nat ->
  forall m, exists N, (m <= visits xs s a N)%nat.
Proof.
  intros lv k xs s a V Hs Ha. 
  assert (Mo : forall i j, (i <= j)%nat -> (visits xs s a i <= visits xs s a j)%nat).
  { intros i j H. induction H; auto. cbn [visits]. lia. }
  induction m as [|m (N & HN)]; [exists O; lia|].
  destruct (V s a Hs Ha N) as (t & Ht & E1 & E2). exists (S t). cbn [visits].
  rewrite (proj2 (pair_eqb_spec _ _)) by congruence. specialize (Mo N t Ht). lia.
Qed.

(** A rate of at least c / (number of the visit) is enough: constant rates, and rates that decay
    with the number of visits to an exponent of at most one. *)
Theorem decaying_rates_diverge : forall lv k al xs c, 0 < c -> visited_forever lv k xs ->
  (forall t, c / INR (S (visits xs (x_s (xs t)) (x_a (xs t)) t)) <= al t) ->
  rates_diverge lv k al xs.
Proof.
  intros lv k al xs c C0 V HA s a Hs Ha M.
  assert (K : forall N, c * ln (INR (S (visits xs s a N))) <= rates_of al xs s a N).
  { induction N as [|N IH].
    - cbn [visits]. unfold rates_of. cbn [seq map rsum]. change (INR 1) with 1. rewrite ln_1. lra.
    - unfold rates_of in *. rewrite seq_S, map_app, rsum_app. cbn [map rsum plus visits].
      destruct (pair_eqb (x_s (xs N), x_a (xs N)) (s, a)) eqn:P; [|cbn [plus]; lra].
      apply pair_eqb_spec in P. injection P as P1 P2. specialize (HA N). rewrite P1, P2 in HA.
      set (v := visits xs s a N) in *. change (1 + v)%nat with (S v). rewrite (S_INR (S v)).
      assert (I0 : 0 < INR (S v)) by (apply lt_0_INR; lia).
      assert (LN : ln (INR (S v) + 1) <= ln (INR (S v)) + / INR (S v)).
      { replace (INR (S v) + 1) with (INR (S v) * (1 + / INR (S v))) by (field; lra).
        rewrite ln_mult; [|exact I0|assert (0 < / INR (S v)) by (apply Rinv_0_lt_compat; lra); lra].
        apply Rplus_le_compat_l. rewrite <- (ln_exp (/ INR (S v))) at 2.
        assert (0 < / INR (S v)) by (apply Rinv_0_lt_compat; lra).
        apply Rlt_le, ln_increasing; [lra|]. apply exp_ineq1. lra. }
      apply (Rmult_le_compat_l c) in LN; [|lra]. unfold Rdiv in HA. lra. }
  destruct (visits_unbounded lv k xs s a V Hs Ha (Z.to_nat (up (exp (M / c))))) as (N & HN).
  exists N. eapply Rle_trans; [|apply K].
  assert (E : exp (M / c) <= INR (S (visits xs s a N))).
  { pose proof (exp_pos (M / c)) as P. destruct (archimed (exp (M / c))) as [A _].
    assert (0 <= up (exp (M / c)))%Z by (apply le_IZR; lra).
    apply le_INR in HN. rewrite INR_IZR_INZ, Z2Nat.id in HN by auto. rewrite S_INR. lra. }
  assert (L : M / c <= ln (INR (S (visits xs s a N)))).
  { rewrite <- (ln_exp (M / c)). destruct E as [E|E]; [apply Rlt_le, ln_increasing; auto; apply exp_pos|rewrite E; lra]. }
  apply (Rmult_le_compat_l c) in L; [|lra]. replace (c * (M / c)) with M in L by (field; lra). exact L.
Qed.

(** ** A concrete case *)
(** From state 0, action 0 stays (reward 1), action 1 goes to state 1 (reward 0); from state 1
    both actions end the episode in state 2 with reward 4.  No action is taken in state 2.  With
    gamma = 1/2 the optimal values of states 0 and 1 are 2 and 4. *)
Definition ex_env : denv := fun s a =>
  match s, a with O, O => (1, O, false) | O, _ => (0, 1%nat, false) | _, _ => (4, 2%nat, true) end.

Example optimal_ex : closed [0; 1]%nat 2 ex_env /\
  optimal_values [0; 1]%nat 2 (1 / 2) ex_env (fun s _ => match s with O => 2 | _ => 4 end) /\
  ret (1 / 2) ex_env [0; 0; 1; 0]%nat 0 = 1 + 1 / 2 * (1 + 1 / 2 * (0 + 1 / 2 * 4)).
Proof.
  split; [|split].
  - intros s a [<-|[<-|[]]]; destruct a as [|a]; cbn; auto; discriminate.
  - intros s a [<-|[<-|[]]] Ha; destruct a as [|a].
    + exists 2. cbn. split; [lra|]. split; [discriminate|]. intros _. split; [exists O; split; [lia|reflexivity]|intros; lra].
    + exists 4. cbn. split; [lra|]. split; [discriminate|]. intros _. split; [exists O; split; [lia|reflexivity]|intros; lra].
    + exists 0. cbn. split; [lra|]. split; [reflexivity|discriminate].
    + exists 0. cbn. split; [lra|]. split; [reflexivity|discriminate].
  - cbn. lra.
Qed.

(** A cyclic visiting order with constant rate satisfies the hypotheses. *)
Definition ex_sample (t : nat) : sample :=
  let s := ((t / 2) mod 2)%nat in let a := (t mod 2)%nat in
  {| x_s := s; x_a := a; x_r := d_r ex_env s a; x_s' := d_s ex_env s a; x_abs := d_abs ex_env s a |}.
Fixpoint ex_Q (t : nat) : table := match t with O => tconst 3 2 0 | S t' => ql_update (1 / 2) (1 / 4) (ex_Q t') (ex_sample t') end.

Example learns_ex : forall eps, 0 < eps -> exists N, forall t, (N <= t)%nat ->
  Rabs (tget (ex_Q t) 0 1 - 2) < eps.
Proof.
  intros eps He.
  assert (M2 : forall t, (t mod 2 < 2)%nat) by (intros; apply Nat.mod_upper_bound; lia).
  assert (IL : forall s, In s [0; 1]%nat <-> (s < 2)%nat) by (intros s; cbn; lia).
  destruct (q_learning_converges 3 [0; 1]%nat 2 (1 / 2) ex_env (fun s _ => match s with O => 2 | _ => 4 end) (fun _ => 1 / 4) ex_sample ex_Q)
    as [CV _]; try lra.
  - intros s Hs. apply IL in Hs. lia.
  - apply optimal_ex.
  - apply optimal_ex.
  - apply tconst_shaped.
  - intros t. split; [lra|]. split; [|reflexivity].
    split; [apply IL, M2|]. split; [apply M2|]. unfold d_r, d_s, d_abs, ex_sample. cbn [x_r x_s' x_abs x_s x_a].
    unfold d_r, d_s, d_abs. destruct (ex_env _ _) as [[? ?] ?]. reflexivity.
  - apply (decaying_rates_diverge _ 2 _ _ (1 / 4)); [lra| |].
    + intros s a Hs Ha T. apply IL in Hs. exists (4 * T + 2 * s + a)%nat. split; [lia|]. cbn [ex_sample x_s x_a]. split.
      * replace (4 * T + 2 * s + a)%nat with (a + (2 * T + s) * 2)%nat by lia. rewrite Nat.div_add by lia.
        rewrite Nat.div_small by lia. replace (0 + (2 * T + s))%nat with (s + T * 2)%nat by lia.
        rewrite Nat.mod_add by lia. apply Nat.mod_small. lia.
      * replace (4 * T + 2 * s + a)%nat with (a + (2 * T + s) * 2)%nat by lia. rewrite Nat.mod_add by lia.
        apply Nat.mod_small. lia.
    + intros t. set (v := visits _ _ _ _). assert (1 <= INR (S v)) by (rewrite S_INR; pose proof (pos_INR v); lra).
      unfold Rdiv. rewrite <- (Rmult_1_r (1 * / 4)) at 2. apply Rmult_le_compat_l; [lra|].
      rewrite <- Rinv_1. apply Rinv_le_contravar; lra.
  - destruct (CV eps He) as (N & HN). exists N. intros t Ht. apply (HN t Ht 0%nat 1%nat); [apply IL|]; lia.
Qed.

Print Assumptions async_converges.
Print Assumptions optimal_unique.
Print Assumptions optimal_values_exist.
Print Assumptions optimal_values_are_returns.
Print Assumptions greedy_returns_optimal.
Print Assumptions q_learning_converges.
Print Assumptions expected_sarsa_converges.
Print Assumptions maxmin_q_converges.
Print Assumptions decaying_rates_diverge.

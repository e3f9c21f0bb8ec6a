(** Asynchronous contractions with noise that averages out. *)
From Coq Require Import List Arith Lia Bool Reals Lra.
From Verif Require Import Common PolicyModel PolicySpec PolicyProofs TdModel TdSpec TdProofs ConvProps StochSpec.
Import ListNotations.
Local Open Scope R_scope.

Definition vanishes (f : nat -> R) : Prop := forall eps, 0 < eps -> exists N, forall t, (N <= t)%nat -> Rabs (f t) < eps.

Lemma vanishes_scale : forall f c, vanishes f -> vanishes (fun t => c * f t).
Proof.
  intros f c H eps He. destruct (H (eps / (Rabs c + 1))) as (N & HN).
  { apply Rdiv_lt_0_compat; [lra|]. pose proof (Rabs_pos c). lra. }
  exists N. intros t Ht. specialize (HN t Ht). pose proof (Rabs_pos c) as C0. rewrite Rabs_mult.
  apply Rle_lt_trans with ((Rabs c + 1) * Rabs (f t)).
  - apply Rmult_le_compat_r; [apply Rabs_pos|lra].
  - apply (Rmult_lt_compat_l (Rabs c + 1)) in HN; [|lra]. replace ((Rabs c + 1) * (eps / (Rabs c + 1))) with eps in HN by (field; lra). exact HN.
Qed.
Lemma vanishes_plus : forall f g, vanishes f -> vanishes g -> vanishes (fun t => f t + g t).
Proof.
  intros f g F G eps He. destruct (F (eps / 2)) as (N & HN); [lra|]. destruct (G (eps / 2)) as (M & HM); [lra|].
  exists (Nat.max N M). intros t Ht. specialize (HN t ltac:(lia)). specialize (HM t ltac:(lia)).
  eapply Rle_lt_trans; [apply Rabs_triang|]. lra.
Qed.
Lemma vanishes_ext : forall f g, (forall t, f t = g t) -> vanishes f -> vanishes g.
Proof. intros f g E F eps He. destruct (F eps He) as (N & HN). exists N. intros t Ht. rewrite <- E. auto. Qed.
Lemma vanishes_0 : vanishes (fun _ => 0).
Proof. intros eps He. exists O. intros. rewrite Rabs_R0. exact He. Qed.
Lemma vanishes_sum : forall {A} (l : list A) (f : A -> nat -> R), (forall x, In x l -> vanishes (f x)) ->
  vanishes (fun t => rsum (map (fun x => f x t) l)).
Proof.
  intros A. induction l as [|x l IH]; intros f H; [apply vanishes_0|]. cbn [map rsum].
  apply vanishes_plus; [apply H; left; reflexivity|apply IH; intros; apply H; right; auto].
Qed.

Section NoisyAsync.
Context {Z : Type}.
Variable zeq : forall a b : Z, {a = b} + {a <> b}.
Variable keys : list Z.
Variable u : nat -> Z -> R.
Variable star : Z -> R.
Variable upd : nat -> Z.
Variables rate target noise : nat -> R.
Variable gamma : R.
Hypothesis G : 0 <= gamma < 1.
Hypothesis U2 : forall t, 0 <= rate t <= 1.
Hypothesis U3 : forall t, u (S t) (upd t) = (1 - rate t) * u t (upd t) + rate t * target t.
Hypothesis U4 : forall t z, z <> upd t -> u (S t) z = u t z.
Hypothesis C1 : forall t E, (forall z, In z keys -> Rabs (u t z - star z) <= E) ->
  Rabs (target t - star (upd t) - noise t) <= gamma * E.
Notation w := (wt zeq upd rate).
Notation ws := (wsum zeq upd rate).
Hypothesis H3 : forall z, In z keys -> forall M, exists N, M <= ws z N.

(** Exponential average of the noise that reaches entry [z]. *)
Fixpoint filt (x : nat -> R) (z : Z) (t : nat) : R :=
  match t with O => 0 | S t' => (1 - w z t') * filt x z t' + w z t' * x t' end.
Hypothesis NZ : forall z, In z keys -> vanishes (filt noise z).

Let Y t z := u t z - star z - filt noise z t.

Lemma w_range : forall z t, 0 <= w z t <= 1.
Proof. intros z t. unfold wt. destruct (zeq _ _); [apply U2|lra]. Qed.
Lemma ws_mono : forall z a b, (a <= b)%nat -> ws z a <= ws z b.
Proof. intros z a b H. induction H; [lra|]. simpl. pose proof (w_range z m). lra. Qed.

Section FromTime.
Variables (T0 : nat) (eta : R).
Hypothesis ETA : 0 <= eta.
Hypothesis SMALL : forall t, (T0 <= t)%nat -> forall z, In z keys -> Rabs (filt noise z t) <= eta.
Let c := gamma * eta / (1 - gamma).
Let er t z := Rabs (Y t z) - c.
Let al_le t E := forall z, In z keys -> er t z <= E.

Lemma c_pos : 0 <= c.
Proof. unfold c. apply Rmult_le_pos; [apply Rmult_le_pos; lra|apply Rlt_le, Rinv_0_lt_compat; lra]. Qed.

Lemma er_step : forall t z E, (T0 <= t)%nat -> 0 <= E -> al_le t E -> In z keys ->
  er (S t) z <= (1 - w z t) * er t z + w z t * (gamma * E).
Proof.
  intros t z E HT E0 HE Hz. unfold er, Y. cbn [filt].
  assert (D : forall y, In y keys -> Rabs (u t y - star y) <= E + c + eta).
  { intros y Hy. replace (u t y - star y) with (Y t y + filt noise y t) by (unfold Y; ring).
    eapply Rle_trans; [apply Rabs_triang|]. pose proof (HE y Hy) as A. unfold er in A. pose proof (SMALL t HT y Hy). lra. }
  assert (CC : gamma * (E + c + eta) = gamma * E + c). { unfold c. field. lra. }
  unfold wt. destruct (zeq (upd t) z) as [<-|N].
  - rewrite U3. pose proof (C1 t _ D) as HC. rewrite CC in HC. pose proof (U2 t) as UU.
    replace ((1 - rate t) * u t (upd t) + rate t * target t - star (upd t) - ((1 - rate t) * filt noise (upd t) t + rate t * noise t))
      with ((1 - rate t) * (u t (upd t) - star (upd t) - filt noise (upd t) t) + rate t * (target t - star (upd t) - noise t)) by ring.
    assert (TR : Rabs ((1 - rate t) * (u t (upd t) - star (upd t) - filt noise (upd t) t) + rate t * (target t - star (upd t) - noise t))
       <= (1 - rate t) * Rabs (u t (upd t) - star (upd t) - filt noise (upd t) t) + rate t * (gamma * E + c)).
    { eapply Rle_trans; [apply Rabs_triang|]. rewrite !Rabs_mult, (Rabs_pos_eq (1 - rate t)), (Rabs_pos_eq (rate t)) by lra.
      apply Rplus_le_compat_l. apply Rmult_le_compat_l; lra. }
    lra.
  - rewrite U4 by congruence. replace ((1 - 0) * filt noise z t + 0 * noise t) with (filt noise z t) by ring. lra.
Qed.

Lemma al_le_later : forall t t' E, (T0 <= t)%nat -> (t <= t')%nat -> 0 <= E -> al_le t E -> al_le t' E.
Proof.
  intros t t' E HT H E0 HE. induction H as [|m H IH]; [exact HE|]. intros z Hz.
  eapply Rle_trans; [apply (er_step m z E); auto; lia|]. pose proof (IH z Hz). pose proof (w_range z m).
  assert ((1 - w z m) * er m z <= (1 - w z m) * E) by (apply Rmult_le_compat_l; lra).
  assert (gamma * E <= 1 * E) by (apply Rmult_le_compat_r; lra).
  assert (w z m * (gamma * E) <= w z m * E) by (apply Rmult_le_compat_l; lra). lra.
Qed.

Lemma er_decay : forall T E z, (T0 <= T)%nat -> 0 <= E -> al_le T E -> In z keys -> forall d,
  (er (T + d) z - gamma * E) * (1 + (ws z (T + d) - ws z T)) <= (1 - gamma) * E.
Proof.
  intros T E z HT E0 HE Hz. induction d as [|d IH].
  - rewrite Nat.add_0_r. pose proof (HE z Hz). lra.
  - replace (T + S d)%nat with (S (T + d)) by lia. cbn [wsum].
    assert (HE' : al_le (T + d) E) by (apply (al_le_later T); auto; lia).
    pose proof (er_step (T + d) z E ltac:(lia) E0 HE' Hz) as ES. pose proof (w_range z (T + d)) as [W0 W1].
    assert (S0 : 0 <= ws z (T + d) - ws z T) by (pose proof (ws_mono z T (T + d) ltac:(lia)); lra).
    set (v := w z (T + d)) in *. set (s := ws z (T + d) - ws z T) in *.
    replace (ws z (T + d) + v - ws z T) with (s + v) by (unfold s; ring).
    set (x := er (T + d) z - gamma * E) in *.
    assert (YY : er (S (T + d)) z - gamma * E <= (1 - v) * x) by (unfold x; lra).
    assert (P : (er (S (T + d)) z - gamma * E) * (1 + (s + v)) <= (1 - v) * x * (1 + (s + v)))
      by (apply Rmult_le_compat_r; lra).
    assert (Q : 0 <= (1 - gamma) * E) by (apply Rmult_le_pos; lra).
    destruct (Rle_dec x 0) as [N|N].
    + assert ((1 - v) * x * (1 + (s + v)) <= 0); [|lra].
      assert (0 <= (1 - v) * (1 + (s + v))) by (apply Rmult_le_pos; lra).
      replace ((1 - v) * x * (1 + (s + v))) with ((1 - v) * (1 + (s + v)) * x) by ring. nra.
    + assert ((1 - v) * x * (1 + (s + v)) <= x * (1 + s)); [|lra].
      replace ((1 - v) * x * (1 + (s + v))) with (x * ((1 + s) - v * s - v * v)) by ring.
      apply Rmult_le_compat_l; nra.
Qed.

Lemma er_round : forall T E, (T0 <= T)%nat -> 0 <= E -> al_le T E -> exists T', (T <= T')%nat /\ al_le T' ((1 + gamma) / 2 * E).
Proof.
  intros T E HT E0 HE.
  assert (K : forall l, incl l keys -> exists T', (T <= T')%nat /\
     forall t, (T' <= t)%nat -> forall z, In z l -> er t z <= (1 + gamma) / 2 * E).
  { induction l as [|z l IH]; intros HI.
    - exists T. split; auto. intros t _ z [].
    - destruct IH as (T1 & L1 & K1); [intros y Hy; apply HI; right; auto|].
      assert (Hz : In z keys) by (apply HI; left; auto).
      destruct (H3 z Hz (ws z T + 1)) as (N & HN).
      exists (Nat.max T1 (Nat.max T N)). split; [lia|]. intros t Ht y [<-|Hy]; [|apply K1; auto; lia].
      pose proof (er_decay T E z HT E0 HE Hz (t - T)) as D. replace (T + (t - T))%nat with t in D by lia.
      pose proof (ws_mono z N t ltac:(lia)) as MW.
      set (s := ws z t - ws z T) in *. assert (1 <= s) by (unfold s; lra).
      destruct (Rle_dec (er t z) (gamma * E)) as [A|A].
      + assert (gamma * E <= (1 + gamma) / 2 * E) by (apply Rmult_le_compat_r; lra). lra.
      + assert ((er t z - gamma * E) * 2 <= (er t z - gamma * E) * (1 + s)) by (apply Rmult_le_compat_l; lra). lra. }
  destruct (K keys (fun z H => H)) as (T' & L & K'). exists T'. split; auto. intros z Hz. apply K'; auto.
Qed.

Lemma er_small : forall eps, 0 < eps -> exists N, (T0 <= N)%nat /\ forall t, (N <= t)%nat -> forall z, In z keys -> er t z < eps.
Proof.
  intros eps He.
  assert (B : exists E, 0 <= E /\ al_le T0 E).
  { assert (K : forall l, exists E, 0 <= E /\ forall z, In z l -> er T0 z <= E).
    { induction l as [|z l (E & E0 & H)]; [exists 0; split; [lra|intros z []]|].
      exists (Rmax E (er T0 z)). split; [eapply Rle_trans; [exact E0|apply Rmax_l]|].
      intros y [<-|Hy]; [apply Rmax_r|]. eapply Rle_trans; [apply H; auto|apply Rmax_l]. }
    apply K. }
  destruct B as (E & E0 & HE).
  assert (K : forall m, exists T, (T0 <= T)%nat /\ al_le T (((1 + gamma) / 2) ^ m * E)).
  { induction m as [|m (T & L & HT)].
    - exists T0. split; [lia|]. rewrite pow_O, Rmult_1_l. exact HE.
    - assert (P0 : 0 <= ((1 + gamma) / 2) ^ m * E) by (apply Rmult_le_pos; [apply pow_le; lra|exact E0]).
      destruct (er_round T _ L P0 HT) as (T' & L' & HT'). exists T'. split; [lia|].
      cbn [pow]. rewrite Rmult_assoc. exact HT'. }
  destruct (pow_lt_1_zero ((1 + gamma) / 2)) with (y := eps / (E + 1)) as (m & Hm).
  { rewrite Rabs_pos_eq; lra. } { apply Rdiv_lt_0_compat; lra. }
  specialize (Hm m (Nat.le_refl _)). destruct (K m) as (T & L & HT). exists T. split; [exact L|]. intros t Ht z Hz.
  assert (P0 : 0 <= ((1 + gamma) / 2) ^ m) by (apply pow_le; lra).
  assert (P1 : 0 <= ((1 + gamma) / 2) ^ m * E) by (apply Rmult_le_pos; [exact P0|exact E0]).
  pose proof (al_le_later T t _ L Ht P1 HT z Hz) as F.
  rewrite Rabs_pos_eq in Hm by exact P0.
  assert (((1 + gamma) / 2) ^ m * E <= ((1 + gamma) / 2) ^ m * (E + 1)) by (apply Rmult_le_compat_l; lra).
  assert (((1 + gamma) / 2) ^ m * (E + 1) < eps / (E + 1) * (E + 1)) by (apply Rmult_lt_compat_r; lra).
  assert (eps / (E + 1) * (E + 1) = eps) by (field; lra). lra.
Qed.
End FromTime.

Lemma eventually_all : forall (P : Z -> nat -> Prop) l, (forall z, In z l -> exists N, forall t, (N <= t)%nat -> P z t) ->
  exists N, forall t, (N <= t)%nat -> forall z, In z l -> P z t.
Proof.
  intros P. induction l as [|z l IH]; intros H; [exists O; intros t _ z []|].
  destruct (H z (or_introl eq_refl)) as (N & HN). destruct IH as (M & HM); [intros; apply H; right; auto|].
  exists (Nat.max N M). intros t Ht y [<-|Hy]; [apply HN; lia|apply HM; auto; lia].
Qed.

Theorem noisy_async_converges : forall eps, 0 < eps -> exists N, forall t, (N <= t)%nat ->
  forall z, In z keys -> Rabs (u t z - star z) < eps.
Proof.
  intros eps He. set (eta := (1 - gamma) * eps / 3).
  assert (E0 : 0 < eta) by (unfold eta; apply Rdiv_lt_0_compat; [apply Rmult_lt_0_compat|]; lra).
  destruct (eventually_all (fun z t => Rabs (filt noise z t) <= eta) keys) as (T0 & HT0).
  { intros z Hz. destruct (NZ z Hz eta E0) as (N & HN). exists N. intros t Ht. apply Rlt_le. auto. }
  destruct (er_small T0 eta HT0 (eps / 3)) as (N & LN & HN); [lra|].
  exists N. intros t Ht z Hz. specialize (HN t Ht z Hz). specialize (HT0 t ltac:(lia) z Hz).
  replace (u t z - star z) with (Y t z + filt noise z t) by (unfold Y; ring).
  eapply Rle_lt_trans; [apply Rabs_triang|].
  assert (gamma * eta / (1 - gamma) = gamma * eps / 3) by (unfold eta; field; lra).
  assert (gamma * eps / 3 <= eps / 3) by nra.
  assert (eta <= eps / 3) by (unfold eta; nra). lra.
Qed.
End NoisyAsync.

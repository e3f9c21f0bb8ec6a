(** C72 and C73: noise processes and movement primitives. *)
From Coq Require Import List Arith Lia Reals Lra Bool.
From Verif Require Import Common NoiseModel.
Import ListNotations.
Local Open Scope R_scope.

(** * C72 *)

Definition decay (p : ou) : R := 1 - ou_theta p * ou_dt p.
Definition kick (p : ou) : R := ou_sigma p * sqrt (ou_dt p).

(** After any episode the noise is the decayed start plus the decayed sum of the draws,
    independently of the states and of the regressor. *)
Fixpoint noise_sum (a : R) (xis : list (nat -> R)) (i : nat) : R :=
  match xis with [] => 0 | xi :: rest => a ^ length rest * xi i + noise_sum a rest i end.

Lemma ou_run_end : forall p steps x i,
  snd (ou_run p x steps) i = decay p ^ length steps * x i + kick p * noise_sum (decay p) (map snd steps) i.
Proof.
  intros p. induction steps as [|[mu xi] rest IH]; intros x i; simpl; [ring|].
  destruct (ou_run p _ rest) as [acts xe] eqn:E. cbn [snd].
  pose proof (IH (snd (ou_draw p mu x xi)) i) as H. unfold ou_draw in H, E. cbn [snd] in H, E. rewrite E in H. cbn [snd] in H.
  rewrite H, map_length. unfold decay, kick. ring.
Qed.

(** The k-th action is the mean of the state plus the noise after k+1 draws. *)
Theorem ou_actions : forall p steps x k i, (k < length steps)%nat ->
  nth k (fst (ou_run p x steps)) (fun _ => 0) i =
  fst (nth k steps (fun _ => 0, fun _ => 0)) i +
  (decay p ^ S k * x i + kick p * noise_sum (decay p) (map snd (firstn (S k) steps)) i).
Proof.
  intros p. induction steps as [|[mu xi] rest IH]; intros x k i Hk; simpl in Hk; [lia|].
  cbn [ou_run]. destruct (ou_draw p mu x xi) as [a x'] eqn:D. destruct (ou_run p x' rest) as [acts xe] eqn:E. cbn [fst].
  unfold ou_draw in D. inversion D; subst. clear D. destruct k as [|k].
  - simpl. unfold decay, kick. ring.
  - cbn [nth]. specialize (IH (fun i => x i - ou_theta p * x i * ou_dt p + ou_sigma p * sqrt (ou_dt p) * xi i) k i ltac:(lia)).
    rewrite E in IH. cbn [fst] in IH. rewrite IH. change (firstn (S (S k)) ((mu, xi) :: rest)) with ((mu, xi) :: firstn (S k) rest).
    cbn [map snd noise_sum]. rewrite map_length, firstn_length_le by lia. unfold decay, kick. simpl. ring.
Qed.

(** Bounded draws give a noise that forgets its start geometrically and stays bounded. *)
Theorem ou_bounded : forall p steps x i B, 0 <= decay p < 1 -> 0 <= B ->
  (forall mu xi, In (mu, xi) steps -> Rabs (xi i) <= B) ->
  Rabs (snd (ou_run p x steps) i) <= decay p ^ length steps * Rabs (x i) + Rabs (kick p) * B / (1 - decay p).
Proof.
  intros p steps x i B Hd HB Hxi. rewrite ou_run_end.
  assert (S : Rabs (noise_sum (decay p) (map snd steps) i) <= B / (1 - decay p)).
  { assert (G : Rabs (noise_sum (decay p) (map snd steps) i) <= B * (1 - decay p ^ length steps) / (1 - decay p)).
    { clear x. induction steps as [|[mu xi] rest IH]; simpl.
      - rewrite Rabs_R0. unfold Rdiv. rewrite Rminus_diag_eq by auto. lra.
      - rewrite map_length. eapply Rle_trans; [apply Rabs_triang|].
        rewrite Rabs_mult, (Rabs_right (decay p ^ _)) by (apply Rle_ge, pow_le; lra).
        assert (0 <= decay p ^ length rest) by (apply pow_le; lra).
        assert (Rabs (xi i) <= B) by (apply (Hxi mu); left; auto).
        assert (IH' : Rabs (noise_sum (decay p) (map snd rest) i) <= B * (1 - decay p ^ length rest) / (1 - decay p)).
        { apply IH. intros m z Hz. apply (Hxi m). right; auto. }
        replace (B * (1 - decay p * decay p ^ length rest) / (1 - decay p))
          with (decay p ^ length rest * B + B * (1 - decay p ^ length rest) / (1 - decay p)) by (field; lra).
        apply Rplus_le_compat; auto. apply Rmult_le_compat_l; auto. }
    eapply Rle_trans; [exact G|]. apply Rmult_le_compat_r; [apply Rlt_le, Rinv_0_lt_compat; lra|].
    assert (0 <= decay p ^ length steps) by (apply pow_le; lra). nra. }
  eapply Rle_trans; [apply Rabs_triang|]. rewrite !Rabs_mult, (Rabs_right (decay p ^ _)) by (apply Rle_ge, pow_le; lra).
  apply Rplus_le_compat_l. unfold Rdiv. rewrite Rmult_assoc. apply Rmult_le_compat_l; [apply Rabs_pos|exact S].
Qed.

(** Mean and variance.  [E] is an expectation over an arbitrary sample space, the draws are
    uncorrelated with mean 0 and variance 1. *)
Section Moments.
Context {Om : Type}.
Variable E : (Om -> R) -> R.
Definition linear : Prop := (forall a b f g, E (fun o => a * f o + b * g o) = a * E f + b * E g) /\
                            (forall f g, (forall o, f o = g o) -> E f = E g) /\ (forall c, E (fun _ => c) = c).
(** the draws of the steps, as random variables *)
Variable xi : nat -> Om -> nat -> R.
Variable mu : nat -> Om -> nat -> R.
Definition steps_at (n : nat) (o : Om) : list ((nat -> R) * (nat -> R)) := map (fun k => (mu k o, xi k o)) (seq 0 n).
Definition white (i n : nat) : Prop :=
  (forall k, (k < n)%nat -> E (fun o => xi k o i) = 0) /\
  (forall j k, (j < n)%nat -> (k < n)%nat -> E (fun o => xi j o i * xi k o i) = if Nat.eqb j k then 1 else 0).
End Moments.

Lemma ou_run_app : forall p a b x, snd (ou_run p x (a ++ b)) = snd (ou_run p (snd (ou_run p x a)) b).
Proof.
  intros p. induction a as [|[mu xi] a IH]; intros b x; simpl; auto.
  destruct (ou_run p _ (a ++ b)) as [A1 X1] eqn:E1. destruct (ou_run p _ a) as [A2 X2] eqn:E2. cbn [snd].
  specialize (IH b (snd (ou_draw p mu x xi))). unfold ou_draw in *. cbn [snd] in *. rewrite E1, E2 in IH. exact IH.
Qed.

Theorem ou_moments : forall Om (E : (Om -> R) -> R) xi mu p x0 i n, linear E -> white E xi i n -> 0 <= ou_dt p ->
  let x o := snd (ou_run p x0 (steps_at xi mu n o)) i in
  let a := decay p in
  let m := a ^ n * x0 i in
  E x = m /\
  (1 - a ^ 2) * E (fun o => (x o - m) ^ 2) = ou_sigma p ^ 2 * ou_dt p * (1 - a ^ (2 * n)).
Proof.
  intros Om E xi mu p x0 i n [L1 [L2 L3]] W Hdt.
  assert (C0 : forall f c, E (fun o => c * f o) = c * E f).
  { intros f c. rewrite (L2 _ (fun o => c * f o + 0 * f o)) by (intros; ring). rewrite L1. ring. }
  assert (Step : forall k o, snd (ou_run p x0 (steps_at xi mu (S k) o)) i =
                             decay p * snd (ou_run p x0 (steps_at xi mu k o)) i + kick p * xi k o i).
  { intros k o. unfold steps_at. rewrite seq_S, map_app, ou_run_app. simpl. unfold decay, kick. ring. }
  assert (M : forall k, (k <= n)%nat ->
     E (fun o => snd (ou_run p x0 (steps_at xi mu k o)) i) = decay p ^ k * x0 i /\
     (forall j, (k <= j < n)%nat -> E (fun o => snd (ou_run p x0 (steps_at xi mu k o)) i * xi j o i) = 0) /\
     (1 - decay p ^ 2) * (E (fun o => (snd (ou_run p x0 (steps_at xi mu k o)) i - decay p ^ k * x0 i) ^ 2)) =
       kick p ^ 2 * (1 - decay p ^ (2 * k))).
  { destruct W as [W1 W2]. induction k as [|k IH]; intros Hk.
    - simpl. split; [rewrite L3; ring|]. split.
      + intros j Hj. rewrite C0, W1 by lia. ring.
      + rewrite (L2 _ (fun _ => 0)) by (intros; ring). rewrite L3. ring.
    - destruct (IH ltac:(lia)) as (I1 & I2 & I3). split; [|split].
      + rewrite (L2 _ (fun o => decay p * snd (ou_run p x0 (steps_at xi mu k o)) i + kick p * xi k o i)) by (intros; apply Step).
        rewrite L1, I1, W1 by lia. simpl. ring.
      + intros j Hj. rewrite (L2 _ (fun o => decay p * (snd (ou_run p x0 (steps_at xi mu k o)) i * xi j o i) + kick p * (xi k o i * xi j o i)))
          by (intros; rewrite Step; ring).
        rewrite L1, I2, W2 by lia. destruct (Nat.eqb_spec k j); [lia|ring].
      + rewrite (L2 _ (fun o => decay p ^ 2 * (snd (ou_run p x0 (steps_at xi mu k o)) i - decay p ^ k * x0 i) ^ 2
             + 1 * (2 * decay p * kick p * (snd (ou_run p x0 (steps_at xi mu k o)) i * xi k o i)
                    + 1 * (- (2 * decay p * kick p * (decay p ^ k * x0 i)) * xi k o i + kick p ^ 2 * (xi k o i * xi k o i)))))
          by (intros; rewrite Step; simpl; ring).
        rewrite L1, L1, L1, I2, W1, W2 by lia. rewrite Nat.eqb_refl.
        replace (2 * S k)%nat with (2 + 2 * k)%nat by lia. rewrite pow_add.
        transitivity (decay p ^ 2 * ((1 - decay p ^ 2) * E (fun o => (snd (ou_run p x0 (steps_at xi mu k o)) i - decay p ^ k * x0 i) ^ 2))
                      + (1 - decay p ^ 2) * kick p ^ 2); [ring|]. rewrite I3. ring. }
  destruct (M n (le_n n)) as (M1 & _ & M3). split; [exact M1|]. rewrite M3. unfold kick.
  replace ((ou_sigma p * sqrt (ou_dt p)) ^ 2) with (ou_sigma p ^ 2 * (sqrt (ou_dt p) * sqrt (ou_dt p))) by ring.
  rewrite sqrt_sqrt by auto. reflexivity.
Qed.

(** Every episode starts from the configured noise again. *)
Theorem ou_episode_start : forall p mu xi i,
  fst (ou_draw p mu (ou_reset p) xi) i =
  mu i + (decay p * (match ou_x0 p with Some x => x i | None => 0 end) + kick p * xi i).
Proof. intros. unfold ou_draw, ou_reset, decay, kick. cbn [fst]. destruct (ou_x0 p); ring. Qed.

(** The clipped policy stays in the bounds and changes nothing inside them. *)
Theorem clipped_in_bounds : forall low high raw i, low i <= high i ->
  low i <= clipped_draw low high raw i <= high i /\
  (low i <= raw i <= high i -> clipped_draw low high raw i = raw i) /\
  (forall x, low i <= x <= high i -> Rabs (clipped_draw low high raw i - raw i) <= Rabs (x - raw i)).
Proof.
  intros low high raw i H. unfold clipped_draw, Rmin, Rmax.
  destruct (Rle_dec (raw i) (low i)); destruct (Rle_dec _ (high i)); (split; [lra|]); (split; [intros; lra|]);
    intros x Hx; unfold Rabs; repeat destruct (Rcase_abs _); lra.
Qed.

Example ou_two_steps :
  let p := {| ou_sigma := 1; ou_theta := / 2; ou_dt := 1; ou_x0 := Some (fun _ => 4) |} in
  snd (ou_run p (ou_reset p) [((fun _ => 10), (fun _ => 1)); ((fun _ => 20), (fun _ => -1))]) 0%nat = / 2.
Proof. cbv zeta. rewrite ou_run_end. unfold decay, kick, ou_reset. simpl. rewrite sqrt_1. lra. Qed.

(** Non-vacuity of the moment theorem: two fair coins *)
Example ou_coins : exists (E : (bool * bool -> R) -> R) xi, linear E /\ white E xi 0 2.
Proof.
  exists (fun f => (f (true, true) + f (true, false) + f (false, true) + f (false, false)) / 4).
  exists (fun (k : nat) (o : bool * bool) (_ : nat) => if (match k with O => fst o | _ => snd o end) then 1 else -1).
  split; [split; [|split]; intros; rewrite ?H; try lra|].
  split.
  - intros [|[|k]] Hk; simpl; try lra; lia.
  - intros [|[|j]] [|[|k]] Hj Hk; simpl; try lra; lia.
Qed.

(** * C73 *)

(** The time of a movement: it counts the draws and stops at the duration unless the movement
    is periodic. *)
Theorem promp_time_closed : forall periodic duration n, (1 <= duration)%nat ->
  promp_time periodic duration n = if periodic then n else Nat.min n duration.
Proof.
  intros periodic duration n Hd. induction n; [destruct periodic; auto|]. cbn [promp_time]. rewrite IHn. unfold promp_tick.
  destruct periodic; cbn [negb andb]; auto. destruct (Nat.leb_spec duration (S (Nat.min n duration))); lia.
Qed.

(** The phase grows from 0 and never exceeds 1; with set_duration(n) it is 1 exactly from the last
    of the n steps on. *)
Theorem promp_phase_range : forall duration n d, promp_set_duration duration = Some d ->
  let z := promp_phase d (promp_time false d n) in
  0 <= z <= 1 /\ (n = 0%nat -> z = 0) /\ (z = 1 <-> (duration - 1 <= n)%nat) /\
  z <= promp_phase d (promp_time false d (S n)).
Proof.
  intros duration n d H. unfold promp_set_duration in H. destruct (Nat.leb_spec 2 duration) as [L|L]; inversion H; subst. clear H.
  set (d := (duration - 1)%nat). assert (Hd : (1 <= d)%nat) by (unfold d; lia). cbv zeta. rewrite !promp_time_closed by auto.
  unfold promp_phase. assert (Pd : 0 < INR d) by (apply lt_0_INR; lia).
  assert (M : INR (Nat.min n d) <= INR d) by (apply le_INR; lia). pose proof (pos_INR (Nat.min n d)) as P0.
  assert (Dv : forall x, x / INR d = 1 <-> x = INR d).
  { intros x. split; intros E; [|subst; field; lra]. apply Rmult_eq_reg_r with (/ INR d); [|apply Rinv_neq_0_compat; lra].
    rewrite Rinv_r by lra. exact E. }
  split; [split|split; [|split]].
  - apply Rmult_le_pos; auto. apply Rlt_le, Rinv_0_lt_compat; auto.
  - apply Rmult_le_reg_r with (INR d); auto. unfold Rdiv. rewrite Rmult_assoc, Rinv_l by lra. lra.
  - intros ->. rewrite Nat.min_0_l. simpl. unfold Rdiv. ring.
  - rewrite Dv. split.
    + intros E. apply INR_eq in E. lia.
    + intros E. f_equal. lia.
  - apply Rmult_le_compat_r; [apply Rlt_le, Rinv_0_lt_compat; auto|]. apply le_INR. lia.
Qed.

(** Refuted: "the duration of the constructor is the number of steps".  A movement built with
    duration n has not reached phase 1 at its n-th step; set_duration(n) does. *)
Theorem promp_duration_refuted : forall n, (2 <= n)%nat ->
  promp_phase n (promp_time false n (n - 1)) < 1 /\
  exists d, promp_set_duration n = Some d /\ promp_phase d (promp_time false d (n - 1)) = 1.
Proof.
  intros n Hn. split.
  - rewrite promp_time_closed by lia. rewrite Nat.min_l by lia. unfold promp_phase.
    apply Rmult_lt_reg_r with (INR n); [apply lt_0_INR; lia|]. unfold Rdiv. rewrite Rmult_assoc, Rinv_l by (apply not_0_INR; lia).
    rewrite Rmult_1_r, Rmult_1_l. apply lt_INR. lia.
  - unfold promp_set_duration. destruct (Nat.leb_spec 2 n); [|lia]. eexists; split; [reflexivity|].
    apply (promp_phase_range n (n - 1) (n - 1)%nat); [unfold promp_set_duration; destruct (Nat.leb_spec 2 n); auto; lia|lia].
Qed.

(** DMP without forcing (all weights of a linear regressor zero), critically damped: from every
    state the action converges to the goal. *)
Lemma npow_lim : forall r, 0 <= r < 1 -> Un_cv (fun n => INR n * r ^ n) 0.
Proof.
  intros r Hr. destruct (Req_dec r 0) as [->|N].
  { intros e He. exists 0%nat. intros n _. unfold R_dist. destruct n; simpl; [rewrite Rmult_0_l|rewrite Rmult_0_l, Rmult_0_r]; rewrite Rminus_diag_eq, Rabs_R0 by auto; lra. }
  set (q := sqrt r). assert (Q : q * q = r) by (apply sqrt_sqrt; lra).
  assert (Q0 : 0 < q) by (apply sqrt_lt_R0; lra). assert (Q1 : q < 1) by (rewrite <- sqrt_1; apply sqrt_lt_1; lra).
  (* n q^n <= 1/(1-q) *)
  assert (B : forall n, INR n * q ^ n <= / (1 - q)).
  { assert (B' : forall n, INR n * q ^ n * (1 - q) <= 1 - q ^ n).
    { induction n; [simpl; lra|]. rewrite S_INR. simpl. assert (0 < q ^ n) by (apply pow_lt; auto).
      assert (q ^ n <= 1) by (clear - Q0 Q1; induction n; simpl; [lra|assert (0 < q ^ n) by (apply pow_lt; auto); nra]).
      assert (X1 : INR n * q ^ n * (1 - q) * q <= (1 - q ^ n) * q) by (apply Rmult_le_compat_r; lra).
      assert (X2 : 0 <= (1 - q) * (1 - q * q ^ n)) by (apply Rmult_le_pos; nra). lra. }
    intros n. apply Rmult_le_reg_r with (1 - q); [lra|]. rewrite Rinv_l by lra.
    assert (0 < q ^ n) by (apply pow_lt; auto). specialize (B' n). lra. }
  intros e He. destruct (pow_lt_1_zero q) with (y := e * (1 - q)) as [N0 H]; [rewrite Rabs_right; lra|apply Rmult_lt_0_compat; lra|].
  exists N0. intros n Hn. unfold R_dist. rewrite Rminus_0_r. specialize (H n Hn).
  assert (0 < q ^ n) by (apply pow_lt; auto). rewrite Rabs_right in H by lra.
  rewrite Rabs_right by (apply Rle_ge, Rmult_le_pos; [apply pos_INR|apply pow_le; lra]).
  rewrite <- Q, Rpow_mult_distr, <- Rmult_assoc.
  apply Rle_lt_trans with (/ (1 - q) * q ^ n); [apply Rmult_le_compat_r; [lra|apply B]|].
  apply Rmult_lt_reg_l with (1 - q); [lra|]. rewrite <- Rmult_assoc, Rinv_r by lra. lra.
Qed.

Theorem dmp_reaches_goal : forall p s, 0 < d_tau p -> d_bz p = d_az p / 4 ->
  0 < d_dt p / d_tau p * d_az p < 4 ->
  Un_cv (fun n => d_y (dmp_iter p (fun _ => 0) n s)) (d_g p) /\ Un_cv (fun n => d_z (dmp_iter p (fun _ => 0) n s)) 0.
Proof.
  intros p s Ht Hb Hh. set (h := d_dt p / d_tau p) in *. set (al := d_az p) in *. set (r := 1 - h * al / 2).
  assert (Hr : -1 < r < 1) by (unfold r; lra).
  (* closed form *)
  assert (CF : forall n s, 
     d_y (dmp_iter p (fun _ => 0) n s) - d_g p = r ^ n * (d_y s - d_g p) + INR n * r ^ (n - 1) * (h * al / 2 * (d_y s - d_g p) + h * d_z s) /\
     d_z (dmp_iter p (fun _ => 0) n s) = r ^ n * d_z s - INR n * r ^ (n - 1) * (al / 2 * (h * al / 2 * (d_y s - d_g p) + h * d_z s))).
  { induction n as [|n IH]; intros s0; [simpl; split; ring|]. cbn [dmp_iter]. destruct (IH (dmp_update p 0 s0)) as [A B].
    assert (Y : d_y (dmp_update p 0 s0) = d_y s0 + h * d_z s0).
    { unfold dmp_update, h. cbn [d_y]. field. lra. }
    assert (Z : d_z (dmp_update p 0 s0) = d_z s0 + h * (al * (al / 4 * (d_g p - d_y s0) - d_z s0))).
    { unfold dmp_update, h. cbn [d_z]. rewrite Hb. unfold al. field. lra. }
    rewrite A, B, Y, Z, S_INR. replace (S n - 1)%nat with n by lia. 
    assert (PN : forall X, INR n * r ^ (n - 1) * (r * X) = INR n * (r ^ n * X)).
    { intros X. destruct n; [simpl; ring|]. replace (S n - 1)%nat with n by lia. simpl. ring. }
    split.
    - replace (h * al / 2 * (d_y s0 + h * d_z s0 - d_g p) + h * (d_z s0 + h * (al * (al / 4 * (d_g p - d_y s0) - d_z s0))))
        with (r * (h * al / 2 * (d_y s0 - d_g p) + h * d_z s0)) by (unfold r; field).
      rewrite PN. simpl. unfold r at 2 4. ring_simplify. unfold r. ring.
    - replace (al / 2 * (h * al / 2 * (d_y s0 + h * d_z s0 - d_g p) + h * (d_z s0 + h * (al * (al / 4 * (d_g p - d_y s0) - d_z s0)))))
        with (r * (al / 2 * (h * al / 2 * (d_y s0 - d_g p) + h * d_z s0))) by (unfold r; field).
      rewrite PN. simpl. unfold r. field. }
  assert (RA : 0 <= Rabs r < 1) by (split; [apply Rabs_pos|apply Rabs_def1; lra]).
  assert (Z1 : forall c, Un_cv (fun n => r ^ n * c) 0).
  { intros c e He. destruct (pow_lt_1_zero r) with (y := e / (Rabs c + 1)) as [N H]; [lra|pose proof (Rabs_pos c); apply Rdiv_lt_0_compat; lra|].
    exists N. intros n Hn. specialize (H n Hn). unfold R_dist. rewrite Rminus_0_r, Rabs_mult. pose proof (Rabs_pos c). pose proof (Rabs_pos (r ^ n)).
    apply Rle_lt_trans with (Rabs (r ^ n) * (Rabs c + 1)); [nra|]. apply Rmult_lt_reg_r with (/ (Rabs c + 1)); [apply Rinv_0_lt_compat; lra|].
    rewrite Rmult_assoc, Rinv_r by lra. lra. }
  assert (Z2 : forall c, Un_cv (fun n => INR n * r ^ (n - 1) * c) 0).
  { intros c. 
    assert (B : Un_cv (fun n => INR n * Rabs r ^ (n - 1)) 0).
    { intros e He. destruct (npow_lim (Rabs r) RA (e / 2) ltac:(lra)) as [N1 H1].
      destruct (pow_lt_1_zero r) with (y := e / 2) as [N2 H2]; [lra|lra|].
      exists (S (Nat.max N1 N2)). intros n Hn. destruct n as [|n]; [lia|]. replace (S n - 1)%nat with n by lia.
      specialize (H1 n ltac:(lia)). specialize (H2 n ltac:(lia)). unfold R_dist in *. rewrite Rminus_0_r in *.
      rewrite S_INR, Rmult_plus_distr_r, Rmult_1_l. eapply Rle_lt_trans; [apply Rabs_triang|].
      rewrite RPow_abs in *. rewrite Rabs_Rabsolu. lra. }
    intros e He. destruct (B (e / (Rabs c + 1))) as [N H]; [pose proof (Rabs_pos c); apply Rdiv_lt_0_compat; lra|].
    exists N. intros n Hn. specialize (H n Hn). unfold R_dist in *. rewrite Rminus_0_r in *. rewrite Rabs_mult, RPow_abs, Rabs_Rabsolu in H. rewrite !Rabs_mult.
    pose proof (Rabs_pos c). set (X := Rabs (INR n) * Rabs (r ^ (n - 1))) in *.
    assert (0 <= X) by (apply Rmult_le_pos; apply Rabs_pos).
    apply Rle_lt_trans with (X * (Rabs c + 1)); [nra|]. apply Rmult_lt_reg_r with (/ (Rabs c + 1)); [apply Rinv_0_lt_compat; lra|].
    rewrite Rmult_assoc, Rinv_r by lra. lra. }
  split.
  - intros e He. set (c1 := d_y s - d_g p) in *. set (c2 := h * al / 2 * (d_y s - d_g p) + h * d_z s) in *.
    destruct (CV_plus _ _ _ _ (Z1 c1) (Z2 c2) e He) as [N H]. exists N. intros n Hn. specialize (H n Hn).
    unfold R_dist in *. rewrite (proj1 (CF n s)). rewrite Rplus_0_l, Rminus_0_r in H. exact H.
  - intros e He. set (c2 := al / 2 * (h * al / 2 * (d_y s - d_g p) + h * d_z s)) in *.
    destruct (CV_minus _ _ _ _ (Z1 (d_z s)) (Z2 c2) e He) as [N H]. exists N. intros n Hn. specialize (H n Hn).
    unfold R_dist in *. rewrite (proj2 (CF n s)). fold c2. rewrite !Rminus_0_r in *. exact H.
Qed.

(** The resting point: at the goal with vanishing velocities nothing moves any more, whatever
    the regressor and wherever the phase is. *)
Lemma dmp_rest : forall p reg x n, dmp_iter p reg n (mkD 0 x 0 (d_g p)) = mkD 0 x 0 (d_g p).
Proof.
  intros p reg x. induction n; auto. cbn [dmp_iter].
  replace (dmp_update p (reg (d_x (mkD 0 x 0 (d_g p)) / d_g p)) (mkD 0 x 0 (d_g p))) with (mkD 0 x 0 (d_g p)); auto.
  unfold dmp_update. cbn [d_v d_x d_z d_y]. f_equal; unfold Rdiv; ring.
Qed.

(** Refuted: "the phase x / g ends at 1 with the movement".  The canonical system is driven by
    the action (line 91 uses self._y), so the phase can stop anywhere: here the movement is at
    its goal from the third step on, and the phase stays at 1/2. *)
Theorem dmp_phase_refuted : exists p reg, forall n, (3 <= n)%nat ->
  let s := dmp_iter p reg n dmp_reset in d_y s = d_g p /\ d_v s = 0 /\ d_z s = 0 /\ d_x s / d_g p = / 2.
Proof.
  exists {| d_g := 1; d_dt := 1; d_tau := 1; d_av := 1; d_bv := / 4; d_az := 1; d_bz := / 4 |}.
  exists (fun z => 3 - 16 * z). intros n Hn.
  replace n with (3 + (n - 3))%nat by lia. generalize (n - 3)%nat as k. intros k. cbv zeta. cbn [plus dmp_iter].
  set (s3 := dmp_update _ _ (dmp_update _ _ (dmp_update _ _ dmp_reset))).
  assert (E : s3 = mkD 0 (/ 2) 0 1).
  { unfold s3, dmp_update, dmp_reset. cbn [d_v d_x d_z d_y d_g d_dt d_tau d_av d_bv d_az d_bz]. f_equal; field. }
  rewrite E. 
  pose proof (dmp_rest {| d_g := 1; d_dt := 1; d_tau := 1; d_av := 1; d_bv := / 4; d_az := 1; d_bz := / 4 |} (fun z => 3 - 16 * z) (/ 2) k) as H.
  cbn [d_g] in H. rewrite H. cbn [d_v d_x d_z d_y d_g]. repeat split. field.
Qed.

(** The actions handed out during an episode are all the same array: after the episode every one
    of them reads as the last action. *)
Theorem dmp_actions_alias_refuted : forall p reg ref n h s, (1 <= n)%nat ->
  let '(hs, refs) := dmp_episode p reg ref n (h, s) in
  length refs = n /\ map (fst hs) refs = repeat (d_y (dmp_iter p reg n s)) n.
Proof.
  intros p reg ref n h s Hn.
  assert (G : forall n h s, let '(hs, refs) := dmp_episode p reg ref n (h, s) in
     refs = repeat ref n /\ snd hs = dmp_iter p reg n s /\ ((1 <= n)%nat -> fst hs ref = d_y (dmp_iter p reg n s))).
  { clear. induction n; intros h s; cbn [dmp_episode]; [repeat split; auto; lia|].
    unfold dmp_draw. cbn [fst snd]. set (s' := dmp_update p _ s).
    specialize (IHn (fun r => if Nat.eqb r ref then d_y s' else h r) s').
    destruct (dmp_episode p reg ref n _) as [hs refs] eqn:E. destruct IHn as (A & B & C).
    split; [simpl; f_equal; auto|]. split; [exact B|]. intros _. destruct n.
    - cbn [dmp_episode] in E. inversion E; subst. cbn [fst dmp_iter]. rewrite Nat.eqb_refl. reflexivity.
    - apply C. lia. }
  specialize (G n h s). destruct (dmp_episode p reg ref n (h, s)) as [hs refs]. destruct G as (A & _ & C). subst refs.
  split; [apply repeat_length|]. rewrite <- (C Hn). clear. induction n; simpl; f_equal; auto.
Qed.

(** Example: the first two actions of an undamped start differ, but both read as the second. *)
Example dmp_alias_two :
  let p := {| d_g := 1; d_dt := 1; d_tau := 1; d_av := 1; d_bv := 1; d_az := 1; d_bz := / 4 |} in
  d_y (dmp_iter p (fun _ => 0) 1 dmp_reset) = 0 /\ d_y (dmp_iter p (fun _ => 0) 2 dmp_reset) = / 4 /\
  let '(hs, refs) := dmp_episode p (fun _ => 0) 0 2 ((fun _ => 0), dmp_reset) in map (fst hs) refs = [/ 4; / 4].
Proof.
  cbv zeta. cbn [dmp_episode dmp_draw dmp_iter]. unfold dmp_draw, dmp_update, dmp_reset. cbn. repeat split; try lra.
  f_equal; [lra|f_equal; lra].
Qed.
Example promp_three : map (promp_time false 2) [0; 1; 2; 3]%nat = [0; 1; 2; 2]%nat.
Proof. reflexivity. Qed.

Print Assumptions ou_actions.
Print Assumptions ou_bounded.
Print Assumptions ou_moments.
Print Assumptions ou_episode_start.
Print Assumptions clipped_in_bounds.
Print Assumptions promp_time_closed.
Print Assumptions promp_phase_range.
Print Assumptions promp_duration_refuted.
Print Assumptions dmp_reaches_goal.
Print Assumptions dmp_phase_refuted.
Print Assumptions dmp_actions_alias_refuted.

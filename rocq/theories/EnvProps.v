(** Theorems C43, C44, C62. *)
From Coq Require Import List Arith Lia Reals Bool Lra Psatz.
From Verif Require Import Common UtilModel UtilProps EnvModel EnvSpec.
Import ListNotations.
Local Open Scope R_scope.

Lemma bound_between : forall x lo hi, lo <= hi -> between lo hi (bound x lo hi).
Proof. intros. unfold between, bound, Rmax, Rmin. destruct (Rle_dec x hi); destruct (Rle_dec _ _); lra. Qed.
Lemma bound_id : forall x lo hi, lo <= x <= hi -> bound x lo hi = x.
Proof. intros. unfold bound, Rmax, Rmin. destruct (Rle_dec x hi); destruct (Rle_dec _ _); lra. Qed.
Lemma npclip_between : forall x lo hi, lo <= hi -> between lo hi (npclip x lo hi).
Proof. intros. unfold between, npclip, Rmax, Rmin. destruct (Rle_dec x lo); destruct (Rle_dec _ _); lra. Qed.

(** * C43 *)
(** PuddleWorld: every state reached lies in the unit square, whatever the history. *)
Theorem puddle_world_box : forall w s a noise z n r ab, pw_step w s a noise z = (n, r, ab) -> between 0 1 (fst n) /\ between 0 1 (snd n).
Proof.
  intros w s a noise z n r ab H. unfold pw_step in H. destruct (Rlt_dec _ _); inversion H; subst; cbn [fst snd]; split; apply npclip_between; lra.
Qed.

(** An action moves the agent by the thrust along one axis, up to the noise and the walls. *)
Theorem puddle_world_move : forall w s a noise z n r ab, 0 <= pw_thrust w -> between 0 1 (fst s) -> between 0 1 (snd s) ->
  Rabs (fst noise) <= pw_noise_step w -> Rabs (snd noise) <= pw_noise_step w -> pw_step w s a noise z = (n, r, ab) ->
  let dir := match a with 0%nat => (-1, 0) | 1%nat => (1, 0) | 2%nat => (0, -1) | 3%nat => (0, 1) | _ => (0, 0) end in
  let free x := 0 <= x <= 1 in
  Rabs (fst n - fst s) <= pw_thrust w * Rabs (fst dir) + pw_noise_step w /\
  Rabs (snd n - snd s) <= pw_thrust w * Rabs (snd dir) + pw_noise_step w /\
  (noise = (0, 0) -> free (fst s + pw_thrust w * fst dir) -> free (snd s + pw_thrust w * snd dir) ->
     n = (fst s + pw_thrust w * fst dir, snd s + pw_thrust w * snd dir)).
Proof.
  intros w s a [n1 n2] z n r ab HT S1 S2 N1 N2 H dir free. cbn [fst snd] in *.
  assert (E : n = (npclip (fst s + pw_thrust w * fst dir + n1) 0 1, npclip (snd s + pw_thrust w * snd dir + n2) 0 1)).
  { assert (A : pw_action w a = (pw_thrust w * fst dir, pw_thrust w * snd dir)).
    { unfold dir, pw_action. destruct a as [|[|[|[|a]]]]; cbn; f_equal; try (simpl; lra). }
    unfold pw_step in H. rewrite A in H. cbn [fst snd] in H. destruct (Rlt_dec _ _); inversion H; subst; reflexivity. }
  assert (G : forall s t e, between 0 1 s -> Rabs (npclip (s + t + e) 0 1 - s) <= Rabs t + Rabs e).
  { intros s0 t e [B1 B2]. unfold npclip, Rmax, Rmin, Rabs. repeat destruct (Rle_dec _ _); repeat destruct (Rcase_abs _); lra. }
  subst n. cbn [fst snd]. split; [|split].
  - eapply Rle_trans; [apply G; auto|]. rewrite Rabs_mult, (Rabs_pos_eq (pw_thrust w)) by auto. lra.
  - eapply Rle_trans; [apply G; auto|]. rewrite Rabs_mult, (Rabs_pos_eq (pw_thrust w)) by auto. lra.
  - intros X F1 F2. inversion X; subst. unfold free in *.
    f_equal; unfold npclip, Rmax, Rmin; repeat destruct (Rle_dec _ _); lra.
Qed.

(** Terminal exactly within the threshold of the goal, with the goal reward; otherwise the
    (noise-free) reward is at most -1. *)
Theorem puddle_world_reward : forall w s a noise z n r ab, Forall (fun p => 0 < fst (snd p) /\ 0 < snd (snd p)) (pw_puddles w) ->
  pw_step w s a noise z = (n, r, ab) ->
  (ab = true <-> Rabs (fst n - fst (pw_goal w)) + Rabs (snd n - snd (pw_goal w)) < pw_threshold w) /\
  (ab = true -> r = pw_reward_goal w) /\ (ab = false -> pw_noise_reward w = 0 -> r <= -1).
Proof.
  intros w s a noise z n r ab F H.
  assert (P : forall x mu sd, 0 < sd -> 0 < norm_pdf x mu sd).
  { intros. unfold norm_pdf. apply Rdiv_lt_0_compat; [apply exp_pos|]. apply Rmult_lt_0_compat; auto. apply sqrt_lt_R0. pose proof PI_RGT_0. lra. }
  assert (RB : forall l c (q : pt), Forall (fun p : pt * pt => 0 < fst (snd p) /\ 0 < snd (snd p)) l ->
    fold_left (fun r p => r - 2 * norm_pdf (fst q) (fst (fst p)) (fst (snd p)) * norm_pdf (snd q) (snd (fst p)) (snd (snd p))) l c <= c).
  { induction l as [|p l IH]; intros c q Fl; simpl; [lra|]. inversion Fl as [|? ? [A B] Fl']; subst. eapply Rle_trans; [apply IH; auto|].
    pose proof (P (fst q) (fst (fst p)) (fst (snd p)) A). pose proof (P (snd q) (snd (fst p)) (snd (snd p)) B).
    set (u := norm_pdf _ _ _) in *. set (v := norm_pdf (snd q) _ _) in *. assert (0 < u * v) by (apply Rmult_lt_0_compat; auto). lra. }
  unfold pw_step in H. destruct (Rlt_dec _ _) as [L|L]; inversion H; subst.
  - split; [tauto|]. split; auto. discriminate.
  - split; [split; [discriminate|tauto]|]. split; [discriminate|]. intros _ ->. rewrite Rmult_0_r, Rplus_0_l. apply RB. auto.
Qed.

(** ShipSteering: the observation box is invariant. *)
Definition ship_ok (f : field) (s : ship) : Prop :=
  in_box [0; 0; - PI; - PI / 12] [f_size f; f_size f; PI; PI / 12] [sx s; sy s; s_th s; s_om s].
Lemma ship_ok_iff : forall f s, ship_ok f s <-> between 0 (f_size f) (sx s) /\ between 0 (f_size f) (sy s) /\ between (- PI) PI (s_th s) /\ between (- PI / 12) (PI / 12) (s_om s).
Proof.
  intros f s. unfold ship_ok, in_box, between. split.
  - intros [_ H]. split; [apply (H 0%nat); simpl; lia|split; [apply (H 1%nat); simpl; lia|split; [apply (H 2%nat); simpl; lia|apply (H 3%nat); simpl; lia]]].
  - intros (A & B & C & D). split; auto. intros [|[|[|[|i]]]] Hi; simpl in *; auto; lia.
Qed.

Theorem ship_steering_box : forall f n s a s' out, 0 <= f_size f -> (0 < n)%nat -> ship_ok f s -> ship_step f n s a = (s', out) ->
  ship_ok f s' /\ exists r ab, out = Some (r, ab).
Proof.
  intros f n s a s' out HF Hn OK H. unfold ship_step in H. set (r := bound a _ _) in H. pose proof PI_RGT_0 as PP.
  assert (RB : between (- PI / 12) (PI / 12) r).
  { unfold r. pose proof (bound_between a (- omega_max) omega_max) as B. unfold omega_max, between in *. specialize (B ltac:(lra)). lra. }
  clearbody r.
  assert (EU : forall t, ship_ok f t -> between (- PI) PI (s_th (ship_euler r t)) /\ between (- PI / 12) (PI / 12) (s_om (ship_euler r t))).
  { intros t O. apply ship_ok_iff in O. destruct O as (_ & _ & _ & O). cbn [ship_euler s_th s_om]. split.
    - destruct (norm_range (s_th t + s_om t * ship_dt)) as [B _]. unfold between. lra.
    - unfold between, ship_dt, ship_T in *. split; nra. }
  assert (G : forall n s o, ship_ok f s -> ship_loop f r n s o = (s', out) -> ship_ok f s' /\ (out = o \/ exists r0 ab, out = Some (r0, ab))).
  { clear n Hn s OK H. induction n as [|n IH]; intros s o OK H; cbn [ship_loop] in H.
    - inversion H; subst. auto.
    - destruct (EU s OK) as [E1 E2]. set (t := ship_euler r s) in *. clearbody t.
      assert (OUT : ship_ok f {| sx := bound (sx t) 0 (f_size f); sy := bound (sy t) 0 (f_size f); s_th := s_th t; s_om := s_om t |}).
      { apply ship_ok_iff. cbn [sx sy s_th s_om]. repeat (split; auto using bound_between). }
      destruct (Rlt_dec _ _); [inversion H; subst; split; [apply OUT|eauto]|].
      destruct (Rlt_dec _ _); [inversion H; subst; split; [apply OUT|eauto]|].
      destruct (Rlt_dec _ _); [inversion H; subst; split; [apply OUT|eauto]|].
      destruct (Rlt_dec _ _); [inversion H; subst; split; [apply OUT|eauto]|].
      assert (OKT : ship_ok f t) by (apply ship_ok_iff; unfold between in *; repeat split; lra).
      destruct (through_gate _ _ _); [inversion H; subst; split; [auto|eauto]|].
      destruct (IH t _ OKT H) as [A [B|B]]; split; eauto. }
  destruct n as [|n]; [lia|]. destruct (G (S n) s None OK H) as [A [B|B]]; split; auto.
  subst out. cbn [ship_loop] in H. exfalso.
  assert (NN : forall n s o, o <> None -> snd (ship_loop f r n s o) <> None).
  { clear. induction n as [|n IH]; intros s o NE; cbn [ship_loop snd]; auto. repeat (destruct (Rlt_dec _ _); [discriminate|]). destruct (through_gate _ _ _); [discriminate|]. apply IH. discriminate. }
  repeat (destruct (Rlt_dec _ _); [discriminate|]). destruct (through_gate _ _ _); [discriminate|].
  specialize (NN n (ship_euler r s) (Some (-1, false)) ltac:(discriminate)). rewrite H in NN. apply NN. reflexivity.
Qed.

Theorem ship_reset_box : forall small u1 u2 u3 u4, between 0 1 u1 -> between 0 1 u2 -> between 0 1 u3 -> between 0 1 u4 ->
  ship_ok (ship_field small) (ship_reset small u1 u2 u3 u4).
Proof.
  intros small u1 u2 u3 u4 A B C D. pose proof PI_RGT_0. apply ship_ok_iff. unfold between, ship_reset, ship_field, omega_max in *.
  destruct small; cbn [sx sy s_th s_om f_size]; repeat split; nra.
Qed.

(** Non-episodic LQR: the state stays in the box, unclipped transitions are linear. *)
Theorem lqr_nonepisodic_box : forall l x a nx r ab h, episodic l = false -> max_pos l = Some h -> 0 <= h -> lqr_step l x a = (nx, r, ab) ->
  ab = false /\ forall i, (i < l_n l)%nat -> between (- h) h (nx i).
Proof.
  intros l x a nx r ab h E M H0 H. unfold lqr_step in H. rewrite E, M in H. destruct (exceeds _ _) eqn:X; inversion H; subst; split; auto; intros i Hi.
  - unfold lbound. apply bound_between. lra.
  - unfold exceeds in X. rewrite M in X. cbv beta.
    match goal with |- between _ _ ?v => destruct (Rlt_dec h (Rabs v)) as [L|L] end.
    + exfalso. assert (Y : existsb (fun i => if Rlt_dec h (Rabs ((fun i => mv (l_n l) (lA l) x i + mv (l_m l) (lB l) (fun i0 => lbound (max_action l) (a i0)) i) i)) then true else false) (seq 0 (l_n l)) = true).
      { apply existsb_exists. exists i. split; [apply in_seq; lia|]. cbv beta. destruct (Rlt_dec _ _); auto. }
      cbv beta in Y, X. congruence.
    + apply Rnot_lt_le in L. unfold between, Rabs in *. destruct (Rcase_abs _); lra.
Qed.

Theorem lqr_dynamics : forall l x a nx r ab, lqr_step l x a = (nx, r, ab) ->
  let u i := match max_action l with None => a i | Some h => Rmax (- h) (Rmin (a i) h) end in
  let free i := rsum (map (fun j => lA l i j * x j) (seq 0 (l_n l))) + rsum (map (fun j => lB l i j * u j) (seq 0 (l_m l))) in
  let inside := forall h i, max_pos l = Some h -> (i < l_n l)%nat -> Rabs (free i) <= h in
  (inside -> ab = false /\ (forall i, nx i = free i) /\
     r = - (rsum (map (fun j => rsum (map (fun i => x i * lQ l i j) (seq 0 (l_n l))) * x j) (seq 0 (l_n l))) +
            rsum (map (fun j => rsum (map (fun i => u i * lR l i j) (seq 0 (l_m l))) * u j) (seq 0 (l_m l))))) /\
  (ab = true -> episodic l = true /\ exists h i, max_pos l = Some h /\ (i < l_n l)%nat /\ h < Rabs (nx i) /\ r = - 10 * h ^ 2).
Proof.
  intros l x a nx r ab H u free inside. unfold lqr_step in H.
  assert (U : (fun i => lbound (max_action l) (a i)) = u) by reflexivity. rewrite U in H.
  change (fun i => mv (l_n l) (lA l) x i + mv (l_m l) (lB l) u i) with free in H.
  destruct (exceeds l free) eqn:X.
  - unfold exceeds in X. destruct (max_pos l) as [h|] eqn:M; [|discriminate].
    apply existsb_exists in X. destruct X as (i & Hi & X). apply in_seq in Hi. destruct (Rlt_dec h (Rabs (free i))) as [L|]; [|discriminate].
    split.
    + intros I. exfalso. specialize (I h i eq_refl ltac:(lia)). lra.
    + intros ->. destruct (episodic l); inversion H; subst. split; auto. exists h, i. split; auto. split; [lia|]. split; auto. ring.
  - inversion H; subst. split; [|discriminate]. intros _. split; auto.
Qed.

Theorem lqr_reset_box : forall l b draw h, max_pos l = Some h -> 0 <= h -> forall i, between (- h) h (lqr_reset l b draw i).
Proof.
  intros l b draw h M H0 i. unfold lqr_reset. rewrite M. destruct b; cbn [lbound]; [apply bound_between; lra|]. unfold between. lra.
Qed.

(** InvertedPendulum: whatever the integrator returns. *)
Theorem inverted_pendulum_box : forall max_u ode s a s' r ab, ip_step max_u ode s a = (s', r, ab) ->
  in_box [- PI; - (5 / 2 * PI)] [PI; 5 / 2 * PI] [fst s'; snd s'] /\ between (-1) 1 r /\ ab = false.
Proof.
  intros max_u ode s a s' r ab H. unfold ip_step in H. inversion H; subst. pose proof PI_RGT_0. split; [|split; auto].
  - split; auto. intros [|[|i]] Hi; simpl in *; try lia.
    + destruct (norm_range (fst (ode s (bound a (- max_u) max_u)))) as [B _]. lra.
    + apply bound_between. unfold max_omega. lra.
  - apply COS_bound.
Qed.

(** CartPole: terminal, with reward -1, exactly when the pole is below the horizon. *)
Theorem cart_pole_termination : forall max_u ode s a noise s' r ab, cp_step max_u ode s a noise = (s', r, ab) ->
  between (- PI) PI (fst s') /\ (ab = true <-> cos (fst s') < 0) /\ r = (if ab then -1 else 0).
Proof.
  intros max_u ode s a noise s' r ab H. unfold cp_step in H.
  set (o := ode s _) in H. destruct (norm_range (fst o)) as [B _]. set (th := normalize_angle (fst o)) in *. clearbody th. pose proof PI_RGT_0. cbn [fst] in H.
  assert (C1 : Rabs th <= PI / 2 -> 0 <= cos th).
  { intros L. apply cos_ge_0; unfold Rabs in L; destruct (Rcase_abs th); lra. }
  assert (C2 : PI / 2 < Rabs th -> cos th < 0).
  { intros L. unfold Rabs in L. destruct (Rcase_abs th).
    - rewrite <- cos_neg. apply cos_lt_0; lra.
    - apply cos_lt_0; lra. }
  destruct (Rlt_dec _ _) as [L|L]; inversion H; subst; cbn [fst].
  - split; [unfold between; lra|]. split; auto. split; auto.
  - split; [unfold between; lra|]. split; auto. split; [discriminate|]. intros L'. assert (0 <= cos th) by (apply C1; unfold Rdiv; lra). lra.
Qed.

(** Segway: the declared observation space is empty, so no state lies in it. *)
Theorem segway_observation_space_refuted : (forall x, ~ in_box segway_low segway_high x) /\
  exists s, s = segway_reset false 0 /\ ~ in_box segway_low segway_high s.
Proof.
  assert (E : forall x, ~ in_box segway_low segway_high x).
  { intros x [_ H]. specialize (H 0%nat ltac:(simpl; lia)). cbn [segway_low segway_high map nth] in H. pose proof PI_RGT_0. lra. }
  split; auto. eexists. split; [reflexivity|]. apply E.
Qed.

(** What does hold: the angle is normalised and non-terminal states are above the horizon. *)
Theorem segway_angle : forall ode s a s' r ab, segway_step ode s a = (s', r, ab) ->
  between (- PI) PI (nth 0 s' 0) /\ (ab = false -> between (- PI / 2) (PI / 2) (nth 0 s' 0) /\ r <= 0) /\ (ab = true -> r = -10000).
Proof.
  intros ode s a s' r ab H. unfold segway_step in H. set (o := ode s _) in H. destruct (norm_range (nth 0 o 0)) as [B _].
  cbn [nth] in H. set (th := normalize_angle (nth 0 o 0)) in *. clearbody th. pose proof PI_RGT_0.
  destruct (Rlt_dec _ _) as [L|L]; inversion H; subst; cbn [nth].
  - split; [unfold between; lra|]. split; [discriminate|auto].
  - split; [unfold between; lra|]. split; [|discriminate]. intros _. split.
    + unfold between, Rabs in *. destruct (Rcase_abs th); lra.
    + set (p := nth 0 (tl o) 0). set (q := nth 1 (tl o) 0).
      replace (match tl o with [] => 0 | x :: _ => x end) with p by (unfold p; destruct (tl o); reflexivity).
      pose proof (pow2_ge_0 th). pose proof (pow2_ge_0 p). pose proof (pow2_ge_0 q).
      fold q || idtac. nra.
Qed.

(** CarOnHill: the episode goes on exactly inside the observation box; the reward is 1
    exactly when the car leaves on the right within the speed limit. *)
Theorem car_on_hill_outcome : forall ode s a s' r ab, coh_step ode s a = (s', r, ab) ->
  (ab = false <-> in_box [-1; -3] [1; 3] [fst s'; snd s']) /\ (r = 1 <-> 1 < fst s' /\ -3 <= snd s' <= 3) /\ (ab = false -> r = 0) /\ (ab = true -> r = 1 \/ r = -1).
Proof.
  intros ode s a s' r ab H. unfold coh_step in H. set (o := ode s _) in H. clearbody o. destruct o as [p v]. cbn [fst snd] in H.
  assert (BX : in_box [-1; -3] [1; 3] [p; v] <-> -1 <= p <= 1 /\ -3 <= v <= 3).
  { split.
    - intros [_ I]. split; [apply (I 0%nat); simpl; lia|apply (I 1%nat); simpl; lia].
    - intros [A B]. split; auto. intros [|[|i]] Hi; simpl in *; auto; lia. }
  assert (AV : Rabs v <= 3 <-> -3 <= v <= 3) by (unfold Rabs; destruct (Rcase_abs v); split; intros; lra).
  destruct (Rlt_dec p (-1)); [|destruct (Rlt_dec 3 (Rabs v)); [|destruct (Rlt_dec 1 p)]]; inversion H; subst; cbn [fst snd]; rewrite BX.
  - split; [split; [discriminate|lra]|]. split; [split; lra|]. split; [discriminate|auto].
  - split; [split; [discriminate|intros [_ X]; apply AV in X; lra]|]. split; [split; [lra|intros [_ X]; apply AV in X; lra]|]. split; [discriminate|auto].
  - split; [split; [discriminate|lra]|]. split; [split; auto; intros _; split; auto; apply AV; lra|]. split; [discriminate|auto].
  - split; [split; auto; intros _; split; [lra|apply AV; lra]|]. split; [split; lra|]. split; [auto|discriminate].
Qed.

(** * C44 *)
Theorem through_gate_exact : forall f a b, ~ parallel (gate_s f) (gate_e f) a b ->
  (through_gate f a b = true <-> segments_meet (gate_s f) (gate_e f) a b).
Proof.
  intros f [ax ay] [bx by_] NP. unfold through_gate, parallel, segments_meet in *. destruct (gate_s f) as [sx_ sy_], (gate_e f) as [ex ey].
  unfold cross, psub. cbn [fst snd] in *. set (den := (ex - sx_) * (by_ - ay) - (ey - sy_) * (bx - ax)).
  assert (D : den <> 0) by (unfold den; lra). destruct (Req_EM_T den 0); [contradiction|].
  set (t := ((ax - sx_) * (by_ - ay) - (ay - sy_) * (bx - ax)) / den). set (u := ((ax - sx_) * (ey - sy_) - (ay - sy_) * (ex - sx_)) / den).
  assert (EX : sx_ + t * (ex - sx_) = ax + u * (bx - ax)) by (unfold t, u, den in *; field; auto).
  assert (EY : sy_ + t * (ey - sy_) = ay + u * (by_ - ay)) by (unfold t, u, den in *; field; auto).
  split.
  - intros H. exists t, u. destruct (Rle_dec u 1), (Rle_dec 0 u), (Rle_dec t 1), (Rle_dec 0 t); try discriminate. repeat split; auto.
  - intros (t' & u' & T & U & X & Y).
    assert (ET : t' = t).
    { unfold t. apply (Rmult_eq_reg_r den); auto. unfold Rdiv. rewrite Rmult_assoc, Rinv_l, Rmult_1_r by auto. unfold den.
      assert (A : ax - sx_ = t' * (ex - sx_) - u' * (bx - ax)) by lra. assert (B : ay - sy_ = t' * (ey - sy_) - u' * (by_ - ay)) by lra. rewrite A, B. ring. }
    assert (EU : u' = u).
    { unfold u. apply (Rmult_eq_reg_r den); auto. unfold Rdiv. rewrite Rmult_assoc, Rinv_l, Rmult_1_r by auto. unfold den.
      assert (A : ax - sx_ = t' * (ex - sx_) - u' * (bx - ax)) by lra. assert (B : ay - sy_ = t' * (ey - sy_) - u' * (by_ - ay)) by lra. rewrite A, B. ring. }
    subst t' u'. destruct (Rle_dec u 1), (Rle_dec 0 u), (Rle_dec t 1), (Rle_dec 0 t); try lra; try reflexivity.
Qed.

(** A ship sailing along the line of the gate, through it, is not noticed. *)
Theorem through_gate_collinear_refuted : exists a b, a <> b /\ segments_meet (gate_s (ship_field true)) (gate_e (ship_field true)) a b /\ through_gate (ship_field true) a b = false.
Proof.
  exists (105, 115), (106, 114). split; [intros C; inversion C; lra|]. split.
  - exists (1 / 4), 0. cbn. repeat split; lra.
  - unfold through_gate, cross, psub. cbn. destruct (Req_EM_T _ _) as [|C]; auto. exfalso. apply C. ring.
Qed.

(** What a step of the ship does: it follows the integration intervals until it leaves the
    field (-100), crosses the gate (0), or all intervals are done (-1). *)
Fixpoint sail (r : R) (k : nat) (s : ship) : ship := match k with O => s | S k' => sail r k' (ship_euler r s) end.
Definition inside (f : field) (s : ship) : Prop := between 0 (f_size f) (sx s) /\ between 0 (f_size f) (sy s).
Definition gate_hit (f : field) (a b : ship) : Prop := through_gate f (sx a, sy a) (sx b, sy b) = true.

Theorem ship_outcome : forall f n s a s' r ab, (0 < n)%nat -> ship_step f n s a = (s', Some (r, ab)) ->
  let w := bound a (- omega_max) omega_max in
  let quiet k := forall j, (j < k)%nat -> inside f (sail w (S j) s) /\ ~ gate_hit f (sail w j s) (sail w (S j) s) in
  (r = -1 /\ ab = false /\ s' = sail w n s /\ quiet n) \/
  (exists k, (k < n)%nat /\ quiet k /\ ab = true /\
     ((r = -100 /\ ~ inside f (sail w (S k) s) /\ sx s' = bound (sx (sail w (S k) s)) 0 (f_size f) /\ sy s' = bound (sy (sail w (S k) s)) 0 (f_size f)) \/
      (r = 0 /\ inside f (sail w (S k) s) /\ gate_hit f (sail w k s) (sail w (S k) s) /\ s' = sail w (S k) s))).
Proof.
  intros f n s a s' r ab Hn H w quiet. unfold ship_step in H. fold w in H. clearbody w.
  assert (G : forall n s o, ship_loop f w n s o = (s', Some (r, ab)) ->
    (n = 0%nat /\ s' = s /\ o = Some (r, ab)) \/ ((0 < n)%nat /\
    let quiet k := forall j, (j < k)%nat -> inside f (sail w (S j) s) /\ ~ gate_hit f (sail w j s) (sail w (S j) s) in
    ((r = -1 /\ ab = false /\ s' = sail w n s /\ quiet n) \/
    (exists k, (k < n)%nat /\ quiet k /\ ab = true /\
     ((r = -100 /\ ~ inside f (sail w (S k) s) /\ sx s' = bound (sx (sail w (S k) s)) 0 (f_size f) /\ sy s' = bound (sy (sail w (S k) s)) 0 (f_size f)) \/
      (r = 0 /\ inside f (sail w (S k) s) /\ gate_hit f (sail w k s) (sail w (S k) s) /\ s' = sail w (S k) s)))))).
  { clear. induction n as [|n IH]; intros s o H; cbn [ship_loop] in H.
    - left. inversion H; subst. auto.
    - right. split; [lia|]. cbv zeta. set (t := ship_euler w s) in *.
      assert (OUT : ~ inside f t -> ({| sx := bound (sx t) 0 (f_size f); sy := bound (sy t) 0 (f_size f); s_th := s_th t; s_om := s_om t |}, Some (-100, true)) = (s', Some (r, ab)) ->
         exists k, (k < S n)%nat /\ (forall j, (j < k)%nat -> inside f (sail w (S j) s) /\ ~ gate_hit f (sail w j s) (sail w (S j) s)) /\ ab = true /\
     ((r = -100 /\ ~ inside f (sail w (S k) s) /\ sx s' = bound (sx (sail w (S k) s)) 0 (f_size f) /\ sy s' = bound (sy (sail w (S k) s)) 0 (f_size f)) \/
      (r = 0 /\ inside f (sail w (S k) s) /\ gate_hit f (sail w k s) (sail w (S k) s) /\ s' = sail w (S k) s))).
      { intros NI E. inversion E; subst. exists 0%nat. split; [lia|]. split; [intros; lia|]. split; auto. }
      unfold inside, between in OUT.
      destruct (Rlt_dec _ _); [right; apply OUT; auto; lra|]. destruct (Rlt_dec _ _); [right; apply OUT; auto; lra|].
      destruct (Rlt_dec _ _); [right; apply OUT; auto; lra|]. destruct (Rlt_dec _ _); [right; apply OUT; auto; lra|]. clear OUT.
      assert (IN : inside f t) by (unfold inside, between; lra).
      destruct (through_gate f (sx s, sy s) (sx t, sy t)) eqn:TG.
      + inversion H; subst. right. exists 0%nat. split; [lia|]. split; [intros; lia|]. split; auto.
      + assert (Q0 : inside f (sail w 1 s) /\ ~ gate_hit f (sail w 0 s) (sail w 1 s)).
        { cbn [sail]. fold t. split; auto. unfold gate_hit. congruence. }
        destruct (IH t _ H) as [(-> & -> & E)|(N & [(A & B & C & D)|(k & K & Q & B & C)])].
        * inversion E; subst. left. split; auto. split; auto. split; auto. intros [|j] Hj; [exact Q0|lia].
        * left. split; auto. split; auto. split; auto. intros [|j] Hj; [exact Q0|]. apply (D j). lia.
        * right. exists (S k). split; [lia|]. split; [|split; auto]. intros [|j] Hj; [exact Q0|]. apply (Q j). lia. }
  destruct (G n s None H) as [(-> & _)|(_ & X)]; [lia|exact X].
Qed.

(** * Concrete cases *)
Example gate_demo : through_gate (ship_field true) (105, 105) (115, 115) = true /\ through_gate (ship_field true) (105, 105) (106, 106) = false.
Proof.
  unfold through_gate, cross, psub. cbn. split.
  - destruct (Req_EM_T _ _); [lra|]. repeat (destruct (Rle_dec _ _); [|exfalso; lra]). reflexivity.
  - destruct (Req_EM_T _ _); auto. destruct (Rle_dec _ _); auto. exfalso. lra.
Qed.
Example pendulum_demo : forall s, exists r, ip_step 5 (fun _ u => (3 * PI / 2, u * 10)) s 7 = ((- PI / 2, 5 / 2 * PI), r, false).
Proof.
  intros s. pose proof PI_RGT_0. pose proof PI_4. eexists. unfold ip_step, ip_state. cbn [fst snd]. rewrite angle_demo.
  replace (bound (bound 7 (- (5)) 5 * 10) (- max_omega) max_omega) with (5 / 2 * PI); [reflexivity|].
  unfold max_omega, bound, Rmax, Rmin. repeat destruct (Rle_dec _ _); lra.
Qed.

Definition demo_puddle : puddle := {| pw_goal := (1, 1); pw_threshold := 1 / 10; pw_noise_step := 0; pw_noise_reward := 0; pw_reward_goal := 0; pw_thrust := 1 / 20; pw_puddles := [] |}.
Example puddle_demo : pw_step demo_puddle (1 / 2, 49 / 50) 3 (0, 0) 0 = ((1 / 2, 1), -1, false) /\
  exists n, pw_step demo_puddle (19 / 20, 24 / 25) 1 (0, 0) 0 = (n, 0, true).
Proof.
  unfold pw_step, pw_action, pw_reward, npclip. cbn. split.
  - replace (Rmin (Rmax (1 / 2 + 0 + 0) 0) 1) with (1 / 2) by (unfold Rmin, Rmax; repeat destruct (Rle_dec _ _); lra).
    replace (Rmin (Rmax (49 / 50 + 1 / 20 * (1 * 2 - 1) + 0) 0) 1) with 1 by (unfold Rmin, Rmax; repeat destruct (Rle_dec _ _); lra).
    destruct (Rlt_dec _ _) as [L|L]; [exfalso; revert L; unfold Rabs; repeat destruct (Rcase_abs _); lra|]. f_equal. f_equal. lra.
  - destruct (Rlt_dec _ _) as [L|L]; [eexists; reflexivity|]. exfalso. apply L.
    unfold Rmin, Rmax, Rabs; repeat destruct (Rle_dec _ _); repeat destruct (Rcase_abs _); lra.
Qed.
Example hill_demo : coh_step (fun s u => (fst s + 1, snd s + u / 2)) (1 / 2, 0) 1 = ((1 / 2 + 1, 0 + 4 / 2), 1, true) /\ coh_step (fun s u => (fst s + 1, snd s + u / 2)) (1 / 2, 2) 1 = ((1 / 2 + 1, 2 + 4 / 2), -1, true).
Proof.
  unfold coh_step. cbn. split.
  - destruct (Rlt_dec _ _); [lra|]. destruct (Rlt_dec _ _) as [L|L]; [exfalso; revert L; unfold Rabs; destruct (Rcase_abs _); lra|]. destruct (Rlt_dec _ _); [reflexivity|lra].
  - destruct (Rlt_dec _ _); [lra|]. destruct (Rlt_dec _ _) as [L|L]; [reflexivity|]. exfalso. apply L. unfold Rabs; destruct (Rcase_abs _); lra.
Qed.
Definition demo_lqr (ep : bool) : lqr := {| l_n := 1; l_m := 1; lA := fun _ _ => 1; lB := fun _ _ => 1; lQ := fun _ _ => 1; lR := fun _ _ => 1; max_pos := Some 2; max_action := Some 1; episodic := ep |}.
Example lqr_demo : let '(nx, r, ab) := lqr_step (demo_lqr true) (fun _ => 3 / 2) (fun _ => 7) in nx 0%nat = 5 / 2 /\ r = -40 /\ ab = true.
Proof.
  unfold lqr_step, exceeds. cbn [demo_lqr max_pos max_action episodic l_n l_m lA lB seq existsb mv map rsum fold_right].
  assert (B : lbound (Some 1) 7 = 1) by (unfold lbound, bound, Rmax, Rmin; repeat destruct (Rle_dec _ _); lra).
  unfold mv. cbn. unfold rsum. cbn. rewrite ?B. unfold lbound, bound, Rmax, Rmin in B. unfold bound, Rmax, Rmin. 
  destruct (Rlt_dec _ _) as [L|L]; cbn.
  - repeat split; repeat destruct (Rle_dec _ _); try lra.
  - exfalso. apply L. unfold Rabs. repeat destruct (Rle_dec _ _); destruct (Rcase_abs _); lra.
Qed.

Print Assumptions lqr_reset_box.
Print Assumptions puddle_world_box.
Print Assumptions puddle_world_move.
Print Assumptions puddle_world_reward.
Print Assumptions ship_steering_box.
Print Assumptions ship_reset_box.
Print Assumptions lqr_nonepisodic_box.
Print Assumptions lqr_dynamics.
Print Assumptions inverted_pendulum_box.
Print Assumptions cart_pole_termination.
Print Assumptions segway_observation_space_refuted.
Print Assumptions segway_angle.
Print Assumptions car_on_hill_outcome.
Print Assumptions through_gate_exact.
Print Assumptions through_gate_collinear_refuted.
Print Assumptions ship_outcome.

(** C89: the air hockey tasks and ball in a cup. *)
From Coq Require Import List Arith ZArith Lia Reals Lra Bool Psatz.
From Verif Require Import Common MjModel HockeyModel.
Import ListNotations.
Local Open Scope R_scope.

Lemma ltb_iff x y : ltb x y = true <-> x < y.
Proof. unfold ltb. destruct (Rlt_dec x y); split; auto; discriminate. Qed.
Lemma ltb_false x y : ltb x y = false <-> y <= x.
Proof. unfold ltb. destruct (Rlt_dec x y); split; try discriminate; auto; intros; lra. Qed.

(** * Flags *)
Lemma single_fold cs : forall f, fold_left single_post cs f =
  (orb (fst f) (existsb (fun c => fst (fst c)) cs), orb (snd f) (existsb (fun c => snd c) cs)).
Proof.
  induction cs as [|[[a b] c] cs IH]; intros [x y]; simpl; [now rewrite !orb_false_r|].
  rewrite IH. unfold single_post; simpl. destruct x, y, a, c; reflexivity.
Qed.
Lemma existsb_In {A} (f : A -> bool) l : existsb f l = true <-> exists x, In x l /\ f x = true.
Proof. apply existsb_exists. Qed.
(** The two flags of the observation say whether since the reset some simulator step ended with the mallet, or a short side, touching the puck. *)
Theorem hockey_flags cs :
  (fst (single_episode cs) = true <-> exists c, In c cs /\ fst (fst c) = true) /\
  (snd (single_episode cs) = true <-> exists c, In c cs /\ snd c = true).
Proof. unfold single_episode. rewrite single_fold. simpl. split; apply existsb_In. Qed.
Example hockey_flags_ex : single_episode [(false, true, false); (true, false, false); (false, false, false)] = (true, false).
Proof. reflexivity. Qed.

Lemma double_fold cs : forall a b c, fold_left double_post cs (a, b, c) =
  (orb a (existsb (fun c => fst (fst c)) cs), orb b (existsb (fun c => fst (fst c)) cs), orb c (existsb (fun c => snd c) cs)).
Proof.
  induction cs as [|[[u v] w] cs IH]; intros a b c; simpl; [now rewrite !orb_false_r|].
  unfold double_post at 2. cbn [fst snd]. rewrite IH. destruct a, b, c, u, w; reflexivity.
Qed.
(** With two robots the flags of the first robot and of the bounce are right; the flag of the second robot is always that of the first. *)
Theorem hockey_double_flags cs :
  (fst (fst (double_episode cs)) = true <-> exists c, In c cs /\ fst (fst c) = true) /\
  (snd (double_episode cs) = true <-> exists c, In c cs /\ snd c = true) /\
  snd (fst (double_episode cs)) = fst (fst (double_episode cs)).
Proof. unfold double_episode. rewrite double_fold. simpl. split; [|split; auto]; apply existsb_In. Qed.
(** So it misses a hit of the second robot, and reports one that never happened. *)
Theorem hockey_double_flags_refuted :
  ~ (forall cs, snd (fst (double_episode cs)) = true -> exists c, In c cs /\ snd (fst c) = true) /\
  ~ (forall cs, (exists c, In c cs /\ snd (fst c) = true) -> snd (fst (double_episode cs)) = true).
Proof.
  split; intros H.
  - destruct (H [(true, false, false)] eq_refl) as (c & [<-|[]] & E). discriminate.
  - assert (F := H [(false, true, false)] (ex_intro _ (false, true, false) (conj (or_introl eq_refl) eq_refl))). discriminate.
Qed.

(** * Puck readings *)
(** get_puck documents ([pos_x, pos_y], [lin_vel_x, lin_vel_y], ang_vel_z). The position is right; the velocities are (lin_vel_y, ang_vel_z) and lin_vel_x. *)
Theorem puck_readings x y z a b c d vx vy vz wx wy wz :
  get_puck (obs_puck_pos [x; y; z; a; b; c; d]) (obs_puck_vel [vx; vy; vz; wx; wy; wz]) = ([x; y], [vy; wz], vx).
Proof. reflexivity. Qed.
Theorem puck_readings_refuted :
  ~ (forall vx vy vz wx wy wz, get_puck [] (obs_puck_vel [vx; vy; vz; wx; wy; wz]) = ([], [vx; vy], wz)).
Proof. intros H. specialize (H 1 0 0 0 0 0). unfold get_puck, obs_puck_vel, np_delete in H. simpl in H. injection H. lra. Qed.

(** The frame of a robot standing at (tx, ty), turned by t. *)
Definition planar (t tx ty : R) : frame :=
  ((fun i j => match i, j with
               | O, O => cos t | O, 1%nat => - sin t | 1%nat, O => sin t | 1%nat, 1%nat => cos t
               | 2%nat, 2%nat => 1 | _, _ => 0 end),
   (fun i => match i with O => tx | 1%nat => ty | _ => 0 end)).
(** The observed puck position is the position in the frame of the robot: going from the robot that far along its axes gives the puck. *)
Theorem puck_in_frame t tx ty p u w :
  to_frame_pos (planar t tx ty) p = (u, w) <->
  fst p = tx + u * cos t - w * sin t /\ snd p = ty + u * sin t + w * cos t.
Proof.
  assert (T := sin2_cos2 t). unfold Rsqr in T. destruct p as [px py]. unfold to_frame_pos, planar, rotT; simpl. split.
  - intros E. injection E as <- <-.
    replace (cos t) with (cos t) by reflexivity. split.
    + replace (tx + _ * cos t - _ * sin t) with (tx + (px - tx) * (sin t * sin t + cos t * cos t)) by ring. rewrite T; ring.
    + replace (ty + _ * sin t + _ * cos t) with (ty + (py - ty) * (sin t * sin t + cos t * cos t)) by ring. rewrite T; ring.
  - intros [-> ->]. f_equal.
    + replace (_ + _) with (u * (sin t * sin t + cos t * cos t)) by ring. rewrite T; ring.
    + replace (_ + _) with (w * (sin t * sin t + cos t * cos t)) by ring. rewrite T; ring.
Qed.
Example puck_in_frame_ex : to_frame_pos frame_2 (1 / 2, 1 / 5) = (101 / 100, - (1 / 5)).
Proof. unfold to_frame_pos, frame_2, rotT; simpl. f_equal; lra. Qed.
(** The observed velocity of a puck (vx, vy, wz) for the first robot is unchanged; for the second robot, which is turned by half a turn,
    it should be (-vx, -vy, wz) and is (vx, -vy, -wz). *)
Theorem puck_velocity_in_frame vx vy wz :
  to_frame_vel frame_1 [vx; vy; wz] = [vx; vy; wz] /\ to_frame_vel frame_2 [vx; vy; wz] = [vx; - vy; - wz].
Proof. unfold to_frame_vel, frame_1, frame_2, rotT; simpl. split; repeat (f_equal; try ring). Qed.
Theorem puck_velocity_in_frame_refuted : ~ (forall vx vy wz, to_frame_vel frame_2 [vx; vy; wz] = [- vx; - vy; wz]).
Proof. intros H. specialize (H 1 0 0). rewrite (proj2 (puck_velocity_in_frame 1 0 0)) in H. injection H. lra. Qed.

(** * Constraints *)
(** The mallet constraints hold exactly for a mallet inside the table, up to the back end of the own side. *)
Theorem ee_constraints_iff ee :
  Forall (fun c => c <= 0) (ee_constraints ee) <-> - (103 / 100) <= fst ee /\ Rabs (snd ee) <= 46 / 100.
Proof.
  unfold ee_constraints, half_l, half_w, mallet_r. split.
  - intros H. inversion H as [|? ? A H1]; subst. inversion H1 as [|? ? B H2]; subst. inversion H2 as [|? ? C _]; subst.
    split; [lra|]. apply Rabs_le. lra.
  - intros [A B]. assert (- (46 / 100) <= snd ee <= 46 / 100).
    { revert B. unfold Rabs. destruct (Rcase_abs (snd ee)); lra. }
    constructor; [lra|constructor; [lra|constructor; [lra|constructor]]].
Qed.
(** With two robots the base of the first is used for both; by symmetry this is still right for the second robot: with its mallet at [local] from its base,
    it is at (1.51 - x, -y) on the table. *)
Theorem ee_constraints_second local :
  let table := (151 / 100 - fst local, - snd local) in
  Forall (fun c => c <= 0) (ee_constraints (constraint_ee local)) <-> fst table <= 103 / 100 /\ Rabs (snd table) <= 46 / 100.
Proof.
  cbn zeta. rewrite ee_constraints_iff. unfold constraint_ee. cbn [fst snd]. rewrite Rabs_Ropp, Rplus_0_r. split; intros [A B]; split; auto; lra.
Qed.
Example ee_constraints_second_ex : Forall (fun c => c <= 0) (ee_constraints (constraint_ee (6 / 10, 1 / 10))).
Proof. apply ee_constraints_second. cbn [fst snd]. split; [lra|]. rewrite Rabs_Ropp, Rabs_right; lra. Qed.

Lemma pairs_le (a b : list R) : length a = length b ->
  (Forall (fun c => c <= 0) (map (fun p => fst p - snd p) (combine a b)) <-> forall i, (i < length a)%nat -> nth i a 0 <= nth i b 0).
Proof.
  revert b. induction a as [|x a IH]; intros [|y b] E; simpl in E; try discriminate.
  - split; [intros _ i Hi; simpl in Hi; lia|constructor].
  - assert (E' : length a = length b) by lia. specialize (IH b E'). split.
    + intros H [|i] Hi; simpl in *.
      * inversion H; subst; simpl in *; lra.
      * apply IH; [inversion H; auto|lia].
    + intros H. simpl. constructor.
      * assert (K := H 0%nat ltac:(simpl; lia)). simpl in *. lra.
      * apply IH. intros i Hi. apply (H (S i)). simpl; lia.
Qed.
(** The joint velocity constraints hold exactly when every joint velocity is within its limits. *)
Theorem joint_vel_constraints_iff low high q_vel : length low = length q_vel -> length high = length q_vel ->
  (Forall (fun c => c <= 0) (joint_vel_constraints low high q_vel) <->
   forall i, (i < length q_vel)%nat -> nth i low 0 <= nth i q_vel 0 <= nth i high 0).
Proof.
  intros E1 E2. unfold joint_vel_constraints. rewrite Forall_app, !pairs_le by congruence. rewrite E1. split.
  - intros [A B] i Hi. split; auto.
  - intros H. split; intros i Hi; apply H; auto.
Qed.
(** The joint position constraints ignore the joint positions: they hold with a joint beyond its limits and fail with all joints within. *)
Theorem joint_pos_constraints_refuted :
  ~ (forall low high q_pos q_vel, Forall (fun c => c <= 0) (joint_pos_constraints low high q_pos q_vel) ->
       forall i, (i < length q_pos)%nat -> nth i low 0 <= nth i q_pos 0 <= nth i high 0) /\
  ~ (forall low high q_pos q_vel, length low = length q_pos -> length high = length q_pos -> length q_vel = length q_pos ->
       (forall i, (i < length q_pos)%nat -> nth i low 0 <= nth i q_pos 0 <= nth i high 0) ->
       Forall (fun c => c <= 0) (joint_pos_constraints low high q_pos q_vel)).
Proof.
  split; intros H.
  - specialize (H [-2] [2] [3] [0]).
    assert (K : -2 <= 3 <= 2); [|lra]. apply (H ltac:(constructor; [simpl; lra|constructor; [simpl; lra|constructor]]) 0%nat). simpl; lia.
  - specialize (H [-2] [2] [0] [3] eq_refl eq_refl eq_refl).
    assert (K : Forall (fun c => c <= 0) (joint_pos_constraints [-2] [2] [0] [3])).
    { apply H. intros [|i] Hi; simpl in *; [lra|lia]. }
    inversion K; subst. simpl in *. lra.
Qed.

(** * Absorbing states *)
Theorem hockey_absorbing p speed :
  mj_out p speed = true <-> half_l < Rabs (fst p) \/ half_w < Rabs (snd p) \/ 100 < speed.
Proof. unfold mj_out. rewrite !orb_true_iff, !ltb_iff. tauto. Qed.
Theorem hockey_absorbing_bullet p z term mallets :
  pb_out p z term mallets = true <->
  half_l < Rabs (fst p) \/ half_w < Rabs (snd p) \/ 5 / 100 < Rabs (z + 189 / 1000) \/
  (term = true /\ exists e, In e mallets /\ (half_l < Rabs (fst e) \/ half_w < Rabs (snd e))).
Proof.
  unfold pb_out, off_table. rewrite !orb_true_iff, andb_true_iff, !ltb_iff, existsb_exists.
  replace (z - - (189 / 1000)) with (z + 189 / 1000) by ring.
  assert (E : (exists x, In x mallets /\ orb (ltb half_l (Rabs (fst x))) (ltb half_w (Rabs (snd x))) = true) <->
              (exists e, In e mallets /\ (half_l < Rabs (fst e) \/ half_w < Rabs (snd e)))).
  { split; intros (e & I1 & O); exists e; split; auto; [rewrite orb_true_iff, !ltb_iff in O|rewrite orb_true_iff, !ltb_iff]; auto. }
  rewrite E. tauto.
Qed.
(** The tasks end in every state the base ends in; besides, defending ends when the puck comes back to the other half, preparing when the puck was hit
    and is in the other half or in the middle line (or bounced, for the side problem), repelling when the puck bounced. *)
Theorem hockey_task_absorbing out has_hit has_bounce side p :
  (defend_absorbing out has_hit has_bounce p = true <-> out = true \/ ((has_hit = true \/ has_bounce = true) /\ 0 < fst p)) /\
  (prepare_absorbing side out has_hit has_bounce p = true <->
     out = true \/ (has_hit = true /\ (0 < fst p \/ Rabs (snd p) < 1 / 100)) \/ (side = true /\ has_bounce = true)) /\
  (repel_absorbing out has_bounce = true <-> out = true \/ has_bounce = true).
Proof.
  unfold defend_absorbing, prepare_absorbing, repel_absorbing.
  destruct (ltb 0 (fst p)) eqn:A; destruct (ltb (Rabs (snd p)) (1 / 100)) eqn:B;
    [apply ltb_iff in A; apply ltb_iff in B|apply ltb_iff in A; apply ltb_false in B
    |apply ltb_false in A; apply ltb_iff in B|apply ltb_false in A; apply ltb_false in B];
    destruct out, has_hit, has_bounce, side; simpl; repeat split; intros; try discriminate; auto;
    repeat match goal with H : _ \/ _ |- _ => destruct H | H : _ /\ _ |- _ => destruct H end; try discriminate; auto; try lra; auto 10.
Qed.

(** * Hitting *)
(** The shot over the side wall: incoming angle equals outgoing angle at the bounce point, which is strictly between puck and goal. *)
Theorem hit_bounce_point p : Rabs (snd p) < eff_w -> fst p < fst goal_pos ->
  let w := side_point p in
  Rabs (snd w) = eff_w /\ 0 <= snd w * snd p /\ fst p < fst w < fst goal_pos /\
  (eff_w - Rabs (snd p)) / (fst w - fst p) = (eff_w - snd goal_pos) / (fst goal_pos - fst w).
Proof.
  intros A B. cbn zeta. destruct p as [x y]. unfold side_point, bounce_x, goal_pos, copysign in *. cbn [fst snd] in *.
  assert (E : 0 < eff_w) by (unfold eff_w; lra). assert (Y := Rabs_pos y).
  remember (Rabs y) as m eqn:Em. remember eff_w as e eqn:Ee.
  assert (D : m + 0 - 2 * e < 0) by lra.
  remember ((m * (98 / 100) + 0 * x - e * x - e * (98 / 100)) / (m + 0 - 2 * e)) as w eqn:Ew.
  assert (K : w * (2 * e - m) = e * x + (e - m) * (98 / 100)).
  { rewrite Ew. field. lra. }
  assert (U : (w - x) * (2 * e - m) = (e - m) * (98 / 100 - x)) by nra.
  assert (V : (98 / 100 - w) * (2 * e - m) = e * (98 / 100 - x)) by nra.
  assert (P1 : 0 < (e - m) * (98 / 100 - x)) by (apply Rmult_lt_0_compat; lra).
  assert (P2 : 0 < e * (98 / 100 - x)) by (apply Rmult_lt_0_compat; lra).
  assert (Q1 : 0 < w - x).
  { apply (Rmult_lt_reg_r (2 * e - m)); [lra|]. rewrite Rmult_0_l, U. exact P1. }
  assert (Q2 : 0 < 98 / 100 - w).
  { apply (Rmult_lt_reg_r (2 * e - m)); [lra|]. rewrite Rmult_0_l, V. exact P2. }
  assert (AE : Rabs e = e) by (apply Rabs_right; lra).
  split; [destruct (Rle_dec 0 y); rewrite ?Rabs_Ropp, ?Rabs_Rabsolu; exact AE|].
  split.
  { destruct (Rle_dec 0 y); rewrite AE; [nra|]. assert (y < 0) by lra. nra. }
  split; [lra|].
  apply (Rmult_eq_reg_r ((w - x) * (98 / 100 - w))); [|nra].
  replace ((e - m) / (w - x) * ((w - x) * (98 / 100 - w))) with ((e - m) * (98 / 100 - w)) by (field; lra).
  replace ((e - 0) / (98 / 100 - w) * ((w - x) * (98 / 100 - w))) with (e * (w - x)) by (field; lra).
  apply (Rmult_eq_reg_r (2 * e - m)); [|lra].
  replace ((e - m) * (98 / 100 - w) * (2 * e - m)) with ((e - m) * ((98 / 100 - w) * (2 * e - m))) by ring.
  replace (e * (w - x) * (2 * e - m)) with (e * ((w - x) * (2 * e - m))) by ring. rewrite U, V. ring.
Qed.
Example hit_bounce_point_ex : fst (side_point (- (1 / 2), 0)) = 24 / 100.
Proof. unfold side_point, bounce_x, goal_pos, eff_w. cbn [fst snd]. rewrite Rabs_R0. field. Qed.

Lemma norm2_pos v : 0 <= norm2 v.
Proof. apply sqrt_pos. Qed.
Lemma norm2_sq v : norm2 v * norm2 v = fst v * fst v + snd v * snd v.
Proof. unfold norm2. apply sqrt_sqrt. nra. Qed.
Lemma norm2_zero v : norm2 v = 0 -> v = (0, 0).
Proof. intros H. assert (K := norm2_sq v). rewrite H in K. destruct v as [a b]. simpl in K. f_equal; nra. Qed.
(** A direction between two different points has length one, and points from the first to the second. *)
Theorem hit_direction a b : a <> b ->
  norm2 (direction a b) = 1 /\ exists k, 0 < k /\ sub2 b a = (k * fst (direction a b), k * snd (direction a b)).
Proof.
  intros N. assert (P := norm2_pos (sub2 b a)). assert (Z : norm2 (sub2 b a) <> 0).
  { intros E. apply norm2_zero in E. apply N. unfold sub2 in E. injection E as E1 E2. destruct a, b; simpl in *; f_equal; lra. }
  assert (S := norm2_sq (sub2 b a)). split.
  - unfold norm2 at 1, direction. cbn [fst snd]. rewrite <- sqrt_1. f_equal.
    replace (_ + _) with ((fst (sub2 b a) * fst (sub2 b a) + snd (sub2 b a) * snd (sub2 b a)) / (norm2 (sub2 b a) * norm2 (sub2 b a))) by (field; auto).
    rewrite <- S. field; auto.
  - exists (norm2 (sub2 b a)). split; [lra|]. unfold direction. cbn [fst snd]. rewrite (surjective_pairing (sub2 b a)) at 1. f_equal; field; auto.
Qed.

Lemma sqrt_2pi : 24 / 10 < sqrt (2 * PI).
Proof.
  assert (P := PI2_3_2). assert (P2 : PI / 2 = PI / 2) by reflexivity. unfold PI2 in P.
  replace (24 / 10) with (sqrt ((24 / 10) * (24 / 10))) by (apply sqrt_square; lra).
  apply sqrt_lt_1; lra.
Qed.
Lemma gauss_pos sig x : 0 < sig -> 0 < gauss sig x.
Proof.
  intros H. unfold gauss. assert (S := sqrt_2pi). apply Rmult_lt_0_compat; [|apply exp_pos].
  unfold Rdiv. rewrite Rmult_1_l. apply Rinv_0_lt_compat. apply Rmult_lt_0_compat; lra.
Qed.
Lemma gauss_le sig x : 0 < sig -> gauss sig x <= / (24 / 10 * sig).
Proof.
  intros H. unfold gauss. assert (S := sqrt_2pi).
  assert (E : exp (- (x / sig) ^ 2 / 2) <= 1).
  { rewrite <- exp_0. assert (Q : - (x / sig) ^ 2 / 2 <= 0) by (assert (K := pow2_ge_0 (x / sig)); lra).
    destruct Q as [Q|Q]; [left; apply exp_increasing; auto|right; rewrite Q; auto]. }
  assert (F : 1 / (sqrt (2 * PI) * sig) <= / (24 / 10 * sig)).
  { unfold Rdiv. rewrite Rmult_1_l. apply Rinv_le_contravar; nra. }
  assert (G : 0 < exp (- (x / sig) ^ 2 / 2)) by apply exp_pos.
  assert (J : 0 < 1 / (sqrt (2 * PI) * sig)) by (apply Rdiv_lt_0_compat; nra).
  nra.
Qed.
Lemma clip01_range x : 0 <= clip01 x <= 1.
Proof. unfold clip01. split; [apply Rmin_glb; [apply Rmax_r|lra]|apply Rmin_r]. Qed.
Lemma max_clip_range (l : list R) : (forall x, In x l -> 0 <= x <= 1) -> 0 <= fold_right Rmax 0 l <= 1.
Proof.
  induction l as [|x l IH]; intros H; simpl; [lra|]. assert (A := H x (or_introl eq_refl)).
  assert (B := IH (fun y Hy => H y (or_intror Hy))). split; [apply Rle_trans with x; [lra|apply Rmax_l]|apply Rmax_lub; lra].
Qed.
Lemma approach_range dirs p ee r : approach dirs p ee = Some r -> 0 <= r <= 3.
Proof.
  unfold approach. destruct (Req_EM_T _ 0); intros E; [discriminate|]. injection E as <-.
  remember (fold_right Rmax 0 (map (fun w => clip01 (dot2 w (direction ee p))) dirs)) as c eqn:Ec.
  assert (C : 0 <= c <= 1).
  { rewrite Ec. apply max_clip_range. intros x Hx. apply in_map_iff in Hx. destruct Hx as (w & <- & _). apply clip01_range. }
  remember (norm2 (sub2 p ee)) as d eqn:Ed. assert (D : 0 <= d) by (rewrite Ed; apply norm2_pos).
  assert (E1 : exp (-8 * (d - 8 / 100)) < exp 1) by (apply exp_increasing; lra).
  assert (E3 := exp_le_3). assert (E0 := exp_pos (-8 * (d - 8 / 100))). nra.
Qed.
(** Scoring earns 200, before the action penalty; nothing else earns 45. *)
Theorem hit_goal pen an absorbing has_hit vg vs p ee v r :
  hit_reward pen an absorbing has_hit vg vs p ee v = Some r ->
  (absorbing = true /\ half_l < fst p /\ Rabs (snd p) < goal_w -> r + pen * an = 200) /\
  (~ (absorbing = true /\ half_l < fst p /\ Rabs (snd p) < goal_w) -> 0 <= r + pen * an < 45).
Proof.
  unfold hit_reward. intros E. destruct absorbing.
  - simpl in E. injection E as <-. unfold scored.
    destruct (ltb 0 (fst p - half_l)) eqn:A; [apply ltb_iff in A|apply ltb_false in A].
    + destruct (ltb (Rabs (snd p) - goal_w) 0) eqn:B; [apply ltb_iff in B|apply ltb_false in B]; simpl; split; intros H; try lra.
    + simpl. split; intros H; lra.
  - split; [intros [H _]; discriminate|]. intros _. destruct has_hit; simpl in E.
    + injection E as <-.
      assert (A : 0 <= Rmin 1 (1 / 4 * (v * (v * (v * (v * 1))))) <= 1).
      { split; [apply Rmin_glb; [lra|]; assert (K := pow2_ge_0 (v * v)); simpl in K; lra|apply Rmin_l]. }
      assert (B : 0 <= (if ltb (7 / 10) (fst p) then gauss (1 / 10) (snd p - 0) else 0) <= / (24 / 10 * (1 / 10))).
      { destruct (ltb _ _).
        - split; [left; apply gauss_pos; lra|apply gauss_le; lra].
        - split; [lra|left; apply Rinv_0_lt_compat; lra]. }
      replace (/ (24 / 10 * (1 / 10))) with (100 / 24) in B by field. lra.
    + destruct (approach [vg; vs] p ee) as [q|] eqn:F; [|discriminate]. simpl in E. injection E as <-.
      assert (Q := approach_range _ _ _ _ F). lra.
Qed.
(** The reward is defined unless mallet and puck coincide before the hit. *)
Theorem hit_defined pen an absorbing has_hit vg vs p ee v :
  hit_reward pen an absorbing has_hit vg vs p ee v = None <-> absorbing = false /\ has_hit = false /\ p = ee.
Proof.
  unfold hit_reward. destruct absorbing, has_hit; simpl; split; try discriminate; try (intros (A & B & C); discriminate).
  - unfold approach. destruct (Req_EM_T _ 0) as [Z|Z]; [|discriminate]. intros _. repeat split.
    apply norm2_zero in Z. unfold sub2 in Z. injection Z as A B. destruct p, ee; simpl in *; f_equal; lra.
  - intros (_ & _ & ->). unfold approach. destruct (Req_EM_T _ 0) as [Z|Z]; auto. exfalso. apply Z.
    unfold norm2, sub2. cbn [fst snd]. rewrite !Rminus_diag_eq by reflexivity. replace (0 * 0 + 0 * 0) with 0 by ring. apply sqrt_0.
Qed.
Example hit_goal_ex : hit_reward (1 / 2) 2 true true (1, 0) (0, 1) (1, 1 / 10) (0, 0) 3 = Some 199.
Proof.
  unfold hit_reward, scored, half_l, goal_w. cbn [fst snd].
  replace (ltb 0 _) with true by (symmetry; apply ltb_iff; lra).
  replace (ltb _ 0) with true by (symmetry; apply ltb_iff; rewrite Rabs_right; lra). simpl. f_equal. lra.
Qed.
(** The bonus for a fast puck after the hit does not depend on the speed towards the goal (MuJoCo): at any such speed it is that of a puck at rest. *)
Theorem hit_speed_ignored pen an vg vs p ee vx vy vz wx wy wz vx' :
  mj_hit_reward pen an false true vg vs p ee [vx; vy; vz; wx; wy; wz] = mj_hit_reward pen an false true vg vs p ee [vx'; vy; vz; wx; wy; wz].
Proof. reflexivity. Qed.
Theorem hit_speed_refuted :
  ~ (forall pen an vg vs p ee vx vx', 0 <= vx < vx' -> vx' < 1 ->
       forall r r', mj_hit_reward pen an false true vg vs p ee [vx; 0; 0; 0; 0; 0] = Some r ->
                    mj_hit_reward pen an false true vg vs p ee [vx'; 0; 0; 0; 0; 0] = Some r' -> r < r').
Proof.
  intros H. specialize (H 0 0 (0, 0) (0, 0) (0, 0) (0, 0) 0 (1 / 2) ltac:(lra) ltac:(lra) _ _ eq_refl eq_refl). exact (Rlt_irrefl _ H).
Qed.
(** Rewards of the PyBullet task: the velocity bonus, the hit flag and the end of the episode use the velocity before the step. *)
Theorem pb_hit_stale_refuted :
  ~ (forall vg vs p ee v_old v_new, pb_hit_reward 0 0 false false true vg vs p ee v_old v_new = hit_reward 0 0 false true vg vs p ee (fst v_new)) /\
  ~ (forall (step_velocity : v2 -> v2) v_old, 1 / 10 < norm2 (step_velocity v_old) -> pb_hit_post false v_old = true).
Proof.
  split; intros H.
  - specialize (H (0, 0) (0, 0) (0, 0) (0, 0) (0, 0) (1, 0)). unfold pb_hit_reward, hit_reward in H. cbn -[Rmin Rmult ltb] in H.
    replace (ltb (7 / 10) 0) with false in H by (symmetry; apply ltb_false; lra).
    injection H as H. rewrite (Rmin_right 1 (1 / 4 * (0 * (0 * (0 * (0 * 1)))))), (Rmin_right 1 (1 / 4 * (1 * (1 * (1 * (1 * 1)))))) in H by lra. lra.
  - specialize (H (fun _ => (1, 0)) (0, 0)). unfold pb_hit_post, norm2 in H. cbn [negb fst snd] in H.
    replace (0 * 0 + 0 * 0) with 0 in H by ring. rewrite sqrt_0 in H.
    replace (1 * 1 + 0 * 0) with 1 in H by ring. rewrite sqrt_1 in H.
    assert (K := H ltac:(lra)). apply ltb_iff in K. lra.
Qed.
(** A mallet off the table at the end of the episode costs 10 when the task ends there, even if the goal was scored. *)
Theorem pb_hit_goal pen an term absorbing has_hit vg vs p ee v v' r :
  pb_hit_reward pen an term absorbing has_hit vg vs p ee v v' = Some r ->
  r + pen * an = 200 <-> absorbing = true /\ half_l < fst p /\ Rabs (snd p) < goal_w /\
                         ~ (term = true /\ (half_l < Rabs (fst ee) \/ half_w < Rabs (snd ee))).
Proof.
  unfold pb_hit_reward. intros E.
  destruct (andb absorbing (andb term (off_table ee))) eqn:A.
  - injection E as <-. apply andb_true_iff in A. destruct A as [-> A]. apply andb_true_iff in A. destruct A as [-> A].
    unfold off_table in A. rewrite orb_true_iff, !ltb_iff in A. split; [lra|]. intros (_ & _ & _ & N). exfalso. auto.
  - apply hit_goal in E. destruct E as [E1 E2]. split.
    + intros R. destruct absorbing.
      * destruct (Rlt_dec half_l (fst p)) as [B|B]; [destruct (Rlt_dec (Rabs (snd p)) goal_w) as [C|C]|].
        -- repeat split; auto. intros [-> O]. simpl in A. unfold off_table in A. rewrite orb_false_iff, !ltb_false in A. lra.
        -- exfalso. assert (K := E2 ltac:(tauto)). lra.
        -- exfalso. assert (K := E2 ltac:(tauto)). lra.
      * exfalso. assert (K := E2 ltac:(intros [? _]; discriminate)). lra.
    + intros (B & C & D & _). auto.
Qed.

(** * Defending, repelling, preparing *)
Lemma waiting_range p ee : 0 < waiting p ee <= 1 + 1 / 4.
Proof.
  unfold waiting. remember (Rabs (- (6 / 10) - fst ee)) as d eqn:Ed. assert (D : 0 <= d) by (rewrite Ed; apply Rabs_pos).
  assert (E0 := exp_pos (-3 * d)). assert (E1 : exp (-3 * d) <= 1).
  { rewrite <- exp_0. destruct D as [D|D]; [left; apply exp_increasing; lra|right; f_equal; lra]. }
  assert (G := gauss_pos (2 / 10) (Rabs (snd p - snd ee) - 8 / 100) ltac:(lra)).
  assert (K := gauss_le (2 / 10) (Rabs (snd p - snd ee) - 8 / 100) ltac:(lra)).
  replace (/ (24 / 10 * (2 / 10))) with (100 / 48) in K by field. lra.
Qed.
(** Conceding a goal costs 50; otherwise the reward before the action penalty is at least -1, and it is negative only for a bounce. *)
Theorem defend_conceding pen an absorbing has_hit has_bounce p ee speed :
  let r := defend_reward pen an absorbing has_hit has_bounce p ee speed + pen * an in
  (absorbing = true /\ fst p < - half_l /\ Rabs (snd p) < goal_w -> r = -50) /\
  (~ (absorbing = true /\ fst p < - half_l /\ Rabs (snd p) < goal_w) -> -1 <= r <= 10) /\
  (-1 <= r < 0 -> absorbing = false /\ has_bounce = true).
Proof.
  cbn zeta. unfold defend_reward.
  destruct absorbing.
  { unfold conceded. destruct (ltb (fst p + half_l) 0) eqn:A; [apply ltb_iff in A|apply ltb_false in A].
    - destruct (ltb (Rabs (snd p) - goal_w) 0) eqn:B; [apply ltb_iff in B|apply ltb_false in B]; simpl;
        (split; [intros H; try lra|split; [intros H; try lra|intros H; lra]]).
    - simpl. split; [intros H; lra|split; intros H; lra]. }
  split; [intros [H _]; discriminate|].
  destruct has_bounce; [split; intros H; auto; lra|].
  destruct has_hit.
  - assert (X := exp_pos (-5 * Rabs (fst p + 6 / 10))). assert (Y := exp_pos (-3 * Rabs (snd p))). assert (Z := exp_pos (- (5 * speed) ^ 2)).
    assert (P1 := Rabs_pos (fst p + 6 / 10)). assert (P2 := Rabs_pos (snd p)). assert (P3 := pow2_ge_0 (5 * speed)).
    assert (U : forall x, x <= 0 -> exp x <= 1).
    { intros x [H|H]; [left; rewrite <- exp_0; apply exp_increasing; auto|right; rewrite H; apply exp_0]. }
    assert (X1 := U (-5 * Rabs (fst p + 6 / 10)) ltac:(lra)). assert (Y1 := U (-3 * Rabs (snd p)) ltac:(lra)).
    assert (Z1 := U (- (5 * speed) ^ 2) ltac:(lra)).
    destruct (andb _ _); split; intros H; lra.
  - assert (W := waiting_range p ee). split; intros H; lra.
Qed.
Example defend_ex : defend_reward 0 0 true false true (-1, 1 / 5) (0, 0) 3 = -50.
Proof.
  assert (A := proj1 (defend_conceding 0 0 true false true (-1, 1 / 5) (0, 0) 3)). unfold half_l, goal_w in A. cbn [fst snd] in A.
  rewrite Rabs_right in A by lra. assert (K := A ltac:(repeat split; lra)). lra.
Qed.
(** Repelling: conceding costs 50, but it is not the worst outcome: a hit puck moving fast the wrong way costs more. *)
Theorem repel_conceding pen an has_hit p ee v : fst p < - half_l -> Rabs (snd p) < goal_w ->
  repel_reward pen an true has_hit p ee v + pen * an = -50.
Proof.
  intros A B. unfold repel_reward, conceded.
  replace (ltb (fst p + half_l) 0) with true by (symmetry; apply ltb_iff; lra).
  replace (ltb (Rabs (snd p) - goal_w) 0) with true by (symmetry; apply ltb_iff; lra). simpl. lra.
Qed.
Theorem repel_worst_refuted : ~ (forall has_hit p ee v, -50 <= repel_reward 0 0 false has_hit p ee v).
Proof.
  intros H. specialize (H true (0, 0) (0, 0) (-4)). unfold repel_reward in H. cbn [fst snd] in H.
  replace (ltb (9 / 10) 0) with false in H by (symmetry; apply ltb_false; lra).
  assert (K := Rmin_l ((-4) ^ 3) 5). lra.
Qed.
(** Preparing (side problem): an episode that ends by losing the puck into the own goal gets a bonus of up to 100, which it should not. *)
Theorem prepare_bonus_refuted :
  ~ (forall pen an has_hit p ee v r, 0 <= pen * an -> prepare_reward pen an true true has_hit p ee v = Some r ->
       fst p < - half_l -> Rabs (snd p) < goal_w -> r <= 0).
Proof.
  intros H. specialize (H 0 0 true (-1, 0) (0, 0) (0, 0)). unfold prepare_reward in H. cbn [fst snd andb] in H.
  replace (ltb (Rabs 0) (47 / 100)) with true in H by (symmetry; apply ltb_iff; rewrite Rabs_R0; lra).
  assert (K := H _ ltac:(lra) eq_refl ltac:(unfold half_l; lra) ltac:(unfold goal_w; rewrite Rabs_R0; lra)).
  assert (E := exp_pos (-2 * norm2 (0, 0))). lra.
Qed.
(** Apart from the bonus at the end (at most 100, reached by a puck at rest), the reward before the penalty is below 8. *)
Theorem prepare_range pen an side absorbing has_hit p ee v r :
  prepare_reward pen an side absorbing has_hit p ee v = Some r ->
  (absorbing = true /\ 0 < r <= 100) \/ r + pen * an < 8.
Proof.
  unfold prepare_reward. intros E.
  assert (N := norm2_pos v). assert (B : 0 < 100 * exp (-2 * norm2 v) <= 100).
  { assert (X := exp_pos (-2 * norm2 v)). split; [lra|].
    destruct N as [N|N]; [assert (K : exp (-2 * norm2 v) < 1) by (rewrite <- exp_0; apply exp_increasing; lra); lra|].
    rewrite <- N. replace (-2 * 0) with 0 by ring. rewrite exp_0. lra. }
  assert (M := norm2_pos (sub2 ee ee_end)).
  destruct side.
  - destruct (andb absorbing _) eqn:A.
    + left. apply andb_true_iff in A. injection E as <-. tauto.
    + right. destruct has_hit.
      * destruct (andb _ _) in E; simpl in E; injection E as <-; [|lra].
        assert (K : Rmax 0 (1 - 10 * (exp (Rabs (fst v)) - 1)) <= 1); [|lra].
        apply Rmax_lub; [lra|]. assert (P := Rabs_pos (fst v)).
        assert (1 <= exp (Rabs (fst v))); [|lra]. rewrite <- exp_0 at 1.
        destruct P as [P|P]; [left; apply exp_increasing; auto|right; f_equal; auto].
      * destruct (approach _ _ _) as [q|] eqn:F; [|discriminate]. simpl in E. injection E as <-. apply approach_range in F. lra.
  - destruct (andb absorbing _) eqn:A.
    + left. apply andb_true_iff in A. injection E as <-. tauto.
    + right. destruct has_hit.
      * destruct (andb _ _) in E; simpl in E; injection E as <-; [|lra].
        assert (G := gauss_le (1 / 10) (fst p + 75 / 100) ltac:(lra)). replace (/ (24 / 10 * (1 / 10))) with (100 / 24) in G by field.
        assert (P := Rabs_pos (snd v)).
        assert (X : exp (-3 * norm2 (sub2 ee ee_end)) <= 1).
        { rewrite <- exp_0. destruct M as [M|M]; [left; apply exp_increasing; lra|right; f_equal; lra]. }
        lra.
      * destruct (approach _ _ _) as [q|] eqn:F; [|discriminate]. simpl in E. injection E as <-. apply approach_range in F. lra.
Qed.

(** * PyBullet observations *)
(** Without noise and delay the observation has the puck in the frame of the robot, its velocity, the joint positions and velocities. *)
Theorem pb_hockey_observation draw prev t tx ty p vx vy vz wz q0 q1 q2 d0 d1 d2 :
  exists u w a b,
    pb_observation false false draw prev (planar t tx ty) p [vx; vy; vz] wz [q0; q1; q2] [d0; d1; d2] = Some [u; w; a; b; wz; q0; q1; q2; d0; d1; d2] /\
    fst p = tx + u * cos t - w * sin t /\ snd p = ty + u * sin t + w * cos t /\
    vx = a * cos t - b * sin t /\ vy = a * sin t + b * cos t.
Proof.
  exists (fst (to_frame_pos (planar t tx ty) p)), (snd (to_frame_pos (planar t tx ty) p)).
  exists (cos t * vx + sin t * vy), (- sin t * vx + cos t * vy). split.
  - unfold pb_observation. simpl. f_equal. f_equal. f_equal. f_equal; [|f_equal]; unfold rotT, planar; simpl; ring.
  - destruct (proj1 (puck_in_frame t tx ty p _ _) (surjective_pairing _)) as [A B]. split; [exact A|split; [exact B|]].
    assert (T := sin2_cos2 t). unfold Rsqr in T. split.
    + replace (_ - _) with (vx * (sin t * sin t + cos t * cos t)) by ring. rewrite T; ring.
    + replace (_ + _) with (vy * (sin t * sin t + cos t * cos t)) by ring. rewrite T; ring.
Qed.
(** With obs_noise no observation can be built; with obs_delay neither the first nor any later one. *)
Theorem pb_noise_refuted draw prev f p lin wz q qd delay : pb_observation true delay draw prev f p lin wz q qd = None.
Proof. reflexivity. Qed.
Theorem pb_delay_refuted draw prev f p lin wz q qd noise : (forall o, prev = Some o -> length o = 11%nat) ->
  pb_observation noise true draw prev f p lin wz q qd = None.
Proof.
  intros H. unfold pb_observation. destruct prev as [o|].
  - specialize (H o eq_refl). do 11 (destruct o as [|? o]; [discriminate|]). destruct o; [|discriminate].
    destruct noise; reflexivity.
  - destruct noise; reflexivity.
Qed.
(** The declared limits of the puck position are those of the table, while the observation is seen from the robot: a puck at the centre is outside. *)
Theorem pb_puck_limits_refuted :
  ~ (forall p, Rabs (fst p) <= half_l -> Rabs (snd p) <= half_w ->
       fst pb_puck_low <= fst (to_frame_pos frame_1 p) <= fst pb_puck_high /\ snd pb_puck_low <= snd (to_frame_pos frame_1 p) <= snd pb_puck_high).
Proof.
  intros H. specialize (H (0, 0)). cbn [fst snd] in H. rewrite Rabs_R0 in H. unfold half_l, half_w in H.
  destruct (H ltac:(lra) ltac:(lra)) as [A _]. unfold to_frame_pos, frame_1, rotT, pb_puck_high in A. simpl in A. lra.
Qed.
(** The mallet is at most the length of the arm away from the base; stretched out it is exactly there. *)
Theorem hockey_reach q0 q1 q2 : norm2 (fk q0 q1 q2) <= 13 / 10 /\ norm2 (fk q0 0 0) = 13 / 10.
Proof.
  assert (D : forall a b, cos a * cos b + sin a * sin b <= 1).
  { intros a b. rewrite <- cos_minus. apply COS_bound. }
  assert (S : forall a, sin a * sin a + cos a * cos a = 1) by (intros a; apply sin2_cos2).
  split.
  - unfold norm2, fk. cbn [fst snd].
    remember (q0 + q1) as a. remember (a + q2) as b.
    replace (13 / 10) with (sqrt (13 / 10 * (13 / 10))) by (apply sqrt_square; lra).
    apply sqrt_le_1_alt.
    assert (A := D q0 a). assert (B := D q0 b). assert (C := D a b). assert (S0 := S q0). assert (S1 := S a). assert (S2 := S b).
    match goal with |- ?l <= _ => replace l with
      (25 / 100 * (sin q0 * sin q0 + cos q0 * cos q0) + 16 / 100 * (sin a * sin a + cos a * cos a) + 16 / 100 * (sin b * sin b + cos b * cos b)
       + 40 / 100 * (cos q0 * cos a + sin q0 * sin a) + 40 / 100 * (cos q0 * cos b + sin q0 * sin b) + 32 / 100 * (cos a * cos b + sin a * sin b)) by field end.
    rewrite S0, S1, S2. lra.
  - unfold norm2, fk. cbn [fst snd]. rewrite !Rplus_0_r.
    replace (_ + _) with (13 / 10 * (13 / 10) * (sin q0 * sin q0 + cos q0 * cos q0)) by field.
    rewrite S, Rmult_1_r. apply sqrt_square. lra.
Qed.

(** * Ball in a cup *)
(** The reward is one exactly when the ball is within 5 cm of the goal, and then the episode ends; it also ends, with no reward, when the ball touches the robot. *)
Theorem cup_reward_absorbing dist collision :
  (cup_reward dist = 1 <-> dist < 5 / 100) /\ (cup_reward dist = 0 <-> 5 / 100 <= dist) /\
  (cup_absorbing dist collision = true <-> cup_reward dist = 1 \/ collision = true).
Proof.
  unfold cup_reward, cup_absorbing, caught. destruct (ltb dist (5 / 100)) eqn:A; [apply ltb_iff in A|apply ltb_false in A]; simpl;
    (split; [split; intros; lra|split; [split; intros; lra|]]); split; intros K; auto.
  destruct K as [K|K]; [exfalso; lra|auto].
Qed.
Example cup_ex : cup_reward (1 / 100) = 1 /\ cup_absorbing (1 / 10) true = true.
Proof. split; [apply (proj1 (cup_reward_absorbing (1 / 100) true)); lra|apply (proj2 (proj2 (cup_reward_absorbing (1 / 10) true))); auto]. Qed.
(** Every reset starts from the same simulator state, the one the controller reached the first time. *)
Theorem cup_same_start {D} (fresh : D) controller n d : In d (cup_resets fresh controller n None) -> d = controller fresh.
Proof.
  assert (G : forall n x, In x (cup_resets fresh controller n (Some (controller fresh))) -> x = controller fresh).
  { clear. induction n as [|n IH]; simpl; intros x H; [tauto|]. destruct H as [H|H]; auto. }
  destruct n; simpl; intros H; [tauto|]. destruct H as [H|H]; [auto|eapply G; eauto].
Qed.
Example cup_same_start_ex : cup_resets 3%nat S 3 None = [4; 4; 4]%nat.
Proof. reflexivity. Qed.
(** The reference of the controller goes from the start to the end, is there after n steps, and is always between. *)
Theorem cup_movement start end_ n i : (0 < n)%nat ->
  linear_movement start end_ n 0 = start /\ ((n <= i)%nat -> linear_movement start end_ n i = end_) /\
  (start <= end_ -> start <= linear_movement start end_ n i <= end_) /\ (end_ <= start -> end_ <= linear_movement start end_ n i <= start).
Proof.
  intros Hn. unfold linear_movement. assert (N : 0 < INR n) by (apply lt_0_INR; auto).
  assert (I0 : 0 <= INR i / INR n).
  { apply Rmult_le_pos; [apply pos_INR|left; apply Rinv_0_lt_compat; auto]. }
  assert (B : 0 <= Rmin 1 (INR i / INR n) <= 1) by (split; [apply Rmin_glb; lra|apply Rmin_l]).
  split; [|split; [|split]].
  - simpl. unfold Rdiv. rewrite Rmult_0_l, Rmin_right by lra. ring.
  - intros H. rewrite Rmin_left; [ring|]. apply le_INR in H. apply (Rmult_le_reg_r (INR n)); auto. unfold Rdiv. rewrite Rmult_assoc, Rinv_l by lra. lra.
  - intros H. nra.
  - intros H. nra.
Qed.

Print Assumptions hockey_flags.
Print Assumptions hockey_double_flags.
Print Assumptions hockey_double_flags_refuted.
Print Assumptions puck_readings.
Print Assumptions puck_readings_refuted.
Print Assumptions puck_in_frame.
Print Assumptions puck_velocity_in_frame.
Print Assumptions puck_velocity_in_frame_refuted.
Print Assumptions ee_constraints_iff.
Print Assumptions ee_constraints_second.
Print Assumptions joint_vel_constraints_iff.
Print Assumptions joint_pos_constraints_refuted.
Print Assumptions hockey_absorbing.
Print Assumptions hockey_absorbing_bullet.
Print Assumptions hockey_task_absorbing.
Print Assumptions hit_bounce_point.
Print Assumptions hit_direction.
Print Assumptions hit_goal.
Print Assumptions hit_defined.
Print Assumptions hit_speed_ignored.
Print Assumptions hit_speed_refuted.
Print Assumptions pb_hit_stale_refuted.
Print Assumptions pb_hit_goal.
Print Assumptions defend_conceding.
Print Assumptions repel_conceding.
Print Assumptions repel_worst_refuted.
Print Assumptions prepare_bonus_refuted.
Print Assumptions prepare_range.
Print Assumptions pb_hockey_observation.
Print Assumptions pb_noise_refuted.
Print Assumptions pb_delay_refuted.
Print Assumptions pb_puck_limits_refuted.
Print Assumptions hockey_reach.
Print Assumptions cup_reward_absorbing.
Print Assumptions cup_same_start.
Print Assumptions cup_movement.

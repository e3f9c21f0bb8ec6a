(** Theorems C93 and the resets of C43. *)
From Coq Require Import List Arith Lia Reals Bool Lra.
From Verif Require Import Common UtilModel UtilSpec UtilProps EnvModel EnvSpec EnvProps ResetModel.
Import ListNotations.
Local Open Scope R_scope.

Lemma norm_fix : forall a, - PI < a <= PI -> normalize_angle a = a.
Proof.
  intros a H. destruct (norm_range a) as [A B]. symmetry.
  pose proof (angle_canonical a) as (_ & _ & U). apply U; auto. exists 0%Z. lra.
Qed.

(** The corrections are idempotent. *)
Lemma correct_idem : forall k v, correct k (correct k v) = correct k v.
Proof.
  intros k v. pose proof PI_RGT_0.
  assert (N : forall a, normalize_angle (normalize_angle a) = normalize_angle a)
    by (intros a; apply norm_fix; apply (norm_range a)).
  destruct k; cbn [correct]; auto.
  - destruct v; cbn [correct]; rewrite ?N; auto.
  - destruct v as [|a [|b t]]; cbn [correct]; rewrite ?N; auto. f_equal. f_equal.
    apply bound_id. apply (bound_between b (- max_omega) max_omega). unfold max_omega. lra.
Qed.

Lemma upd_spec : forall A (l l' : list A) i x, upd l i x = Some l' ->
  nth_error l' i = Some x /\ forall j, j <> i -> nth_error l' j = nth_error l j.
Proof.
  induction l as [|h t IH]; intros l' [|i] x H; simpl in H; try discriminate.
  - inversion H; subst. split; auto. intros [|j] Hj; [congruence|auto].
  - destruct (upd t i x) as [t'|] eqn:E; [|discriminate]. inversion H; subst.
    destruct (IH _ _ _ E) as [A1 A2]. split; auto. intros [|j] Hj; simpl; auto.
Qed.

(** A cell holding a corrected value keeps it in every operation; any cell keeps its value
    in operations that do not pass it to reset. *)
Lemma op_keeps : forall k w o w' p q v, do_op k w o = Some (w', p) -> nth_error (heap w) q = Some v ->
  correct k v = v \/ o <> OGiven q -> nth_error (heap w') q = Some v.
Proof.
  intros k w o w' p q v H Q C.
  assert (AP : forall x, nth_error (heap w ++ [x]) q = Some v).
  { intros x. rewrite nth_error_app1; auto. apply nth_error_Some. congruence. }
  destruct o as [x|a|f|x]; unfold do_op, alloc in H.
  - destruct (init w); inversion H; subst; cbn [heap]; auto.
  - destruct (nth_error (heap w) a) as [u|] eqn:E; cbn [obind] in H; [|discriminate].
    destruct (upd (heap w) a (correct k u)) as [h|] eqn:U; cbn [obind] in H; [|discriminate].
    inversion H; subst. cbn [heap]. destruct (upd_spec _ _ _ _ _ U) as [U1 U2].
    destruct (Nat.eq_dec q p) as [->|N]; [|rewrite U2; auto].
    destruct C as [C|C]; [|congruence]. rewrite U1. congruence.
  - destruct (cur w) as [c|]; cbn [obind] in H; [|discriminate].
    destruct (nth_error (heap w) c); cbn [obind] in H; [|discriminate]. inversion H; subst. cbn [heap]. auto.
  - inversion H; subst. cbn [heap]. auto.
Qed.

(** The start states drawn by reset() are values the corrections leave alone (an angle in
    ]-pi, pi] and no velocity), and so is the initial state of LQR, which has none. *)
Definition op_ok (k : kind) (o : op) : Prop := match o with OReset v => correct k v = v | _ => True end.
Definition world_ok (k : kind) (w : world) : Prop :=
  forall a, init w = Some a -> exists v, nth_error (heap w) a = Some v /\ correct k v = v.

Lemma op_world : forall k w o w' p, world_ok k w -> op_ok k o -> do_op k w o = Some (w', p) ->
  world_ok k w' /\ init w' = init w /\ (length (heap w) <= length (heap w'))%nat.
Proof.
  intros k w o w' p W O H.
  assert (Ei : init w' = init w).
  { destruct o; unfold do_op, alloc in H.
    - destruct (init w) eqn:E; inversion H; subst; auto.
    - destruct (nth_error (heap w) a); cbn [obind] in H; [|discriminate].
      destruct (upd _ _ _); cbn [obind] in H; [|discriminate]. inversion H; subst; auto.
    - destruct (cur w); cbn [obind] in H; [|discriminate].
      destruct (nth_error _ _); cbn [obind] in H; [|discriminate]. inversion H; subst; auto.
    - inversion H; subst; auto. }
  split; [|split; auto].
  - intros a Ha. rewrite Ei in Ha. destruct (W a Ha) as (v & V & C). exists v. split; auto.
    eapply op_keeps; eauto.
  - destruct o; unfold do_op, alloc in H.
    + destruct (init w) eqn:E; inversion H; subst; cbn [heap]; rewrite ?app_length; lia.
    + destruct (nth_error (heap w) a); cbn [obind] in H; [|discriminate].
      destruct (upd _ _ _) eqn:U; cbn [obind] in H; [|discriminate]. inversion H; subst. cbn [heap].
      apply upd_length in U. lia.
    + destruct (cur w); cbn [obind] in H; [|discriminate].
      destruct (nth_error _ _); cbn [obind] in H; [|discriminate]. inversion H; subst. cbn [heap]. rewrite app_length. lia.
    + inversion H; subst. cbn [heap]. rewrite app_length. lia.
Qed.

Definition is_new (o : op) : Prop := match o with ONew _ => True | _ => False end.

(** A returned observation is a corrected value. *)
Lemma op_returns : forall k w o w' p, world_ok k w -> op_ok k o -> ~ is_new o -> do_op k w o = Some (w', p) ->
  exists v, nth_error (heap w') p = Some v /\ correct k v = v.
Proof.
  intros k w o w' p W O N H.
  assert (NW : forall x, nth_error (heap w ++ [x]) (length (heap w)) = Some x).
  { intros x. rewrite nth_error_app2, Nat.sub_diag; auto. }
  destruct o as [x|a|f|x]; unfold do_op, alloc in H.
  - destruct (init w) as [a|] eqn:E; inversion H; subst; cbn [heap].
    + apply W. auto.
    + exists x. split; auto.
  - destruct (nth_error (heap w) a) as [u|] eqn:E; cbn [obind] in H; [|discriminate].
    destruct (upd (heap w) a (correct k u)) as [h|] eqn:U; cbn [obind] in H; [|discriminate].
    inversion H; subst. cbn [heap]. destruct (upd_spec _ _ _ _ _ U) as [U1 _]. rewrite U1.
    eexists. split; [reflexivity|]. apply correct_idem.
  - destruct (cur w) as [c|]; cbn [obind] in H; [|discriminate].
    destruct (nth_error (heap w) c); cbn [obind] in H; [|discriminate]. inversion H; subst. cbn [heap].
    eexists. split; [apply NW|]. apply correct_idem.
  - exfalso. apply N. exact Logic.I.
Qed.

Lemma run_keeps : forall k l w w' rets q v, run k w l = Some (w', rets) -> nth_error (heap w) q = Some v ->
  correct k v = v \/ ~ In (OGiven q) l -> nth_error (heap w') q = Some v.
Proof.
  induction l as [|o l IH]; intros w w' rets q v H Q C; cbn [run] in H.
  - inversion H; subst. auto.
  - destruct (do_op k w o) as [[w1 p]|] eqn:E; cbn [obind fst snd] in H; [|discriminate].
    destruct (run k w1 l) as [[w2 ps]|] eqn:R; cbn [obind fst snd] in H; [|discriminate]. inversion H; subst.
    eapply IH; [exact R| |].
    + eapply op_keeps; eauto. destruct C as [C|C]; auto. right. intros ->. apply C. left. auto.
    + destruct C as [C|C]; auto. right. intros I'. apply C. right. auto.
Qed.

(** ** C93 *)
(** The array returned by the [n]-th call still holds, at the end of any interaction, the
    value it had when it was returned, even when it was handed back to reset. *)
Theorem observations_stable : forall k l w w' rets n o p, world_ok k w -> Forall (op_ok k) l ->
  run k w l = Some (w', rets) -> nth_error l n = Some o -> ~ is_new o -> nth_error rets n = Some p ->
  exists w1 rets1 v, run k w (firstn (S n) l) = Some (w1, rets1) /\
    nth_error (heap w1) p = Some v /\ nth_error (heap w') p = Some v.
Proof.
  induction l as [|o l IH]; intros w w' rets n x p W F H N NW P; [destruct n; discriminate|].
  cbn [run] in H. destruct (do_op k w o) as [[w1 q]|] eqn:E; cbn [obind fst snd] in H; [|discriminate].
  destruct (run k w1 l) as [[w2 ps]|] eqn:R; cbn [obind fst snd] in H; [|discriminate]. inversion H; subst.
  pose proof (Forall_inv F) as Fo. pose proof (Forall_inv_tail F) as Fl.
  destruct (op_world k w o w1 q W Fo E) as (W1 & _). destruct n as [|n].
  - simpl in N, P. assert (x = o) by congruence. assert (p = q) by congruence. subst.
    destruct (op_returns k w o w1 q W Fo NW E) as (v & V & C).
    exists w1, [q], v. split.
    + cbn [firstn run]. rewrite E. reflexivity.
    + split; auto. eapply run_keeps; eauto.
  - simpl in N, P. destruct (IH w1 w' ps n x p W1 Fl R N NW P) as (w3 & r3 & v & R3 & V1 & V2).
    exists w3, (q :: r3), v. split; auto. rewrite firstn_cons. cbn [run]. rewrite E. cbn [obind fst snd].
    rewrite R3. reflexivity.
Qed.

(** Arrays of the caller are only written by handing them to reset; there, an array that
    already has a normalised angle and an admissible velocity is not changed either. *)
Theorem caller_arrays_kept : forall k l w w' rets q v, run k w l = Some (w', rets) ->
  nth_error (heap w) q = Some v ->
  (In (OGiven q) l -> match k, v with
     | Plain, _ => True
     | _, a :: t => - PI < a <= PI /\ (k = Pendulum -> forall b, hd_error t = Some b -> - (5 / 2 * PI) <= b <= 5 / 2 * PI)
     | _, [] => True end) ->
  nth_error (heap w') q = Some v.
Proof.
  intros k l w w' rets q v H Q C. eapply run_keeps; eauto.
  assert (D : In (OGiven q) l \/ ~ In (OGiven q) l).
  { clear. induction l as [|o l IH]; [right; auto|]. destruct IH as [I'|I']; [left; right; auto|].
    destruct o as [x|a|f|x]; try (right; intros [E|E]; [discriminate|auto]).
    destruct (Nat.eq_dec a q) as [->|N]; [left; left; auto|]. right. intros [E|E]; [congruence|auto]. }
  destruct D as [D|D]; auto. left. specialize (C D). destruct k; cbn [correct]; auto.
  - destruct v as [|a t]; auto. rewrite norm_fix; tauto.
  - destruct v as [|a [|b t]]; auto; destruct C as [C1 C2]; rewrite norm_fix by auto; auto.
    f_equal. f_equal. apply bound_id. unfold max_omega. assert (E : - (5 / 2 * PI) <= b <= 5 / 2 * PI) by (apply C2; auto).
    lra.
Qed.

(** Otherwise the caller's array is overwritten. *)
Theorem reset_given_overwrites_refuted : exists v w' rets,
  run Pendulum (mkW [] None None) [ONew v; OGiven 0] = Some (w', rets) /\
  in_box [- (2 * PI); - (5 / 2 * PI)] [2 * PI; 5 / 2 * PI] v /\ nth_error (heap w') 0 <> Some v.
Proof.
  exists [3 * PI / 2; 0], (mkW [correct Pendulum [3 * PI / 2; 0]] (Some 0%nat) None), [0; 0]%nat. split; [reflexivity|]. pose proof PI_RGT_0. split.
  - split; auto. intros [|[|i]] Hi; simpl in *; lra || lia.
  - cbn [nth_error heap correct]. rewrite angle_demo. intros E. assert (- PI / 2 = 3 * PI / 2) by congruence. lra.
Qed.

(** ** C43: resets *)
(** InvertedPendulum: every observation of every interaction lies in the declared box, whatever
    arrays (of two components) are given to reset and whatever the integrator returns. *)
Theorem pendulum_run_box : forall l w w' rets n o p, world_ok Pendulum w -> Forall (op_ok Pendulum) l ->
  run Pendulum w l = Some (w', rets) -> nth_error l n = Some o -> ~ is_new o -> nth_error rets n = Some p ->
  exists v, nth_error (heap w') p = Some v /\
    (length v = 2%nat -> in_box [- PI; - (5 / 2 * PI)] [PI; 5 / 2 * PI] v).
Proof.
  intros l w w' rets n o p W F H N NW P.
  assert (G : exists v, nth_error (heap w') p = Some v /\ correct Pendulum v = v).
  { revert w rets n W F H N P. induction l as [|x l IH]; intros w rets n W F H N P; [destruct n; discriminate|].
    cbn [run] in H. destruct (do_op Pendulum w x) as [[w1 q]|] eqn:E; cbn [obind fst snd] in H; [|discriminate].
    destruct (run Pendulum w1 l) as [[w2 ps]|] eqn:R; cbn [obind fst snd] in H; [|discriminate]. inversion H; subst.
    pose proof (Forall_inv F) as Fo. pose proof (Forall_inv_tail F) as Fl.
    destruct (op_world _ w x w1 q W Fo E) as (W1 & _). destruct n as [|n]; simpl in N, P.
    - assert (x = o) by congruence. assert (p = q) by congruence. subst.
      destruct (op_returns _ w o w1 q W Fo NW E) as (v & V & C). exists v. split; auto. eapply run_keeps; eauto.
    - eapply IH; eauto. }
  destruct G as (v & V & C). exists v. split; auto. intros L2. pose proof PI_RGT_0.
  destruct v as [|a [|b [|]]]; simpl in L2; try lia. cbn [correct] in C.
  assert (Ea : normalize_angle a = a) by congruence. assert (Eb : bound b (- max_omega) max_omega = b) by congruence.
  destruct (norm_range a) as [A _]. rewrite Ea in A.
  assert (B : between (- max_omega) max_omega (bound b (- max_omega) max_omega)) by (apply bound_between; unfold max_omega; lra).
  rewrite Eb in B. unfold between, max_omega in B. split; auto.
  intros [|[|i]] Hi; simpl in *; lra || lia.
Qed.

(** The angle given to reset is kept up to full turns. *)
Theorem reset_given_angle : forall k a t w rets, k <> Plain ->
  run k (mkW [] None None) [ONew (a :: t); OGiven 0] = Some (w, rets) ->
  exists b u, nth_error (heap w) 0 = Some (b :: u) /\ - PI < b <= PI /\ same_angle a b /\ length u = length t /\
    (k = Angle -> u = t) /\ (- PI < a <= PI -> b = a).
Proof.
  intros k a t w rets K H. destruct (norm_range a) as [A S]. destruct k; [congruence| |];
    cbn [run do_op heap cur init obind fst snd app nth_error length upd correct] in H.
  - inversion H; subst. exists (normalize_angle a), t. cbn [nth_error heap]. repeat split; auto; try lra. apply norm_fix.
  - destruct t as [|b t]; inversion H; subst; eexists; eexists; (split; [reflexivity|]);
      repeat split; auto; try lra; try discriminate; apply norm_fix.
Qed.

(** LQR: every reset() returns the initial state given to the constructor, with its original
    value, after any interaction (neither resets nor steps write into it). *)
Theorem lqr_initial_state : forall l w w' rets a v x, init w = Some a -> nth_error (heap w) a = Some v ->
  run Plain w l = Some (w', rets) ->
  exists w2, do_op Plain w' (OReset x) = Some (w2, a) /\ nth_error (heap w2) a = Some v /\ cur w2 = Some a.
Proof.
  intros l w w' rets a v x Ia Va H.
  assert (W : world_ok Plain w) by (intros b Hb; exists v; split; auto; congruence).
  assert (V : nth_error (heap w') a = Some v) by (eapply run_keeps; eauto; left; reflexivity).
  assert (E : init w' = Some a).
  { revert w rets Ia Va W H. clear -V. induction l as [|o l IH]; intros w rets Ia Va W H; cbn [run] in H.
    - inversion H; subst. auto.
    - destruct (do_op Plain w o) as [[w1 q]|] eqn:E; cbn [obind fst snd] in H; [|discriminate].
      destruct (run Plain w1 l) as [[w2 ps]|] eqn:R; cbn [obind fst snd] in H; [|discriminate]. inversion H; subst.
      assert (O : op_ok Plain o) by (destruct o; simpl; auto).
      destruct (op_world Plain w o w1 q W O E) as (W1 & E1 & _).
      eapply IH; [| |exact W1|exact R]; [congruence|]. eapply op_keeps; eauto. }
  unfold do_op. rewrite E. eexists. split; [reflexivity|]. split; auto.
Qed.

(** The other environments return a given state as it is, so an initial state outside the
    declared space is returned: for LQR with max_pos 2, from the constructor or from reset. *)
Theorem reset_given_box_refuted : exists w p1 w1 rets1,
  do_op Plain (mkW [[3; 0]] None (Some 0%nat)) (OReset [9 / 10 * 2; 9 / 10 * 2]) = Some (w, p1) /\
  run Plain (mkW [] None None) [ONew [3; 0]; OGiven 0] = Some (w1, rets1) /\
  (forall v, nth_error (heap w) p1 = Some v -> ~ in_box [-2; -2] [2; 2] v) /\
  (forall v, nth_error (heap w1) 0 = Some v -> ~ in_box [-2; -2] [2; 2] v).
Proof.
  exists (mkW [[3; 0]] (Some 0%nat) (Some 0%nat)), 0%nat, (mkW [[3; 0]] (Some 0%nat) None), [0; 0]%nat.
  split; [reflexivity|]. split; [reflexivity|].
  assert (N : ~ in_box [-2; -2] [2; 2] [3; 0]).
  { intros [_ H]. specialize (H 0%nat ltac:(simpl; lia)). simpl in H. lra. }
  split; intros v E; cbn [nth_error heap] in E; assert (v = [3; 0]) by congruence; subst; auto.
Qed.

(** An interaction with the pendulum: two steps, then the first observation is given back. *)
Example pendulum_demo2 : exists w rets,
  run Pendulum (mkW [] None None) [OReset [PI / 2; 0]; OStep (fun _ => [3 * PI / 2; 1]); OStep (fun s => s); OGiven 1; OStep (fun s => s)]
    = Some (w, rets) /\ rets = [0; 1; 2; 1; 3]%nat /\ cur w = Some 3%nat /\ nth_error (heap w) 1 = Some [- PI / 2; 1].
Proof.
  pose proof PI_RGT_0. pose proof PI_4. 
  set (v := correct Pendulum [3 * PI / 2; 1]).
  exists (mkW [[PI / 2; 0]; correct Pendulum v; correct Pendulum v; correct Pendulum (correct Pendulum v)] (Some 3%nat) None), [0; 1; 2; 1; 3]%nat.
  split; [reflexivity|]. split; [reflexivity|]. split; [reflexivity|].
  cbn [nth_error heap]. unfold v. rewrite correct_idem. cbn [correct]. rewrite angle_demo.
  assert (PI2 : 2 < PI) by (pose proof PI2_3_2; unfold PI2 in *; lra).
  assert (B : bound 1 (- max_omega) max_omega = 1) by (apply bound_id; unfold max_omega; lra).
  rewrite B. reflexivity.
Qed.
Print Assumptions observations_stable.
Print Assumptions caller_arrays_kept.
Print Assumptions reset_given_overwrites_refuted.
Print Assumptions pendulum_run_box.
Print Assumptions reset_given_angle.
Print Assumptions lqr_initial_state.
Print Assumptions reset_given_box_refuted.

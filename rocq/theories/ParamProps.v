(** Theorems C22, C23: parameter schedules. *)
From Coq Require Import List Arith Lia Reals Bool Lra Psatz.
From Verif Require Import Common ParamModel ParamSpec ParamProofs.
Import ListNotations.

(** ** C22 *)

(** In every sequence of calls on valid entries, no call fails, and the value
    returned to the call on entry [i] is the point of the line that corresponds to
    the number of calls on [i] so far (the current one included). *)
Theorem linear_parameter_schedule : forall v0 th n size l, 1 <= n -> 1 <= size ->
  Forall (fun i => size = 1 \/ i < size) l ->
  exists p outs q, linear_init v0 th n size = Some p /\ p_calls p l = Some (outs, q) /\ length outs = length l /\
    forall j i, nth_error l j = Some i ->
      nth_error outs j = Some (line v0 th n (visits size i (firstn (S j) l))).
Proof.
  intros v0 th n size l Hn Hs F. destruct (linear_init_size v0 th n size Hn) as (p & A & B & p1 & C & D1 & D2 & D3).
  assert (LN : length (p_n p) = size) by (rewrite B; apply repeat_length).
  destruct (calls_spec l p) as (outs & q & E1 & E2 & E3 & E4 & E5); [lia|rewrite LN; exact F|].
  exists p, outs, q. repeat split; auto. intros j i H. rewrite (E5 j i H).
  assert (Z : cnt0 p i = 0). { destruct p. simpl in B. subst. apply cnt0_init. }
  rewrite Z, LN. cbn [plus]. rewrite <- (clip_line v0 th n _ Hn p1 C), D1, D2, D3. reflexivity.
Qed.

(** The line starts at v0, reaches the threshold at visit n and stays there, is
    monotone and never leaves the interval between the two. *)
Theorem line_shape : forall v0 th n k k', 1 <= n -> k <= k' ->
  line v0 th n 0 = v0 /\ (n <= k -> line v0 th n k = th) /\
  (v0 <= th -> v0 <= line v0 th n k /\ line v0 th n k <= line v0 th n k' /\ line v0 th n k' <= th)%R /\
  (th <= v0 -> th <= line v0 th n k' /\ line v0 th n k' <= line v0 th n k /\ line v0 th n k <= v0)%R.
Proof.
  intros v0 th n k k' Hn Hk. assert (N0 : (0 < INR n)%R) by (apply lt_0_INR; lia).
  assert (FR : forall m, m < n -> (0 <= INR m / INR n < 1)%R).
  { intros m Hm. apply lt_INR in Hm. pose proof (pos_INR m). split.
    - apply Rmult_le_pos; auto. left. apply Rinv_0_lt_compat; auto.
    - apply (Rmult_lt_reg_r (INR n)); auto. unfold Rdiv. rewrite Rmult_assoc, Rinv_l; lra. }
  split; [|split].
  - unfold line. destruct (n <=? 0) eqn:E; [apply Nat.leb_le in E; lia|]. simpl. unfold Rdiv. ring.
  - intros H. unfold line. rewrite (proj2 (Nat.leb_le _ _)); auto.
  - unfold line. destruct (n <=? k) eqn:E; [apply Nat.leb_le in E|apply Nat.leb_gt in E];
    destruct (n <=? k') eqn:E'; [apply Nat.leb_le in E'|apply Nat.leb_gt in E'|apply Nat.leb_le in E'|apply Nat.leb_gt in E'].
    + lra.
    + lia.
    + pose proof (FR k E). split; intros; repeat split; nra.
    + pose proof (FR k E) as F1. pose proof (FR k' E') as F2.
      assert (M : (INR k / INR n <= INR k' / INR n)%R).
      { apply Rmult_le_compat_r; [left; apply Rinv_0_lt_compat; auto|apply le_INR; auto]. }
      split; intros; repeat split; nra.
Qed.

(** The decaying parameter returns v0/k^p at the k-th call on an entry, within
    its bounds. *)
Theorem decay_parameter_schedule : forall v0 e mn mx size l, 1 <= size ->
  Forall (fun i => size = 1 \/ i < size) l ->
  exists outs q, p_calls (decay_init v0 e mn mx size) l = Some (outs, q) /\ length outs = length l /\
    forall j i, nth_error l j = Some i ->
      nth_error outs j = Some (np_clip mn mx (v0 / Rpower (INR (visits size i (firstn (S j) l))) e)).
Proof.
  intros v0 e mn mx size l Hs F.
  assert (LN : length (p_n (decay_init v0 e mn mx size)) = size) by apply repeat_length.
  destruct (calls_spec l (decay_init v0 e mn mx size)) as (outs & q & E1 & E2 & E3 & E4 & E5); [lia|rewrite LN; exact F|].
  exists outs, q. repeat split; auto. intros j i H. rewrite (E5 j i H).
  assert (Z : cnt0 (decay_init v0 e mn mx size) i = 0) by apply cnt0_init. rewrite Z.
  rewrite LN. cbn [plus decay_init p_min p_max]. unfold raw. cbn [decay_init p_kind p_v0]. do 4 f_equal.
  assert (V : 1 <= visits size i (firstn (S j) l)).
  { unfold visits. destruct (size =? 1).
    - rewrite firstn_length. assert (j < length l) by (apply nth_error_Some; congruence). lia.
    - apply count_occ_In. rewrite <- (firstn_skipn (S j) l) in H. rewrite nth_error_app1 in H.
      + eapply nth_error_In; eauto.
      + rewrite firstn_length. assert (j < length l).
        { assert (nth_error (firstn (S j) l ++ skipn (S j) l) j <> None) by congruence.
          rewrite firstn_skipn in H0. apply nth_error_Some; auto. }
        lia. }
  f_equal. lia.
Qed.

(** The decay is antitone for a non-negative start and exponent, and starts at v0. *)
Theorem decay_antitone : forall v0 e k k', (0 <= v0)%R -> (0 <= e)%R -> 1 <= k -> k <= k' ->
  (v0 / Rpower (INR k') e <= v0 / Rpower (INR k) e)%R /\ (v0 / Rpower (INR 1) e = v0)%R.
Proof.
  intros v0 e k k' Hv He Hk Hk'. split.
  - apply Rmult_le_compat_l; auto. apply Rinv_le_contravar.
    + unfold Rpower. apply exp_pos.
    + apply Rle_Rpower_l; auto. split; [apply lt_0_INR; lia|apply le_INR; auto].
  - unfold Rpower. simpl. rewrite ln_1, Rmult_0_r, exp_0. field.
Qed.

(** A constant parameter always returns its (clipped) value. *)
Theorem constant_parameter : forall v0 mn mx size l, 1 <= size -> Forall (fun i => size = 1 \/ i < size) l ->
  exists q, p_calls (param_init v0 mn mx size) l = Some (repeat (np_clip mn mx v0) (length l), q).
Proof.
  intros v0 mn mx size l Hs F.
  assert (LN : length (p_n (param_init v0 mn mx size)) = size) by apply repeat_length.
  destruct (calls_spec l (param_init v0 mn mx size)) as (outs & q & E1 & E2 & E3 & E4 & E5); [lia|rewrite LN; exact F|].
  exists q. rewrite E1. do 2 f_equal. clear E1 E3 E4 F.
  apply nth_ext with (d := 0%R) (d' := 0%R); [rewrite repeat_length; auto|].
  intros j Hj. rewrite E2 in Hj. destruct (nth_error l j) as [i|] eqn:N; [|apply nth_error_None in N; lia].
  specialize (E5 j i N). apply nth_error_nth with (d := 0%R) in E5. rewrite E5.
  unfold raw. simpl. clear - Hj. revert j Hj. induction l; intros [|j] H; simpl in *; try lia; auto. apply IHl. lia.
Qed.

(** Visit counts: every call advances exactly the entry it names. *)
Theorem parameter_counts_visits : forall p l i, 1 <= length (p_n p) ->
  Forall (fun i => length (p_n p) = 1 \/ i < length (p_n p)) l -> i < length (p_n p) ->
  exists outs q, p_calls p l = Some (outs, q) /\
    nth i (p_n q) 0 = nth i (p_n p) 0 + visits (length (p_n p)) i l.
Proof.
  intros p l i Hs F Hi. destruct (calls_spec l p Hs F) as (outs & q & E1 & E2 & E3 & E4 & E5).
  exists outs, q. split; auto. specialize (E4 i (or_intror Hi)). unfold cnt0 in E4. rewrite E3 in E4.
  unfold tbl_pos in E4. destruct (length (p_n p) =? 1) eqn:E; auto.
  apply Nat.eqb_eq in E. assert (i = 0) by lia. subst. auto.
Qed.

(** ** C23 *)

(** The statistics kept for one entry are the sample mean of the targets and of
    their squares; the parameter of the next update is computed from the unbiased
    sample variance of all previous targets. *)
Theorem variance_parameter_statistics_partial : forall f v0 mn tol size l x a,
  let p := vp_updates f (vp_init v0 mn tol size) l in
  2 <= length l ->
  vp_x p = mean (map fst l) /\
  vp_val (vp_update f p x a) = f (svar (map fst l) * vp_w p)%R /\ (0 <= svar (map fst l) * vp_w p)%R.
Proof.
  intros f v0 mn tol size l x a p H. destruct (vp_inv f v0 mn tol size l) as (A & B & C & D & E & F). fold p in A, B, C, D, E, F.
  destruct (E ltac:(destruct l; simpl in *; [lia|congruence])) as [X1 X2].
  assert (L2 : 2 <= length (map fst l)) by (rewrite map_length; auto).
  split; auto. split.
  - cbn [vp_update vp_val]. rewrite A. destruct (length l <? 2) eqn:Q; [apply Nat.ltb_lt in Q; lia|].
    rewrite X1, X2, (svar_alt _ L2), map_map, map_length. reflexivity.
  - apply Rmult_le_pos; auto. apply svar_nonneg; auto.
Qed.

(** The increasing parameter lies in [0,1) and the decreasing one in (0,1/tol]. *)
Theorem variance_parameter_range : forall tol sigma, (0 < tol)%R -> (0 <= sigma)%R ->
  (0 <= incr_value tol sigma < 1)%R /\ (0 < decr_value tol sigma <= 1 / tol)%R.
Proof.
  intros tol s Ht Hs. unfold incr_value, decr_value. split; split.
  - apply Rmult_le_pos; auto. left. apply Rinv_0_lt_compat. lra.
  - apply (Rmult_lt_reg_r (s + tol)); [lra|]. unfold Rdiv. rewrite Rmult_assoc, Rinv_l; lra.
  - apply Rdiv_lt_0_compat; lra.
  - unfold Rdiv. rewrite !Rmult_1_l. apply Rinv_le_contravar; lra.
Qed.

(** The size argument becomes the maximum value: every value above it is clipped,
    and there is a single visit counter whatever the requested size. *)
Theorem variance_parameter_size_refuted : forall f v0 tol size x a, (INR size < v0)%R -> 2 <= size ->
  vp_value (vp_update f (vp_init v0 None tol size) x a) = INR size /\ vp_counters size <> size.
Proof.
  intros. split.
  - unfold vp_value. simpl. apply Rmin_right. lra.
  - unfold vp_counters. lia.
Qed.

(** The windowed variant fails at its second update, for every window of at least
    two samples. *)
Theorem windowed_variance_refuted : forall window x y, 2 <= window ->
  exists p, wp_store (wp_init window) x = Some p /\ wp_store p y = None.
Proof.
  intros w x y Hw. eexists. split; [reflexivity|].
  unfold wp_store. cbn [wp_samples wp_index wp_window wp_init]. destruct (w <=? 0 + 1) eqn:E; [apply Nat.leb_le in E; lia|]. reflexivity.
Qed.

(** Concrete schedules: two entries with their own counters. *)
Example linear_demo : exists p outs q, linear_init 1 0 4 2 = Some p /\ p_calls p [0; 1; 0] = Some (outs, q) /\
  outs = [3 / 4; 3 / 4; 1 / 2]%R.
Proof.
  destruct (linear_parameter_schedule 1 0 4 2 [0; 1; 0]) as (p & outs & q & A & B & C & D); try lia; [repeat constructor; lia|].
  exists p, outs, q. repeat split; auto. destruct outs as [|a [|b [|c [|? ?]]]]; try discriminate.
  pose proof (D 0 0 eq_refl) as D0. pose proof (D 1 1 eq_refl) as D1. pose proof (D 2 0 eq_refl) as D2.
  cbn in D0, D1, D2. inversion D0; inversion D1; inversion D2. unfold line; simpl. f_equal; [lra|f_equal; [lra|f_equal; lra]].
Qed.

Example decay_demo : forall q, nth_error (map (fun k => 6 / Rpower (INR k) 1)%R [1; 2; 3]) 2 = Some q -> q = 2%R.
Proof. intros q H. inversion H. rewrite Rpower_1; simpl; lra. Qed.

Example variance_demo : svar [1; 3]%R = 2%R.
Proof. unfold svar, mean. simpl. field. Qed.

Print Assumptions linear_parameter_schedule.
Print Assumptions line_shape.
Print Assumptions decay_parameter_schedule.
Print Assumptions decay_antitone.
Print Assumptions constant_parameter.
Print Assumptions parameter_counts_visits.
Print Assumptions variance_parameter_statistics_partial.
Print Assumptions variance_parameter_range.
Print Assumptions variance_parameter_size_refuted.
Print Assumptions windowed_variance_refuted.

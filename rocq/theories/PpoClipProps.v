(** Theorems C136: the clipping range of PPO under a scheduled eps_ppo. *)
From Coq Require Import List Arith Lia Reals Bool Lra.
From Verif Require Import Common ParamModel ParamSpec ParamProofs UtilModel Td3NoiseModel Td3NoiseProps PpoClipModel.
Import ListNotations.

(** The least number of batches of at most [bs] rows that cover [size] rows. *)
Definition batches_of (bs size m : nat) : Prop := size <= bs * m /\ forall k, size <= bs * k -> m <= k.
(** The minibatches of the fits in [ms], each gone through [epochs] times. *)
Definition gone (epochs : nat) (ms : list nat) : nat := epochs * list_sum ms.

Lemma number_batches : forall bs size, 1 <= bs -> batches_of bs size (minibatch_number size bs).
Proof.
  intros bs size H. unfold batches_of, minibatch_number. pose proof (Nat.div_mod (size + bs - 1) bs ltac:(lia)) as D.
  pose proof (Nat.mod_upper_bound (size + bs - 1) bs ltac:(lia)) as M. split; [nia|].
  intros k K. apply Nat.lt_succ_r. apply Nat.div_lt_upper_bound; lia.
Qed.
Lemma batches_unique : forall bs size m m', batches_of bs size m -> batches_of bs size m' -> m = m'.
Proof. intros bs size m m' [A B] [C D]. specialize (B _ C). specialize (D _ A). lia. Qed.

(** A loop whose body takes [d] steps of the parameter takes [n * d] of them. *)
Lemma times_spec : forall A p (f : param -> option (A * param)) (g : nat -> A) d n,
  (forall k, f (at_count p k) = Some (g k, at_count p (k + d))) ->
  forall k, times n f (at_count p k) = Some (map (fun i => g (k + i * d)) (seq 0 n), at_count p (k + n * d)).
Proof.
  intros A p f g d n F. induction n as [|n IH]; intros k; cbn [times].
  - rewrite Nat.add_0_r. reflexivity.
  - rewrite F. cbn [obind fst snd]. rewrite IH. cbn [obind fst snd]. cbn [seq map]. rewrite Nat.mul_0_l, Nat.add_0_r.
    rewrite <- seq_shift, map_map. f_equal. f_equal; [f_equal; apply map_ext; intros i; f_equal; lia|f_equal; lia].
Qed.

Lemma nth_error_map_seq : forall A (f : nat -> A) n i, i < n -> nth_error (map f (seq 0 n)) i = Some (f i).
Proof.
  intros A f n i H. apply map_nth_error. rewrite (nth_error_nth' _ (seq 0 n) _ 0) by (rewrite seq_length; auto). rewrite seq_nth by auto. reflexivity.
Qed.

(** In every run no fit fails, and in minibatch [b] of epoch [e] of fit [f] (all from 0) the ratio is
    clipped to [1 - c, 1 + c], the same [c] on both sides.  [c] is the value of the schedule at the
    number of minibatches gone through since the agent was built, this one included: the schedule
    moves with the minibatches, not with the fits. *)
Theorem ppo_clip_schedule : forall s p epochs bs sizes ms, build s = Some p -> 1 <= bs ->
  Forall2 (batches_of bs) sizes ms ->
  exists outs q, run_ranges epochs bs sizes p = Some (outs, q) /\ length outs = length sizes /\
    forall f m, nth_error ms f = Some m -> exists fit, nth_error outs f = Some fit /\ length fit = epochs /\
      forall e, e < epochs -> exists ranges, nth_error fit e = Some ranges /\ length ranges = m /\
        forall b, b < m -> let c := at_step s (gone epochs (firstn f ms) + e * m + b + 1) in
          nth_error ranges b = Some (1 - c, 1 + c)%R.
Proof.
  intros s p epochs bs sizes ms B Hb F. destruct (sched_call _ _ B) as [E C].
  assert (CR : forall k, clip_range (at_count p k) = Some ((1 - at_step s (k + 1), 1 + at_step s (k + 1))%R, at_count p (k + 1))).
  { intros k. destruct (C k) as [C1 C2]. unfold clip_range. rewrite C1. cbn [obind fst snd]. rewrite C2. cbn [obind]. rewrite Nat.add_1_r. reflexivity. }
  set (rg := fun k => (1 - at_step s (k + 1), 1 + at_step s (k + 1))%R) in *.
  assert (FR : forall size m k, batches_of bs size m -> fit_ranges epochs bs size (at_count p k) =
    Some (map (fun e => map (fun b => rg (k + e * m + b)) (seq 0 m)) (seq 0 epochs), at_count p (k + epochs * m))).
  { intros size m k Hm. unfold fit_ranges. rewrite (times_spec _ p _ (fun k => map (fun b => rg (k + b)) (seq 0 m)) m).
    - reflexivity.
    - intros j. unfold epoch_ranges. rewrite (batches_unique _ _ _ _ (number_batches bs size Hb) Hm).
      rewrite (times_spec _ p _ rg 1) by exact CR. rewrite Nat.mul_1_r. do 2 f_equal. apply map_ext. intros i. f_equal. lia. }
  assert (R : forall k, exists outs q, run_ranges epochs bs sizes (at_count p k) = Some (outs, q) /\ length outs = length sizes /\
    forall f m, nth_error ms f = Some m ->
      nth_error outs f = Some (map (fun e => map (fun b => rg (k + gone epochs (firstn f ms) + e * m + b)) (seq 0 m)) (seq 0 epochs))).
  { induction F as [|size m sizes ms Hm F IH]; intros k.
    - exists [], (at_count p k). repeat split. intros [|f] m H; discriminate.
    - destruct (IH (k + epochs * m)) as (outs & q & N1 & N2 & N3). cbn [run_ranges]. rewrite (FR size m k Hm). cbn [obind fst snd].
      rewrite N1. cbn [obind fst snd]. eexists _, _. split; [reflexivity|]. split; [simpl; lia|].
      intros [|f] m' H; cbn [nth_error firstn] in H |- *.
      + inversion H; subst. f_equal. apply map_ext. intros e. apply map_ext. intros b. f_equal. unfold gone. simpl. lia.
      + rewrite (N3 f m' H). f_equal. apply map_ext. intros e. apply map_ext. intros b. f_equal. unfold gone.
        change (list_sum (m :: firstn f ms)) with (m + list_sum (firstn f ms)). lia. }
  destruct (R 0) as (outs & q & R1 & R2 & R3). rewrite <- E in R1. exists outs, q. split; [exact R1|]. split; [exact R2|].
  intros f m H. eexists. split; [exact (R3 f m H)|]. split; [rewrite map_length, seq_length; reflexivity|].
  intros e He. eexists. split; [apply nth_error_map_seq; exact He|]. split; [rewrite map_length, seq_length; reflexivity|].
  intros b Hb2. rewrite nth_error_map_seq by exact Hb2. reflexivity.
Qed.

(** A LinearParameter over [n] steps, the fits all with [m] minibatches: from the first fit [f]
    with n <= f * epochs * m on, every range is the final one, whatever [n] meant to the user. *)
Theorem ppo_clip_schedule_ends : forall v th n p epochs bs size m fits, build (Lin v th n) = Some p -> 1 <= bs ->
  batches_of bs size m ->
  exists outs q, run_ranges epochs bs (repeat size fits) p = Some (outs, q) /\
    forall f fit ranges r, n <= f * epochs * m -> nth_error outs f = Some fit -> In ranges fit -> In r ranges -> r = (1 - th, 1 + th)%R.
Proof.
  intros v th n p epochs bs size m fits B Hb Hm.
  assert (F2 : Forall2 (batches_of bs) (repeat size fits) (repeat m fits)) by (induction fits; simpl; constructor; auto).
  destruct (ppo_clip_schedule _ _ epochs bs _ _ B Hb F2) as (outs & q & A1 & A2 & A3). exists outs, q. split; [exact A1|].
  intros f fit ranges r Hn Hf Hr I. rewrite repeat_length in A2.
  assert (LF : f < fits) by (rewrite <- A2; apply nth_error_Some; congruence).
  assert (NM : nth_error (repeat m fits) f = Some m) by (apply nth_error_repeat; auto).
  destruct (A3 f m NM) as (fit' & F1 & F3 & F4). rewrite Hf in F1. inversion F1; subst fit'.
  destruct (In_nth_error _ _ Hr) as (e & He). assert (LE : e < epochs) by (rewrite <- F3; apply nth_error_Some; congruence).
  destruct (F4 e LE) as (rs & G1 & G2 & G3). rewrite He in G1. inversion G1; subst rs.
  destruct (In_nth_error _ _ I) as (b & Hb2). assert (LB : b < m) by (rewrite <- G2; apply nth_error_Some; congruence).
  specialize (G3 b LB). cbn zeta in G3. rewrite Hb2 in G3.
  assert (GN : gone epochs (firstn f (repeat m fits)) = f * epochs * m).
  { unfold gone. replace (firstn f (repeat m fits)) with (repeat m f).
    - assert (L : list_sum (repeat m f) = f * m) by (clear; induction f as [|f IH]; [reflexivity|]; cbn [repeat]; change (list_sum (m :: repeat m f)) with (m + list_sum (repeat m f)); lia).
      rewrite L. lia.
    - clear - LF. revert fits LF. induction f as [|f IH]; intros [|fits] L; simpl; auto; [lia|]. f_equal. apply IH. lia. }
  rewrite GN in G3. inversion G3. unfold at_step, line. rewrite (proj2 (Nat.leb_le _ _)) by lia. reflexivity.
Qed.

(** eps_ppo meant to go from 1/5 to 0 over 10 fits, 2 epochs of 3 minibatches (5 rows, at most 2
    each): the second fit reaches 0 in its second epoch, and the third only sees 0. *)
Example ppo_clip_ex : exists p outs q a b, build (Lin (1/5) 0 10) = Some p /\ run_ranges 2 2 [5; 5; 5] p = Some (outs, q) /\
  nth_error outs 1 = Some [a; b] /\ nth_error a 0 = Some (47/50, 53/50)%R /\ nth_error b 0 = Some (1, 1)%R.
Proof.
  destruct (linear_init_size (1/5) 0 10 1 ltac:(lia)) as (p & B & _).
  assert (F : Forall2 (batches_of 2) [5; 5; 5] [3; 3; 3]) by (repeat constructor; try lia; intros; lia).
  destruct (ppo_clip_schedule _ _ 2 2 _ _ (B : build (Lin (1/5) 0 10) = Some p) ltac:(lia) F) as (outs & q & A1 & _ & A3).
  destruct (A3 1 3 eq_refl) as (fit & F1 & F2 & F3). destruct fit as [|a [|b [|]]]; try discriminate F2.
  exists p, outs, q, a, b. split; [exact B|]. split; [exact A1|]. split; [exact F1|].
  destruct (F3 0 ltac:(lia)) as (r & G1 & _ & G3). destruct (F3 1 ltac:(lia)) as (r' & H1 & _ & H3).
  inversion G1; subst. inversion H1; subst. rewrite (G3 0 ltac:(lia)), (H3 0 ltac:(lia)).
  unfold at_step, line, gone. simpl. split; do 2 f_equal; lra.
Qed.

Print Assumptions ppo_clip_schedule.
Print Assumptions ppo_clip_schedule_ends.

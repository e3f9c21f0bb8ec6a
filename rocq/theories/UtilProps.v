(** Theorems C30, C31, C32, C59. *)
From Coq Require Import List Arith Lia Reals Bool Lra Psatz ZArith Permutation.
From Verif Require Import Common UtilModel UtilSpec UtilProofs.
Import ListNotations.

(** * C30: running statistics *)

(** The running mean is the mean of all the data together with the documented prior
    sample 0, however the data are split into batches. *)
Theorem running_mean_exact : forall amin bs, Forall (fun b => b <> []) bs -> (0 <= amin)%R ->
  (amin * INR (1 + length (concat bs)) <= 1)%R ->
  let st := fold_left (rs_update amin) bs rs_init in
  rs_n st = 1 + length (concat bs) /\ rs_m st = avg (0%R :: concat bs).
Proof.
  intros amin bs F H0 HA st. pose proof (rs_n_total amin bs rs_init) as N. fold st in N. cbn [rs_n rs_init] in N. split; auto.
  pose proof (rs_mean_inv amin bs rs_init ltac:(simpl; lia) F HA H0) as M. fold st in M. cbn [rs_n rs_m rs_init] in M.
  unfold avg. cbn [rsum length]. rewrite N in M. 
  assert (P : (0 < INR (S (length (concat bs))))%R) by (apply lt_0_INR; lia).
  apply (Rmult_eq_reg_l (INR (S (length (concat bs))))); [|lra].
  change (INR (1 + length (concat bs))) with (INR (S (length (concat bs)))) in M. rewrite M. field. lra.
Qed.

(** Fed one sample at a time, the running variance is the sum of squared deviations
    of the data (with the prior sample) plus the prior 1, divided by the count. *)
Theorem running_variance_exact_partial : forall amin data, (0 <= amin)%R -> (amin * INR (1 + length data) <= 1)%R ->
  let st := fold_left (rs_update amin) (map (fun x => [x]) data) rs_init in
  rs_var st = ((1 + sq_dev (0%R :: data)) / INR (1 + length data))%R.
Proof.
  intros amin data H0 HA st.
  assert (CC : forall l : list R, concat (map (fun x => [x]) l) = l) by (induction l; simpl; congruence).
  assert (FF : forall l : list R, Forall (fun b => b <> []) (map (fun x => [x]) l)) by (induction l; simpl; constructor; auto; discriminate).
  assert (S : rs_s st = (1 + sq_dev (0%R :: data))%R).
  { unfold st. clear st. induction data as [|x data IH] using rev_ind.
    - unfold sq_dev, avg. simpl. field.
    - rewrite app_length in HA. cbn [length] in HA.
      assert (HA' : (amin * INR (1 + length data) <= 1)%R).
      { eapply Rle_trans; [|exact HA]. apply Rmult_le_compat_l; auto. apply le_INR. lia. }
      specialize (IH HA'). rewrite map_app, fold_left_app. cbn [map fold_left].
      destruct (running_mean_exact amin (map (fun x => [x]) data) (FF data) H0) as [N M]; [rewrite CC; auto|].
      destruct (running_mean_exact amin (map (fun x => [x]) (data ++ [x])) (FF _) H0) as [N2 M2].
      { rewrite CC, app_length. cbn [length]. auto. }
      rewrite CC in *. rewrite map_app, fold_left_app in N2, M2. cbn [map fold_left] in N2, M2.
      set (st := fold_left (rs_update amin) (map (fun x => [x]) data) rs_init) in *.
      assert (E : rs_s (rs_update amin st [x]) = (rs_s st + (x - rs_m st) * (x - rs_m (rs_update amin st [x])))%R).
      { unfold rs_update. cbn [rs_s rs_m]. unfold bmean. simpl. replace ((x + 0) / 1)%R with x by field. reflexivity. }
      rewrite E, IH, M, M2. change (0%R :: data ++ [x]) with ((0%R :: data) ++ [x]).
      set (d := 0%R :: data). assert (L : (0 < INR (length d))%R) by (apply lt_0_INR; simpl; lia).
      assert (Q : forall l m, rsum (map (fun y => (y - m) ^ 2)%R l) =
                  (rsum (map (fun y => y ^ 2)%R l) - 2 * m * rsum l + INR (length l) * m ^ 2)%R).
      { induction l as [|y l IHl]; intros m; [simpl; ring|]. cbn [map rsum length]. rewrite IHl, S_INR. ring. }
      unfold sq_dev. rewrite !Q. unfold avg. rewrite app_length, map_app, !rsum_app, plus_INR. cbn [map rsum length].
      change (INR 1) with 1%R. set (n := INR (length d)) in *. set (s1 := rsum d). set (s2 := rsum (map _ d)).
      field. lra. }
  unfold rs_var. rewrite S. unfold st. rewrite rs_n_total, CC. reflexivity.
Qed.

(** Fed with batches, the variance within the batches is lost. *)
Theorem running_variance_batch_refuted : forall amin, (0 <= amin <= 1/3)%R ->
  rs_var (fold_left (rs_update amin) [[-1; 1]]%R rs_init) = (1/3)%R /\
  rs_var (fold_left (rs_update amin) [[-1]; [1]]%R rs_init) = 1%R.
Proof.
  intros amin H. split.
  - cbn [fold_left]. unfold rs_var, rs_update, bmean. simpl. field.
  - pose proof (running_variance_exact_partial amin [-1; 1]%R ltac:(lra)) as E. cbv zeta in E. cbn [map] in E.
    rewrite E; [|simpl; lra]. unfold sq_dev, avg. simpl. field.
Qed.

(** The standard deviation never vanishes, so standardisation never divides by zero,
    and the standardised observation stays within the clipping bounds. *)
Theorem standardization_well_defined : forall amin bs c x, (0 < amin < 1)%R -> Forall (fun b => b <> []) bs -> (0 <= c)%R ->
  let st := fold_left (rs_update amin) bs rs_init in
  (0 < rs_std st)%R /\ (- c <= std_call c st x <= c)%R.
Proof.
  intros amin bs c x HA F Hc st.
  assert (P : (1 <= rs_s st)%R /\ 1 <= rs_n st).
  { unfold st. assert (G : forall bs s0, Forall (fun b => b <> []) bs -> (1 <= rs_s s0)%R -> 1 <= rs_n s0 ->
      (1 <= rs_s (fold_left (rs_update amin) bs s0))%R /\ 1 <= rs_n (fold_left (rs_update amin) bs s0)).
    { clear bs F st. induction bs as [|b bs IH]; intros s0 F H1 H2; [auto|]. inversion F as [|? ? NE F']; subst.
      cbn [fold_left]. apply IH; auto; unfold rs_update; cbn [rs_s rs_n]; [|lia].
      set (a := Rmax _ amin). assert (A : (0 <= a <= 1)%R).
      { unfold a. split; [eapply Rle_trans; [|apply Rmax_r]; lra|]. apply Rmax_lub; [|lra].
        assert (L1 : (0 < INR (rs_n s0 + length b))%R) by (apply lt_0_INR; lia).
        apply (Rmult_le_reg_r (INR (rs_n s0 + length b))); auto. unfold Rdiv. rewrite Rmult_assoc, Rinv_l by lra.
        rewrite Rmult_1_r, Rmult_1_l. apply le_INR. lia. }
      set (m := bmean b). replace ((m - rs_m s0) * (m - ((1 - a) * rs_m s0 + a * m)))%R with ((1 - a) * Rsqr (m - rs_m s0))%R by (unfold Rsqr; ring).
      pose proof (Rle_0_sqr (m - rs_m s0)). assert (0 <= (1 - a) * Rsqr (m - rs_m s0))%R by (apply Rmult_le_pos; lra). lra. }
    apply G; [exact F|simpl; lra|simpl; lia]. }
  destruct P as [P1 P2]. split.
  - unfold rs_std, rs_var. apply sqrt_lt_R0. apply Rdiv_lt_0_compat; [lra|]. apply lt_0_INR. lia.
  - unfold std_call, clip. split.
    + apply Rmin_glb; [apply Rmax_r|lra].
    + apply Rmin_r.
Qed.

(** Exponentially weighted average: closed form, and range. *)
Theorem exp_average_closed_form : forall alpha init data,
  ew_update alpha init data = ((1 - alpha) ^ length data * init +
    rsum (map (fun i => alpha * (1 - alpha) ^ (length data - 1 - i) * nth i data 0) (seq 0 (length data))))%R.
Proof.
  intros alpha init data. unfold ew_update. induction data as [|x data IH] using rev_ind; [simpl; ring|].
  rewrite fold_left_app, IH. cbn [fold_left]. rewrite app_length. cbn [length]. rewrite Nat.add_1_r.
  rewrite seq_S, map_app, rsum_app. cbn [plus map rsum].
  rewrite (rsum_map_ext _ (fun i => alpha * (1 - alpha) ^ (S (length data) - 1 - i) * nth i (data ++ [x]) 0)%R
    (fun i => (1 - alpha) * (alpha * (1 - alpha) ^ (length data - 1 - i) * nth i data 0))%R).
  2:{ intros i Hi. apply in_seq in Hi. rewrite app_nth1 by lia.
      replace (S (length data) - 1 - i) with (S (length data - 1 - i)) by lia. cbn [pow]. ring. }
  rewrite (rsum_map_scal _ (fun i => alpha * (1 - alpha) ^ (length data - 1 - i) * nth i data 0)%R).
  rewrite app_nth2, Nat.sub_diag by lia. replace (S (length data) - 1 - length data) with 0 by lia. cbn [nth pow]. ring.
Qed.

Theorem exp_average_range : forall alpha init data lo hi, (0 <= alpha <= 1)%R -> (lo <= init <= hi)%R ->
  (forall x, In x data -> lo <= x <= hi)%R -> (lo <= ew_update alpha init data <= hi)%R.
Proof.
  intros alpha init data lo hi HA. revert init. unfold ew_update. induction data as [|x data IH]; intros init HI HD; auto.
  cbn [fold_left]. apply IH; [|intros; apply HD; simpl; auto]. specialize (HD x (or_introl eq_refl)). nra.
Qed.

(** Windowed average: the buffer holds the last [w] of the initial value followed by
    the data, for any split of the data into batches. *)
Theorem window_average : forall w init bs, 1 <= w ->
  let buf := fold_left (win_update w) bs (win_init w init) in
  buf = lastn w (init :: concat bs) /\
  (w <= length (concat bs) -> win_mean buf = avg (lastn w (concat bs))).
Proof.
  intros w init bs Hw buf.
  assert (U : forall v l, win_update w (lastn w l) v = lastn w (l ++ v)).
  { intros v. unfold win_update. induction v as [|x v IH]; intros l; cbn [fold_left]; [rewrite app_nil_r; auto|].
    unfold dq_append at 2. 
    assert (E : lastn w (lastn w l ++ [x]) = lastn w (l ++ [x])).
    { unfold lastn. rewrite !app_length, skipn_length. cbn [length].
      rewrite !skipn_app, skipn_length, skipn_skipn'.
      destruct (le_lt_dec (length l) w) as [A|A].
      - replace (length l - w) with 0 by lia. cbn [skipn plus]. rewrite Nat.sub_0_r. reflexivity.
      - f_equal; f_equal; lia. }
    rewrite E, IH, <- app_assoc. reflexivity. }
  assert (B : forall bs l, fold_left (win_update w) bs (lastn w l) = lastn w (l ++ concat bs)).
  { clear buf bs. induction bs as [|b bs IH]; intros l; cbn [fold_left concat]; [rewrite app_nil_r; auto|].
    rewrite U, IH, <- app_assoc. reflexivity. }
  assert (E : buf = lastn w (init :: concat bs)) by (unfold buf, win_init; rewrite B; reflexivity).
  split; auto. intros HL. rewrite E. unfold win_mean, bmean, avg. 
  assert (L : lastn w (init :: concat bs) = lastn w (concat bs)).
  { unfold lastn. cbn [length]. replace (S (length (concat bs)) - w) with (S (length (concat bs) - w)) by lia. reflexivity. }
  rewrite L. reflexivity.
Qed.

(** * C59: min-max preprocessing *)

Theorem minmax_values : forall bs p c sts obs, mm_init bs = Some p -> length obs = length bs -> length sts = length bs ->
  length (fst (mm_call c p sts obs)) = length bs /\
  forall i, i < length bs ->
    match nth i bs None with
    | Some (l, h) => (l < h)%R ->
        nth i (fst (mm_call c p sts obs)) 0%R = (2 * (nth i obs 0 - l) / (h - l) - 1)%R /\
        ((l <= nth i obs 0 <= h)%R -> (-1 <= nth i (fst (mm_call c p sts obs)) 0 <= 1)%R)
    | None => nth i (fst (mm_call c p sts obs)) 0%R = std_call c (nth i sts rs_init) (nth i obs 0%R)
    end.
Proof.
  intros bs p c sts obs HI LO LS. unfold mm_init in HI.
  destruct (Nat.eqb _ 0); [discriminate|]. destruct (Nat.eqb (length (mm_indices bs)) 1); [discriminate|].
  injection HI as <-. unfold mm_call. cbn [mm_mask mm_run mm_mean mm_delta fst].
  set (run := negb (Nat.eqb (length (mm_indices bs)) (length bs))).
  set (base := if run then _ else obs).
  assert (LB : length base = length bs).
  { unfold base. destruct run; auto. rewrite map_length, combine_length. lia. }
  set (mean := map _ bs). set (delta := map _ bs).
  destruct (fold_setnth (fun i => ((nth i obs 0 - nth i mean 0) / nth i delta 0)%R) (mm_indices bs) base) as [A B].
  { apply mm_indices_NoDup. } { intros i Hi. apply mm_indices_In in Hi. lia. }
  split; [lia|]. intros i Hi. destruct (B i) as [B1 B2]; [lia|]. destruct (nth i bs None) as [[l h]|] eqn:E.
  - intros HL. rewrite B1 by (apply mm_indices_In; split; auto; congruence).
    assert (M : nth i mean 0%R = ((h + l) / 2)%R).
    { unfold mean. rewrite (map_nth_in _ _ _ bs i 0%R None Hi), E. reflexivity. }
    assert (D : nth i delta 0%R = ((h - l) / 2)%R).
    { unfold delta. rewrite (map_nth_in _ _ _ bs i 0%R None Hi), E. reflexivity. }
    rewrite M, D. set (o := nth i obs 0%R). 
    assert (EQ : ((o - (h + l) / 2) / ((h - l) / 2) = 2 * (o - l) / (h - l) - 1)%R) by (field; lra).
    rewrite EQ. split; auto. intros HO.
    assert (0 <= 2 * (o - l) / (h - l) <= 2)%R; [|lra].
    assert (IP : (0 < / (h - l))%R) by (apply Rinv_0_lt_compat; lra). unfold Rdiv. split.
    + apply Rmult_le_pos; lra.
    + apply (Rmult_le_reg_r (h - l)); [lra|]. rewrite Rmult_assoc, Rinv_l by lra. lra.
  - rewrite B2 by (intros X; apply mm_indices_In in X; destruct X; congruence).
    assert (R : run = true).
    { unfold run. apply negb_true_iff, Nat.eqb_neq. intros X.
      assert (I : incl (seq 0 (length bs)) (mm_indices bs)).
      { apply NoDup_length_incl; [apply mm_indices_NoDup|rewrite seq_length; lia|].
        intros j Hj. apply mm_indices_In in Hj. apply in_seq. lia. }
      assert (Y : In i (mm_indices bs)) by (apply I, in_seq; lia). apply mm_indices_In in Y. destruct Y; congruence. }
    unfold base. rewrite R. 
    rewrite (map_nth_in _ _ _ (combine sts obs) i 0%R (rs_init, 0%R)) by (rewrite combine_length; lia).
    rewrite combine_nth by lia. reflexivity.
Qed.

(** The observation passed by the caller is left alone when some component is
    unbounded; when all are bounded it is overwritten with the processed values, so
    an environment that returned its own state array has its state changed. *)
Theorem minmax_preserves_input_partial : forall bs p c sts obs, mm_init bs = Some p ->
  (exists i, i < length bs /\ nth i bs None = None) -> snd (mm_call c p sts obs) = obs.
Proof.
  intros bs p c sts obs HI (i & Hi & E). unfold mm_init in HI.
  destruct (Nat.eqb _ 0); [discriminate|]. destruct (Nat.eqb (length (mm_indices bs)) 1); [discriminate|].
  injection HI as <-. unfold mm_call. cbn [mm_mask mm_run mm_mean mm_delta snd].
  destruct (Nat.eqb (length (mm_indices bs)) (length bs)) eqn:X; auto. apply Nat.eqb_eq in X.
  exfalso. assert (I : incl (seq 0 (length bs)) (mm_indices bs)).
  { apply NoDup_length_incl; [apply mm_indices_NoDup|rewrite seq_length; lia|].
    intros j Hj. apply mm_indices_In in Hj. apply in_seq. lia. }
  assert (Y : In i (mm_indices bs)) by (apply I, in_seq; lia). apply mm_indices_In in Y. destruct Y; congruence.
Qed.

Theorem minmax_mutates_input_refuted : exists p, mm_init [Some (0, 4); Some (0, 4)]%R = Some p /\
  forall c sts, snd (mm_call c p sts [4; 2]%R) = [1; 0]%R /\ snd (mm_call c p sts [4; 2]%R) <> [4; 2]%R.
Proof.
  eexists. split; [reflexivity|]. intros c sts. unfold mm_call. simpl.
  assert (E : [((4 - (4 + 0) / 2) / ((4 - 0) / 2)); ((2 - (4 + 0) / 2) / ((4 - 0) / 2))]%R = [1; 0]%R)
    by (f_equal; [field|f_equal; field]).
  rewrite E. split; auto. intros X. injection X. lra.
Qed.

(** An observation space with exactly one bounded component is rejected, in
    particular every bounded one-dimensional space. *)
Theorem minmax_single_bound_refuted : forall bs i, i < length bs -> nth i bs None <> None ->
  (forall j, j < length bs -> j <> i -> nth j bs None = None) -> mm_init bs = None.
Proof.
  intros bs i Hi HB HN. assert (E : mm_indices bs = [i]).
  { assert (P : Permutation (mm_indices bs) [i]).
    { apply NoDup_Permutation; [apply mm_indices_NoDup|repeat constructor; simpl; tauto|].
      intros j. rewrite mm_indices_In. simpl. split.
      - intros [A B]. destruct (Nat.eq_dec j i) as [->|N]; [left; auto|]. exfalso. apply B, HN; auto.
      - intros [<-|[]]. auto. }
    apply Permutation_sym, Permutation_length_1_inv in P. auto. }
  unfold mm_init. rewrite E. cbn [length Nat.eqb]. destruct (Nat.eqb _ 0); auto.
Qed.

(** * C31: minibatches *)

(** Every row is yielded exactly once, the batches have [bs] rows except possibly the
    last, and the rows of a batch are the same in all the arrays. *)
Theorem minibatches_partition : forall A (d : A) bs perm arrays size, 1 <= bs -> arrays <> [] ->
  (forall a, In a arrays -> length a = size) -> Permutation perm (seq 0 size) ->
  exists idxs, minibatches d bs perm arrays = map (fun idx => map (fun a => map (fun j => nth j a d) idx) arrays) idxs /\
    concat idxs = perm /\
    length idxs * bs < size + bs /\ size <= length idxs * bs /\
    (forall i, i < length idxs -> length (nth i idxs []) = if Nat.eqb (S i) (length idxs) then size - i * bs else bs) /\
    (forall k a, nth_error arrays k = Some a ->
       Permutation (concat (map (fun b => nth k b []) (minibatches d bs perm arrays))) a).
Proof.
  intros A d bs perm arrays size Hb NE LA P.
  assert (LP : length perm = size) by (rewrite (Permutation_length P), seq_length; auto).
  assert (SZ : match arrays with [] => 0 | a :: _ => length a end = size).
  { destruct arrays; [congruence|]. apply LA. simpl; auto. }
  set (idxs := map (fun i => slice (i * bs) (Nat.min size ((i + 1) * bs)) perm) (seq 0 (minibatch_number size bs))).
  assert (LI : length idxs = minibatch_number size bs) by (unfold idxs; rewrite map_length, seq_length; auto).
  destruct (number_bound size bs Hb) as [N1 N2].
  assert (CC : concat idxs = perm) by (unfold idxs; rewrite chunks_concat by auto; apply firstn_all2; lia).
  assert (EQ : minibatches d bs perm arrays = map (fun idx => map (fun a => map (fun j => nth j a d) idx) arrays) idxs).
  { unfold minibatches. rewrite SZ. unfold idxs. rewrite map_map. reflexivity. }
  exists idxs. split; [exact EQ|]. split; auto. rewrite LI. split; auto. split; auto. split.
  - intros i Hi. unfold idxs. 
    rewrite (map_nth_in _ _ _ (seq 0 (minibatch_number size bs)) i [] 0) by (rewrite seq_length; auto).
    rewrite seq_nth by auto. cbn [plus].
    rewrite slice_length, LP. destruct (Nat.eqb (S i) (minibatch_number size bs)) eqn:E.
    + apply Nat.eqb_eq in E. rewrite <- E in N1, N2. nia.
    + apply Nat.eqb_neq in E. assert (S (S i) <= minibatch_number size bs) by lia. nia.
  - intros k a Hk. rewrite EQ, map_map.
    rewrite (map_ext _ (fun idx => map (fun j => nth j a d) idx)).
    2:{ intros idx. rewrite (nth_error_nth (map (fun a => map (fun j => nth j a d) idx) arrays) k []
          (x := map (fun j => nth j a d) idx)); auto. rewrite nth_error_map, Hk. reflexivity. }
    rewrite <- concat_map, CC. transitivity (map (fun j => nth j a d) (seq 0 size)); [apply Permutation_map; auto|].
    rewrite <- (LA a) by (apply nth_error_In in Hk; auto).
    assert (E : map (fun j => nth j a d) (seq 0 (length a)) = a).
    { apply nth_ext with (d := nth 0 a d) (d' := d); [rewrite map_length, seq_length; auto|].
      intros j Hj. rewrite map_length, seq_length in Hj. rewrite (map_nth (fun j => nth j a d)), seq_nth by auto. reflexivity. }
    rewrite E. reflexivity.
Qed.

(** * C32: angles *)

Theorem angle_positive_canonical : forall a,
  (0 <= normalize_angle_positive a < 2 * PI)%R /\ same_angle a (normalize_angle_positive a) /\
  forall b, (0 <= b < 2 * PI)%R -> same_angle a b -> b = normalize_angle_positive a.
Proof.
  intros a. destruct (norm_pos_spec a) as [A B]. split; auto. split; auto. intros b Hb S.
  apply (same_angle_close a); auto. apply Rabs_def1; lra.
Qed.

Lemma norm_range : forall a, (- PI < normalize_angle a <= PI)%R /\ same_angle a (normalize_angle a).
Proof.
  intros a. pose proof PI_RGT_0. destruct (norm_pos_spec a) as [A (k & K)]. unfold normalize_angle.
  set (p := normalize_angle_positive a) in *. destruct (Rlt_dec PI p).
  - split; [lra|]. exists (k + 1)%Z. rewrite plus_IZR. lra.
  - split; [lra|]. exists k. auto.
Qed.

Theorem angle_canonical : forall a,
  (- PI < normalize_angle a <= PI)%R /\ same_angle a (normalize_angle a) /\
  forall b, (- PI < b <= PI)%R -> same_angle a b -> b = normalize_angle a.
Proof.
  intros a. destruct (norm_range a) as [A B]. split; auto. split; auto. intros b Hb S.
  apply (same_angle_close a); auto. apply Rabs_def1; lra.
Qed.

(** The angular distance leads from one angle to the other and no shorter rotation does. *)
Theorem angular_distance_shortest : forall a b,
  same_angle b (a + shortest_angular_distance a b) /\ (Rabs (shortest_angular_distance a b) <= PI)%R /\
  forall d, same_angle b (a + d) -> (Rabs (shortest_angular_distance a b) <= Rabs d)%R.
Proof.
  intros a b. unfold shortest_angular_distance. destruct (norm_range (b - a)) as [A (k & K)].
  pose proof PI_RGT_0. set (s := normalize_angle (b - a)) in *.
  assert (AB : (Rabs s <= PI)%R) by (apply Rabs_le; lra).
  split; [exists k; lra|]. split; auto. intros d (j & J).
  assert (E : (d = s + IZR (k - j) * (2 * PI))%R) by (rewrite minus_IZR; lra).
  destruct (Z.eq_dec (k - j) 0) as [Z|Z]; [rewrite Z in E; replace d with s by lra; lra|].
  eapply Rle_trans; [exact AB|]. assert (D : (2 * PI <= Rabs (d - s))%R).
  { replace (d - s)%R with (IZR (k - j) * (2 * PI))%R by lra. rewrite Rabs_mult, (Rabs_right (2 * PI)), <- abs_IZR by lra.
    assert (1 <= IZR (Z.abs (k - j)))%R by (apply IZR_le; lia). nra. }
  pose proof (Rabs_triang d (- s)). rewrite Rabs_Ropp in H0. unfold Rminus in D. lra.
Qed.

(** * Concrete cases *)
Example minibatch_demo : minibatches 0 2 [2; 0; 4; 1; 3] [[10; 11; 12; 13; 14]; [20; 21; 22; 23; 24]]
  = [[[12; 10]; [22; 20]]; [[14; 11]; [24; 21]]; [[13]; [23]]].
Proof. reflexivity. Qed.

Example angle_demo : normalize_angle (3 * PI / 2) = (- PI / 2)%R.
Proof.
  pose proof PI_RGT_0. symmetry. apply angle_canonical; [lra|]. exists 1%Z. lra.
Qed.

Example window_demo : fold_left (win_update 3) [[1; 2]; [3; 4]]%R (win_init 3 0) = [2; 3; 4]%R.
Proof. reflexivity. Qed.

Print Assumptions running_mean_exact.
Print Assumptions running_variance_exact_partial.
Print Assumptions running_variance_batch_refuted.
Print Assumptions standardization_well_defined.
Print Assumptions exp_average_closed_form.
Print Assumptions exp_average_range.
Print Assumptions window_average.
Print Assumptions minmax_values.
Print Assumptions minmax_preserves_input_partial.
Print Assumptions minmax_mutates_input_refuted.
Print Assumptions minmax_single_bound_refuted.
Print Assumptions minibatches_partition.
Print Assumptions angle_positive_canonical.
Print Assumptions angle_canonical.
Print Assumptions angular_distance_shortest.

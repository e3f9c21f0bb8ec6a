(** Lemmas for temporal-difference learning. *)
From Coq Require Import List Arith Lia Reals Bool Lra Psatz.
From Verif Require Import Common PolicyModel PolicySpec PolicyProofs TdModel TdSpec.
Import ListNotations.

Lemma row_length : forall n k Q s, shaped n k Q -> s < n -> length (row Q s) = k.
Proof. intros n k Q s [A B] H. apply B. apply nth_In. lia. Qed.

Lemma tset_shaped : forall n k Q s a v, shaped n k Q -> shaped n k (tset Q s a v).
Proof.
  intros n k Q s a v [A B]. unfold tset. split; [rewrite Common.setnth_length; auto|].
  destruct (le_lt_dec (length Q) s) as [L|L]; [rewrite setnth_ge; auto|].
  rewrite setnth_split by auto. intros r Hr. apply in_app_or in Hr. destruct Hr as [Hr|[Hr|Hr]].
  - apply B. rewrite <- (firstn_skipn s Q). apply in_or_app. auto.
  - subst r. rewrite Common.setnth_length. apply row_length with (n := n); [split; auto|lia].
  - apply B. rewrite <- (firstn_skipn (S s) Q). apply in_or_app. auto.
Qed.

Lemma tget_tset_eq : forall n k Q s a v, shaped n k Q -> s < n -> a < k -> tget (tset Q s a v) s a = v.
Proof.
  intros n k Q s a v H Hs Ha. pose proof (row_length _ _ _ _ H Hs). destruct H as [A B].
  unfold tget, tset, row. rewrite nth_setnth_eq by lia. apply nth_setnth_eq. unfold row in H0. lia.
Qed.

Lemma tget_tset_neq : forall Q s a v s' a', (s', a') <> (s, a) -> tget (tset Q s a v) s' a' = tget Q s' a'.
Proof.
  intros Q s a v s' a' H. unfold tget, tset, row.
  destruct (Nat.eq_dec s s') as [->|N]; [|rewrite nth_setnth_neq by auto; auto].
  destruct (le_lt_dec (length Q) s') as [L|L]; [rewrite setnth_ge; auto|].
  rewrite nth_setnth_eq by auto. apply nth_setnth_neq. intros ->. apply H; auto.
Qed.

Lemma table_ext : forall n k Q Q', shaped n k Q -> shaped n k Q' ->
  (forall s a, s < n -> a < k -> tget Q s a = tget Q' s a) -> Q = Q'.
Proof.
  intros n k Q Q' H H' E. pose proof H as [A B]. pose proof H' as [A' B'].
  apply nth_ext with (d := []) (d' := []); [lia|]. intros s Hs.
  pose proof (row_length _ _ _ s H ltac:(lia)) as L. pose proof (row_length _ _ _ s H' ltac:(lia)) as L'. unfold row in *.
  apply nth_ext with (d := 0%R) (d' := 0%R); [lia|]. intros a Ha. apply E; lia.
Qed.

(** The common form of the one-step updates. *)
Lemma moved_tset : forall n k gamma al v Q x, shaped n k Q -> sample_ok n k x ->
  moved gamma al v Q (tset Q (x_s x) (x_a x) (tget Q (x_s x) (x_a x) + al * (x_r x + gamma * v - tget Q (x_s x) (x_a x)))%R) x.
Proof.
  intros n k gamma al v Q x H (A & B & C). split.
  - rewrite (tget_tset_eq n k) by auto. ring.
  - intros. apply tget_tset_neq; auto.
Qed.

Lemma moved_within : forall gamma al v Q Q' x B Rmax,
  moved gamma al v Q Q' x -> (0 <= gamma)%R -> (0 <= al <= 1)%R -> (- Rmax <= x_r x <= Rmax)%R ->
  (Rmax + gamma * B <= B)%R -> (- B <= v <= B)%R -> within B Q -> within B Q'.
Proof.
  intros gamma al v Q Q' x B Rm [E N] Hg Ha Hr HB Hv W s a.
  destruct (Nat.eq_dec s (x_s x)) as [->|Hs]; [destruct (Nat.eq_dec a (x_a x)) as [->|Ha']|].
  - rewrite E. specialize (W (x_s x) (x_a x)). set (q := tget Q (x_s x) (x_a x)) in *. clearbody q.
    assert (T : (- B <= x_r x + gamma * v <= B)%R) by nra. set (t := (x_r x + gamma * v)%R) in *. clearbody t. nra.
  - rewrite N by congruence. apply W.
  - rewrite N by congruence. apply W.
Qed.

Lemma within_nonneg : forall B Q, within B Q -> (0 <= B)%R.
Proof. intros B Q W. specialize (W 0 0). lra. Qed.

Lemma within_row : forall B Q s x, within B Q -> In x (row Q s) -> (- B <= x <= B)%R.
Proof. intros B Q s x W H. apply (In_nth _ _ 0%R) in H. destruct H as (a & _ & <-). apply W. Qed.

Lemma qmax_within : forall B Q s, within B Q -> (- B <= qmax (row Q s) <= B)%R.
Proof.
  intros B Q s W. destruct (row Q s) eqn:E; [simpl; pose proof (within_nonneg _ _ W); lra|].
  destruct (qmax_spec (row Q s)) as [I _]; [rewrite E; discriminate|]. rewrite E in I. rewrite <- E in I at 2.
  apply (within_row _ _ _ _ W I).
Qed.

Lemma dot_comm : forall u v, dot u v = dot v u.
Proof. induction u as [|x u IH]; intros [|y v]; simpl; auto. rewrite IH. ring. Qed.

Lemma dot_nth : forall u v, length u = length v -> dot u v = rsum (map (fun i => nth i u 0 * nth i v 0)%R (seq 0 (length u))).
Proof.
  induction u as [|x u IH]; intros [|y v] H; simpl in *; try discriminate; auto.
  rewrite IH by lia. f_equal. rewrite <- seq_shift, map_map. reflexivity.
Qed.

(** A convex combination stays between the bounds. *)
Lemma dot_convex : forall u p B, (forall x, In x u -> - B <= x <= B)%R -> (forall x, In x p -> 0 <= x)%R ->
  length u = length p -> (- B * rsum p <= dot u p <= B * rsum p)%R.
Proof.
  induction u as [|x u IH]; intros [|y p] B H P L; simpl in *; try discriminate; [lra|].
  destruct (IH p B) as [I J]; auto. pose proof (H x (or_introl eq_refl)). pose proof (P y (or_introl eq_refl)). nra.
Qed.

Lemma row_min_length : forall u v, length (row_min u v) = Nat.min (length u) (length v).
Proof. intros. unfold row_min. rewrite map_length, combine_length. reflexivity. Qed.

Lemma row_min_nth : forall u v a, length u = length v -> a < length u ->
  nth a (row_min u v) 0%R = Rmin (nth a u 0%R) (nth a v 0%R).
Proof.
  intros u v a L H. unfold row_min.
  rewrite (nth_indep _ 0%R ((fun p => Rmin (fst p) (snd p)) (0%R, 0%R))) by (rewrite map_length, combine_length; lia).
  rewrite (map_nth (fun p => Rmin (fst p) (snd p))), combine_nth by auto. reflexivity.
Qed.

Lemma ens_min_spec : forall n k Qs s, Qs <> [] -> (forall Q, In Q Qs -> shaped n k Q) -> s < n ->
  length (ens_min Qs s) = k /\
  forall a, a < k -> (exists Q, In Q Qs /\ nth a (ens_min Qs s) 0%R = tget Q s a) /\
                     forall Q, In Q Qs -> (nth a (ens_min Qs s) 0 <= tget Q s a)%R.
Proof.
  intros n k Qs s NE H Hs. destruct Qs as [|Q0 Qs]; [congruence|]. clear NE. unfold ens_min.
  assert (G : forall l r, length r = k -> (forall Q, In Q l -> shaped n k Q) ->
    let m := fold_left (fun r Q' => row_min r (row Q' s)) l r in
    length m = k /\ forall a, a < k -> (nth a m 0%R = nth a r 0%R \/ exists Q, In Q l /\ nth a m 0%R = tget Q s a) /\
      (nth a m 0 <= nth a r 0)%R /\ forall Q, In Q l -> (nth a m 0 <= tget Q s a)%R).
  { induction l as [|Q l IH]; intros r Lr Hl; simpl.
    - split; auto. intros a Ha. split; auto. split; [lra|]. intros ? [].
    - pose proof (row_length _ _ _ s (Hl Q (or_introl eq_refl)) Hs) as LQ.
      destruct (IH (row_min r (row Q s))) as [A B].
      { rewrite row_min_length. lia. } { intros; apply Hl; simpl; auto. }
      split; auto. intros a Ha. destruct (B a Ha) as (B1 & B2 & B3). rewrite row_min_nth in B1, B2 by lia.
      fold (tget Q s a) in *. split; [|split].
      + destruct B1 as [E|(Q' & I & E)]; [|right; exists Q'; auto].
        rewrite E. unfold Rmin. destruct (Rle_dec _ _); auto. right. exists Q. split; auto.
      + eapply Rle_trans; [apply B2|apply Rmin_l].
      + intros Q' [<-|I]; [eapply Rle_trans; [apply B2|apply Rmin_r]|apply B3; auto]. }
  destruct (G Qs (row Q0 s)) as [A B].
  { apply row_length with (n := n); auto. apply H. simpl; auto. } { intros; apply H; simpl; auto. }
  split; auto. intros a Ha. destruct (B a Ha) as (B1 & B2 & B3). split.
  - destruct B1 as [E|(Q & I & E)]; [exists Q0|exists Q]; simpl; auto.
  - intros Q [<-|I]; [exact B2|apply B3; auto].
Qed.

(** Element-wise operations on tables. *)
Lemma tadd_scaled_spec : forall n k Q c e, shaped n k Q -> shaped n k e ->
  shaped n k (tadd_scaled Q c e) /\
  forall s a, s < n -> a < k -> tget (tadd_scaled Q c e) s a = (tget Q s a + c * tget e s a)%R.
Proof.
  intros n k Q c e HQ He. pose proof HQ as [A B]. pose proof He as [A' B']. unfold tadd_scaled. split.
  - split; [rewrite map_length, combine_length; lia|]. intros r Hr. apply in_map_iff in Hr.
    destruct Hr as ((u & v) & <- & I). simpl. rewrite map_length, combine_length.
    pose proof (B u (in_combine_l _ _ _ _ I)). pose proof (B' v (in_combine_r _ _ _ _ I)). lia.
  - intros s a Hs Ha. unfold tget, row.
    set (f := fun p : list R * list R => map (fun q : R * R => (fst q + c * snd q)%R) (combine (fst p) (snd p))).
    rewrite (nth_indep _ [] (f ([], []))) by (rewrite map_length, combine_length; lia).
    rewrite (map_nth f), combine_nth by lia. unfold f. simpl.
    pose proof (row_length _ _ _ s HQ Hs) as L. pose proof (row_length _ _ _ s He Hs) as L'. unfold row in *.
    rewrite (nth_indep _ 0%R ((fun q : R * R => (fst q + c * snd q)%R) (0%R, 0%R))) by (rewrite map_length, combine_length; lia).
    rewrite (map_nth (fun q : R * R => (fst q + c * snd q)%R)), combine_nth by lia. reflexivity.
Qed.

Lemma tscale_spec : forall n k e c, shaped n k e ->
  shaped n k (tscale e c) /\ forall s a, tget (tscale e c) s a = (tget e s a * c)%R.
Proof.
  intros n k e c [A B]. unfold tscale. split.
  - split; [rewrite map_length; auto|]. intros r Hr. apply in_map_iff in Hr. destruct Hr as (u & <- & I).
    rewrite map_length. auto.
  - intros s a. unfold tget, row. change (@nil R) with (map (fun v => (v * c)%R) []) at 1.
    rewrite (map_nth (map (fun v => (v * c)%R))). replace 0%R with (0 * c)%R at 1 by ring.
    rewrite (map_nth (fun v => (v * c)%R)). reflexivity.
Qed.

Lemma trace_reset_spec : forall n k e, shaped n k e ->
  shaped n k (trace_reset e) /\ forall s a, tget (trace_reset e) s a = 0%R.
Proof.
  intros n k e [A B]. unfold trace_reset. split.
  - split; [rewrite map_length; auto|]. intros r Hr. apply in_map_iff in Hr. destruct Hr as (u & <- & I).
    rewrite map_length. auto.
  - intros s a. unfold tget, row. change (@nil R) with (map (fun _ : R => 0%R) []) at 1.
    rewrite (map_nth (map (fun _ => 0%R))).
    apply (map_nth (fun _ : R => 0%R) _ 0%R a).
Qed.

Lemma tconst_shaped : forall n k v, shaped n k (tconst n k v).
Proof. intros. split; [apply repeat_length|]. intros r Hr. apply repeat_spec in Hr. subst. apply repeat_length. Qed.

Lemma tconst_get : forall n k v s a, s < n -> a < k -> tget (tconst n k v) s a = v.
Proof.
  intros. unfold tget, row, tconst. rewrite (nth_indep _ [] (repeat v k)) by (rewrite repeat_length; auto).
  rewrite nth_repeat. rewrite (nth_indep _ 0%R v) by (rewrite repeat_length; auto). apply nth_repeat.
Qed.

Lemma trace_update_shaped : forall n k kd e s a, shaped n k e -> shaped n k (trace_update kd e s a).
Proof. intros. destruct kd; simpl; apply tset_shaped; auto. Qed.

Lemma pair_eqb_spec : forall p q, pair_eqb p q = true <-> p = q.
Proof.
  intros [a b] [c d]. unfold pair_eqb. simpl. rewrite andb_true_iff, !Nat.eqb_eq. split; [intros [-> ->]; auto|intros [= -> ->]; auto].
Qed.

(** ages: shifting all ages by one multiplies the trace by c *)
Lemma trace_spec_scale : forall kd c h j p, (trace_spec kd c j h p * c = trace_spec kd c (S j) h p)%R.
Proof.
  intros kd c. destruct kd; simpl; induction h as [|y h IH]; intros j p; simpl; try ring;
    destruct (pair_eqb y p); rewrite ?Rmult_plus_distr_r, ?IH; simpl; ring.
Qed.

Lemma lambda_run_inv : forall n k kd gamma al lam q_next Q e x h,
  shaped n k Q -> shaped n k e -> sample_ok n k x ->
  (forall s a, s < n -> a < k -> tget e s a = trace_spec kd (gamma * lam) 1 h (s, a)) ->
  let st := lambda_update kd gamma al lam q_next (Q, e) x in
  let h' := (x_s x, x_a x) :: h in
  shaped n k (fst st) /\ shaped n k (snd st) /\
  (forall s a, s < n -> a < k -> tget (snd st) s a = trace_spec kd (gamma * lam) 1 h' (s, a)) /\
  (forall s a, s < n -> a < k -> tget (fst st) s a =
     (tget Q s a + al * (x_r x + gamma * q_next - tget Q (x_s x) (x_a x)) * trace_spec kd (gamma * lam) 0 h' (s, a))%R).
Proof.
  intros n k kd gamma al lam qn Q e x h HQ He (Hs & Ha & _) E st h'. unfold st, lambda_update. cbn [fst snd].
  pose proof (trace_update_shaped n k kd e (x_s x) (x_a x) He) as H1.
  destruct (tadd_scaled_spec n k Q (al * (x_r x + gamma * qn - tget Q (x_s x) (x_a x))) _ HQ H1) as [SA GA].
  destruct (tscale_spec n k _ (gamma * lam) H1) as [SS GS].
  assert (T : forall s a, s < n -> a < k -> tget (trace_update kd e (x_s x) (x_a x)) s a = trace_spec kd (gamma * lam) 0 h' (s, a)).
  { intros s a Is Ia. unfold h'. destruct kd; cbn [trace_update trace_spec rep_trace acc_trace].
    - destruct (pair_eqb (x_s x, x_a x) (s, a)) eqn:P.
      + apply pair_eqb_spec in P. injection P as -> ->. rewrite (tget_tset_eq n k) by auto. reflexivity.
      + rewrite tget_tset_neq; [apply E; auto|]. intros X. rewrite <- X in P.
        rewrite (proj2 (pair_eqb_spec _ _) eq_refl) in P. discriminate.
    - destruct (pair_eqb (x_s x, x_a x) (s, a)) eqn:P.
      + apply pair_eqb_spec in P. injection P as -> ->. rewrite (tget_tset_eq n k), E by auto. simpl. ring.
      + rewrite tget_tset_neq; [rewrite E by auto; simpl; ring|]. intros X. rewrite <- X in P.
        rewrite (proj2 (pair_eqb_spec _ _) eq_refl) in P. discriminate. }
  split; auto. split; auto. split.
  - intros s a Is Ia. rewrite GS, T by auto. apply trace_spec_scale.
  - intros s a Is Ia. rewrite GA, T by auto. reflexivity.
Qed.

Lemma rep_trace_bound : forall c h j p, (0 <= c <= 1)%R -> (0 <= rep_trace c j h p <= 1)%R.
Proof.
  intros c h. induction h as [|y h IH]; intros j p H; simpl; [lra|]. destruct (pair_eqb y p); auto. split.
  - apply pow_le; lra.
  - rewrite <- (pow1 j). apply pow_incr; lra.
Qed.

Lemma acc_trace_bound : forall c h j p, (0 <= c < 1)%R -> (0 <= acc_trace c j h p <= c ^ j / (1 - c))%R.
Proof.
  intros c h. induction h as [|y h IH]; intros j p H; simpl.
  - split; [lra|]. apply Rmult_le_pos; [apply pow_le; lra|]. left; apply Rinv_0_lt_compat; lra.
  - destruct (IH (S j) p H) as [A B]. assert (P : (0 <= c ^ j)%R) by (apply pow_le; lra). simpl in B.
    replace (c ^ j / (1 - c))%R with (c ^ j + c * c ^ j / (1 - c))%R by (field; lra).
    destruct (pair_eqb y p); lra.
Qed.

(** Vectors. *)
Lemma vadd_length : forall u v, length u = length v -> length (vadd u v) = length u.
Proof. intros. unfold vadd. rewrite map_length, combine_length. lia. Qed.

Lemma vscale_length : forall c u, length (vscale c u) = length u.
Proof. intros. apply map_length. Qed.

Lemma vadd_nth : forall u v i, length u = length v -> nth i (vadd u v) 0%R = (nth i u 0 + nth i v 0)%R.
Proof.
  induction u as [|x u IH]; intros [|y v] i H; simpl in *; try discriminate.
  - destruct i; ring.
  - destruct i; simpl; auto. apply IH. lia.
Qed.

Lemma vscale_nth : forall c u i, nth i (vscale c u) 0%R = (c * nth i u 0)%R.
Proof. intros. unfold vscale. replace 0%R with (c * 0)%R at 1 by ring. apply (map_nth (fun x => c * x)%R). Qed.

Lemma dot_vadd_l : forall u v w, length u = length v -> dot (vadd u v) w = (dot u w + dot v w)%R.
Proof.
  induction u as [|x u IH]; intros [|y v] w H; simpl in *; try discriminate; [ring|].
  destruct w as [|z w]; simpl; [ring|]. fold (vadd u v). rewrite IH by lia. ring.
Qed.

Lemma dot_vscale_l : forall c u w, dot (vscale c u) w = (c * dot u w)%R.
Proof.
  induction u as [|x u IH]; intros w; simpl; [ring|]. destruct w as [|z w]; simpl; [ring|].
  fold (vscale c u). rewrite IH. ring.
Qed.

Lemma vec_ext : forall u v, length u = length v -> (forall i, i < length u -> nth i u 0%R = nth i v 0%R) -> u = v.
Proof. intros. apply nth_ext with (d := 0%R) (d' := 0%R); auto. Qed.

(** Difference of lambda-returns when the horizon grows by one. *)
Lemma nstep_succ : forall gamma r b n k, 1 <= n ->
  nstep gamma r b (S n) k = (nstep gamma r b n k + gamma ^ n * (r (k + n)%nat + gamma * b (k + n)%nat - b (k + n - 1)%nat))%R.
Proof.
  intros. unfold nstep. rewrite seq_S, map_app, rsum_app. replace (k + S n - 1)%nat with (k + n)%nat by lia. simpl. ring.
Qed.

Lemma lreturn_succ : forall gamma lam r b t k, k < t ->
  lreturn gamma lam r b (S t) k = (lreturn gamma lam r b t k +
    (gamma * lam) ^ (t - k) * (r t + gamma * b t - b (t - 1)%nat))%R.
Proof.
  intros gamma lam r b t k H. unfold lreturn. replace (S t - k - 1)%nat with (t - k)%nat by lia.
  replace (S t - k)%nat with (S (t - k)) by lia. remember (t - k)%nat as m. destruct m as [|m]; [lia|].
  replace (S m - 1)%nat with m by lia. rewrite (seq_S m), map_app, rsum_app.
  rewrite (nstep_succ _ _ _ (S m)) by lia. replace (k + S m)%nat with t by lia.
  replace (k + S m - 1)%nat with (t - 1)%nat by lia. simpl (1 + m)%nat. simpl map. simpl rsum.
  rewrite Nat.sub_0_r, Rpow_mult_distr. cbn [pow]. ring.
Qed.

Lemma lreturn_one : forall gamma lam r b t, lreturn gamma lam r b (S t) t = (r t + gamma * b t)%R.
Proof.
  intros. unfold lreturn. replace (S t - t - 1)%nat with 0 by lia. replace (S t - t)%nat with 1 by lia.
  unfold nstep. simpl. replace (t + 1 - 1)%nat with t by lia. replace (t + 0)%nat with t by lia. ring.
Qed.

Lemma rsum_single : forall N i (f : nat -> R), i < N -> (forall j, j < N -> j <> i -> f j = 0%R) ->
  rsum (map f (seq 0 N)) = f i.
Proof.
  intros N i f Hi Z. replace N with (i + (1 + (N - i - 1))) by lia. rewrite seq_app, map_app, rsum_app. simpl.
  rewrite (rsum_map_ext _ f (fun _ => 0%R) (seq 0 i)) by (intros j Hj; apply in_seq in Hj; apply Z; lia).
  rewrite (rsum_map_ext _ f (fun _ => 0%R) (seq (S i) _)) by (intros j Hj; apply in_seq in Hj; apply Z; lia).
  rewrite !rsum_map_const. ring.
Qed.

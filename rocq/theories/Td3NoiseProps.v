(** Theorems C135: the noise of TD3's target smoothing under scheduled parameters. *)
From Coq Require Import List Arith Lia Reals Bool Lra.
From Verif Require Import Common ParamModel ParamSpec ParamProofs DqnModel DqnSpec DqnProofs Td3NoiseModel.
Import ListNotations.

(** The value a schedule has at its [k]-th step, 1 <= k. *)
Definition at_step (s : sched) (k : nat) : R :=
  match s with
  | Const v => v
  | Lin v th n => line v th n k
  | Dec v e mn mx => np_clip mn mx (v / Rpower (INR k) e)
  end.
(** The draws of the fits that learn. *)
Fixpoint drawn (fits : list (bool * list R)) : list (list R) :=
  match fits with [] => [] | (ready, z) :: t => if ready then z :: drawn t else drawn t end.

Definition at_count (p : param) (k : nat) : param := mkP (p_v0 p) (p_min p) (p_max p) [k] (p_kind p).

Lemma sched_call : forall s p, build s = Some p -> p = at_count p 0 /\
  forall k, p_call (at_count p k) 0 = Some (at_step s (S k), at_count p (S k)) /\ p_get (at_count p (S k)) 0 = Some (at_step s (S k)).
Proof.
  intros s p B.
  assert (V : forall k, np_clip (p_min p) (p_max p) (raw p (S k)) = at_step s (S k)).
  { intros k. destruct s as [v|v th n|v e mn mx]; simpl in B.
    - inversion B. reflexivity.
    - simpl. apply clip_line; auto. unfold linear_init in B. destruct (n =? 0) eqn:E; [discriminate|]. apply Nat.eqb_neq in E. lia.
    - inversion B. unfold raw. cbn [p_kind decay_init p_v0 p_min p_max at_step]. rewrite Nat.max_l by lia. reflexivity. }
  split.
  - destruct s as [v|v th n|v e mn mx]; simpl in B; [inversion B; reflexivity| |inversion B; reflexivity].
    unfold linear_init in B. destruct (n =? 0); [discriminate|]. destruct (Rle_dec _ _); inversion B; reflexivity.
  - intros k.
    assert (G : p_get (at_count p (S k)) 0 = Some (at_step s (S k))).
    { rewrite <- V. unfold p_get, p_compute, raw, at_count. cbn [p_kind p_n p_min p_max p_v0]. destruct (p_kind p); reflexivity. }
    split; auto. unfold p_call.
    assert (U : p_update (at_count p k) 0 = Some (at_count p (S k))).
    { unfold p_update, at_count. cbn. rewrite Nat.add_1_r. reflexivity. }
    rewrite U. cbn [obind]. rewrite G. reflexivity.
Qed.

Lemma clip_noise : forall s c z, (0 <= c)%R -> map (fun x => clip (s * x) (- c) c) z = map (fun x => clamp (- c) c (s * x)) z.
Proof. intros. apply map_ext. intros x. apply clip_clamp. lra. Qed.

(** With a parameter of its own for the deviation and for the clip, no fit fails.  The noise of
    the [k]-th fit that learns is the scaled draw, cut at plus and minus the same bound, with both
    schedules at their step [k]; fits before the memory is initialized advance neither. *)
Theorem td3_noise_schedule : forall ss sc std clp fits, build ss = Some std -> build sc = Some clp ->
  (forall k, 1 <= k -> (0 <= at_step sc k)%R) ->
  exists outs h, noise_run 0 1 [std; clp] fits = Some (outs, h) /\ length outs = length (drawn fits) /\
    forall k z, nth_error (drawn fits) k = Some z ->
      nth_error outs k = Some (map (fun x => clamp (- at_step sc (S k)) (at_step sc (S k)) (at_step ss (S k) * x)) z).
Proof.
  intros ss sc std clp fits Bs Bc Pos. destruct (sched_call _ _ Bs) as [Es Cs]. destruct (sched_call _ _ Bc) as [Ec Cc].
  assert (R : forall m, exists outs h, noise_run 0 1 [at_count std m; at_count clp m] fits = Some (outs, h) /\ length outs = length (drawn fits) /\
    forall k z, nth_error (drawn fits) k = Some z ->
      nth_error outs k = Some (map (fun x => clamp (- at_step sc (S (m + k))) (at_step sc (S (m + k))) (at_step ss (S (m + k)) * x)) z)).
  { induction fits as [|[r z] t IH]; intros m.
    - exists [], [at_count std m; at_count clp m]. repeat split. intros [|k] z H; discriminate.
    - destruct r; cbn [noise_run drawn]; [|apply IH].
      destruct (IH (S m)) as (outs & h & N1 & N2 & N3). destruct (Cs m) as [C1 _]. destruct (Cc m) as [C2 C3].
      unfold smooth, call_ref, get_ref. cbn [nth_error obind]. rewrite C1. cbn [obind fst snd upd nth_error]. rewrite C2. cbn [obind fst snd upd nth_error].
      rewrite C3. cbn [obind fst snd]. rewrite N1. cbn [obind fst snd]. eexists _, _. split; [reflexivity|]. split; [simpl; lia|].
      intros [|k] y H; simpl in H |- *.
      + inversion H; subst. rewrite Nat.add_0_r. f_equal. apply clip_noise. apply Pos. lia.
      + rewrite (N3 k y H). replace (S m + k) with (m + S k) by lia. reflexivity. }
  destruct (R 0) as (outs & h & H). rewrite <- Es, <- Ec in H. exists outs, h. exact H.
Qed.

(** The noise is odd in the draws: the smoothing does not push the action either way. *)
Theorem td3_noise_odd : forall ss sc std clp fits, build ss = Some std -> build sc = Some clp ->
  (forall k, 1 <= k -> (0 <= at_step sc k)%R) ->
  exists outs h outs' h', noise_run 0 1 [std; clp] fits = Some (outs, h) /\
    noise_run 0 1 [std; clp] (map (fun f => (fst f, map Ropp (snd f))) fits) = Some (outs', h') /\
    outs' = map (map Ropp) outs.
Proof.
  intros ss sc std clp fits Bs Bc Pos.
  assert (D : drawn (map (fun f => (fst f, map Ropp (snd f))) fits) = map (map Ropp) (drawn fits)).
  { clear. induction fits as [|[[|] z] t IH]; simpl; auto. f_equal. exact IH. }
  destruct (td3_noise_schedule _ _ _ _ fits Bs Bc Pos) as (outs & h & A1 & A2 & A3).
  destruct (td3_noise_schedule _ _ _ _ (map (fun f => (fst f, map Ropp (snd f))) fits) Bs Bc Pos) as (outs' & h' & B1 & B2 & B3).
  exists outs, h, outs', h'. split; [exact A1|]. split; [exact B1|].
  rewrite D, map_length in B2. apply nth_ext with (d := []) (d' := []); [rewrite map_length; lia|].
  intros k Hk. destruct (nth_error (drawn fits) k) as [z|] eqn:N; [|apply nth_error_None in N; lia].
  pose proof (A3 k z N) as A. pose proof (B3 k (map Ropp z)) as B. rewrite D in B. specialize (B (map_nth_error _ _ _ N)).
  apply (map_nth_error (map Ropp)) in A. rewrite (nth_error_nth _ _ _ A), (nth_error_nth _ _ _ B).
  rewrite !map_map. apply map_ext. intros x. specialize (Pos (S k) ltac:(lia)). unfold clamp.
  repeat destruct (Rlt_dec _ _); lra.
Qed.

(** One Parameter object passed for both: the two readings of a fit take two steps of it, so the
    [k]-th fit that learns has the deviation of step [2k-1] and the bound of step [2k]. *)
Theorem td3_shared_parameter : forall s p fits, build s = Some p -> (forall k, 1 <= k -> (0 <= at_step s k)%R) ->
  exists outs h, noise_run 0 0 [p] fits = Some (outs, h) /\ length outs = length (drawn fits) /\
    forall k z, nth_error (drawn fits) k = Some z ->
      nth_error outs k = Some (map (fun x => clamp (- at_step s (2 * k + 2)) (at_step s (2 * k + 2)) (at_step s (2 * k + 1) * x)) z).
Proof.
  intros s p fits B Pos. destruct (sched_call _ _ B) as [E C].
  assert (R : forall m, exists outs h, noise_run 0 0 [at_count p m] fits = Some (outs, h) /\ length outs = length (drawn fits) /\
    forall k z, nth_error (drawn fits) k = Some z ->
      nth_error outs k = Some (map (fun x => clamp (- at_step s (m + (2 * k + 2))) (at_step s (m + (2 * k + 2))) (at_step s (m + (2 * k + 1)) * x)) z)).
  { induction fits as [|[r z] t IH]; intros m.
    - exists [], [at_count p m]. repeat split. intros [|k] z H; discriminate.
    - destruct r; cbn [noise_run drawn]; [|apply IH].
      destruct (IH (S (S m))) as (outs & h & N1 & N2 & N3). destruct (C m) as [C1 _]. destruct (C (S m)) as [C2 C3].
      unfold smooth, call_ref, get_ref. cbn [nth_error obind]. rewrite C1. cbn [obind fst snd upd nth_error]. rewrite C2. cbn [obind fst snd upd nth_error].
      rewrite C3. cbn [obind fst snd]. rewrite N1. cbn [obind fst snd]. eexists _, _. split; [reflexivity|]. split; [simpl; lia|].
      intros [|k] y H; cbn [nth_error] in H |- *.
      + inversion H; subst. replace (m + (2 * 0 + 2)) with (S (S m)) by lia. replace (m + (2 * 0 + 1)) with (S m) by lia. f_equal.
        apply clip_noise. apply Pos. lia.
      + rewrite (N3 k y H). replace (S (S m) + (2 * k + 2)) with (m + (2 * S k + 2)) by lia. replace (S (S m) + (2 * k + 1)) with (m + (2 * S k + 1)) by lia. reflexivity. }
  destruct (R 0) as (outs & h & H). rewrite <- E in H. exists outs, h. exact H.
Qed.

(** So the schedules are not the ones asked for: a parameter that falls linearly from 1 to 0 over
    [n] steps, used for both, stops the smoothing after half the fits: from fit [k] on, 2k >= n,
    the noise is zero, where two equal parameters give noise bounded by 1 - k/n > 0. *)
Theorem td3_shared_parameter_refuted : forall n, 2 <= n ->
  exists p, build (Lin 1 0 n) = Some p /\
    forall fits k z, nth_error (drawn fits) k = Some z -> n <= 2 * (k + 1) -> k + 1 < n -> Exists (fun x => x <> 0%R) z ->
    exists shared h own h' a b, noise_run 0 0 [p] fits = Some (shared, h) /\ noise_run 0 1 [p; p] fits = Some (own, h') /\
      nth_error shared k = Some a /\ Forall (fun x => x = 0%R) a /\
      nth_error own k = Some b /\ Exists (fun x => x <> 0%R) b.
Proof.
  intros n Hn. destruct (linear_init_size 1 0 n 1 ltac:(lia)) as (p & B & _). exists p. split; [exact B|].
  assert (N0 : (0 < INR n)%R) by (apply lt_0_INR; lia).
  assert (LV : forall k, k < n -> (0 < line 1 0 n k)%R).
  { intros k H. unfold line. rewrite (proj2 (Nat.leb_gt _ _)) by auto. apply lt_INR in H.
    replace (1 + (0 - 1) * (INR k / INR n))%R with ((INR n - INR k) / INR n)%R by (field; lra).
    apply Rmult_lt_0_compat; [lra|]. apply Rinv_0_lt_compat; auto. }
  assert (L0 : forall k, n <= k -> line 1 0 n k = 0%R) by (intros k H; unfold line; rewrite (proj2 (Nat.leb_le _ _)); auto).
  assert (Pos : forall k, 1 <= k -> (0 <= at_step (Lin 1 0 n) k)%R).
  { intros k _. simpl. destruct (le_lt_dec n k); [rewrite L0 by auto; lra|]. left. auto. }
  intros fits k z Z H1 H2 NZ. assert (B' : build (Lin 1 0 n) = Some p) by exact B.
  destruct (td3_shared_parameter _ _ fits B' Pos) as (sh & h & S1 & S2 & S3).
  destruct (td3_noise_schedule _ _ _ _ fits B' B' Pos) as (ow & h' & O1 & O2 & O3).
  eexists sh, h, ow, h', _, _. split; [exact S1|]. split; [exact O1|]. split; [exact (S3 k z Z)|]. split.
  - apply Forall_map. apply Forall_forall. intros x _. cbn [at_step]. rewrite L0 by lia. unfold clamp. repeat destruct (Rlt_dec _ _); lra.
  - split; [exact (O3 k z Z)|]. apply Exists_exists in NZ. destruct NZ as (x & I & X). apply Exists_exists.
    eexists. split; [apply in_map; exact I|]. cbn [at_step]. pose proof (LV (S k) ltac:(lia)) as P. set (c := line 1 0 n (S k)) in *.
    unfold clamp. destruct (Rlt_dec _ _); [lra|]. destruct (Rlt_dec _ _); [lra|]. intros Q. apply Rmult_integral in Q. lra.
Qed.

(** A bound that falls from 1 to 1/2 and a constant deviation of 2: the first fit fills the memory,
    the two others learn. *)
Example noise_ex : exists std clp h, build (Const 2) = Some std /\ build (Lin 1 (1/2) 2) = Some clp /\
  noise_run 0 1 [std; clp] [(false, [5]); (true, [1; -1; 1/4]); (true, [1; -1; 1/8])]%R = Some ([[3/4; -(3/4); 1/2]; [1/2; -(1/2); 1/4]], h)%R.
Proof.
  destruct (linear_init_size 1 (1/2) 2 1 ltac:(lia)) as (p & B & _).
  assert (Pos : forall k, 1 <= k -> (0 <= at_step (Lin 1 (1/2) 2) k)%R).
  { intros [|[|k]] H; [lia| |]; unfold at_step, line; simpl; lra. }
  destruct (td3_noise_schedule (Const 2) _ _ _ [(false, [5]); (true, [1; -1; 1/4]); (true, [1; -1; 1/8])]%R eq_refl (B : build (Lin 1 (1/2) 2) = Some p) Pos) as (o & h & A1 & A2 & A3).
  exists (param_init 2 None None 1), p, h. split; [reflexivity|]. split; [exact B|]. rewrite A1. repeat f_equal.
  pose proof (A3 0 _ eq_refl) as X. pose proof (A3 1 _ eq_refl) as Y. destruct o as [|a [|b [|]]]; try discriminate A2.
  simpl in X, Y. inversion X. inversion Y. unfold line, clamp. simpl.
  repeat f_equal; repeat destruct (Rlt_dec _ _); lra.
Qed.

Print Assumptions td3_noise_schedule.
Print Assumptions td3_noise_odd.
Print Assumptions td3_shared_parameter.
Print Assumptions td3_shared_parameter_refuted.

(** C13, C14, C15: the replay memory. *)
From Coq Require Import List Arith Lia Reals Lra Bool.
From Verif Require Import Common ReplayModel ReplaySpec ReplayProofs.
Import ListNotations.

Definition op_ok {St Ac Ps} (o : op St Ac Ps) : Prop :=
  match o with OpAdd _ _ _ _ n _ => 1 <= n | OpReset _ _ _ => True end.

(** C13.  After any history of add (with any n-step setting) and reset calls on a
    fresh memory, no call failed, and the memory holds exactly the most recent
    [max_size] transitions offered since the last reset, oldest first; [size] is
    their number and [initialized] compares it with the initial size. *)
Theorem replay_is_bounded_fifo : forall (St Ac Ps : Type) initial_size max_size (ops : list (op St Ac Ps)),
  1 <= max_size -> Forall op_ok ops ->
  exists m, run_ops (mem_init initial_size max_size) ops = Some m /\
    chronological m = lastn max_size (spec_ops [] ops) /\
    size m = Nat.min max_size (length (spec_ops [] ops)) /\
    length (m_data m) = size m /\
    (initialized m = true <-> initial_size < Nat.min max_size (length (spec_ops [] ops))).
Proof.
  intros St Ac Ps ini mx ops Hm HF.
  destruct (run_ops_spec St Ac Ps ops (mem_init ini mx) [] (wf_init _ _ _ ini mx Hm)) as (m & A & W & M & I & C).
  - exact HF.
  - reflexivity.
  - simpl in *. exists m.
    assert (S : size m = Nat.min mx (length (spec_ops [] ops))).
    { rewrite <- chron_length by auto. rewrite C. apply lastn_length. }
    assert (D : length (m_data m) = size m).
    { destruct W as (W1 & W2 & W3). unfold size. destruct (m_full m); lia. }
    repeat split; auto.
    + unfold initialized. rewrite S, I. intros H. apply Nat.ltb_lt in H. exact H.
    + unfold initialized. rewrite S, I. intros H. apply Nat.ltb_lt. exact H.
Qed.

(** C13.  [get] with drawn indices below the number of stored rows succeeds,
    returns as many rows as indices, each of them currently held; and every held
    transition is returned for some index. *)
Theorem replay_get_returns_held : forall (St Ac Ps : Type) initial_size max_size (ops : list (op St Ac Ps)) m,
  1 <= max_size -> Forall op_ok ops ->
  run_ops (mem_init initial_size max_size) ops = Some m ->
  (forall idxs, Forall (fun i => i < length (m_data m)) idxs ->
     exists out, get m idxs = Some out /\ length out = length idxs /\
       Forall (fun x => In x (lastn max_size (spec_ops [] ops))) out) /\
  (forall x, In x (lastn max_size (spec_ops [] ops)) ->
     exists i, i < length (m_data m) /\ get m [i] = Some [x]).
Proof.
  intros St Ac Ps ini mx ops m Hm HF HR.
  destruct (run_ops_spec St Ac Ps ops (mem_init ini mx) [] (wf_init _ _ _ ini mx Hm)) as (m' & A & W & M & I & C); auto.
  rewrite HR in A. inversion A; subst m'. simpl in *. rewrite <- C. split.
  - intros idxs Hi. apply get_spec; auto.
  - intros x Hx.
    assert (Hd : In x (m_data m)).
    { unfold chronological in Hx. destruct (m_full m); auto.
      rewrite <- (firstn_skipn (m_idx m)). apply in_app_iff in Hx. apply in_app_iff. tauto. }
    apply In_nth_error in Hd. destruct Hd as [i Hi]. exists i. split.
    + apply nth_error_Some. rewrite Hi. discriminate.
    + unfold get. simpl. rewrite Hi. reflexivity.
Qed.

(** C14.  One add call with an n-step setting appends (in the FIFO sense) exactly
    the n-step transitions of the dataset, in time order. *)
Theorem replay_add_nstep : forall (St Ac Ps : Type) initial_size max_size (ops : list (op St Ac Ps)) m ds n g,
  1 <= max_size -> Forall op_ok ops -> 1 <= n ->
  run_ops (mem_init initial_size max_size) ops = Some m ->
  exists m' rew', add m ds n g = Some (m', rew') /\
    chronological m' = lastn max_size (chronological m ++ nstep_samples ds n g).
Proof.
  intros St Ac Ps ini mx ops m ds n g Hm HF Hn HR.
  destruct (run_ops_spec St Ac Ps ops (mem_init ini mx) [] (wf_init _ _ _ ini mx Hm)) as (m' & A & W & M & I & C); auto.
  rewrite HR in A. inversion A; subst m'. simpl in *.
  destruct (add_spec St Ac Ps m ds n g W Hn) as (m2 & r2 & A2 & W2 & M2 & I2 & C2).
  exists m2, r2. split; auto. rewrite C2, M. reflexivity.
Qed.

(** C14.  What an n-step transition is: the i-th one-step sample contributes its
    state and action, the window's final sample contributes next state and flags,
    and the reward is the discounted sum of the window's original rewards; it
    exists iff the window fits and has no episode end strictly inside. *)
Theorem replay_nstep_meaning : forall (St Ac Ps : Type) (ds : list (sample St Ac Ps)) n g x, 1 <= n ->
  In x (nstep_samples ds n g) <->
  exists i w, i + n <= length ds /\ w = firstn n (skipn i ds) /\
    Forall (fun y => s_last y = false) (firstn (n - 1) w) /\
    exists a b, hd_error w = Some a /\ nth_error w (n - 1) = Some b /\
      s_state x = s_state a /\ s_action x = s_action a /\ s_ps x = s_ps a /\
      s_next x = s_next b /\ s_absorbing x = s_absorbing b /\ s_last x = s_last b /\ s_pns x = s_pns b /\
      s_reward x = rsum (map (fun jr => g ^ fst jr * snd jr)%R (combine (seq 0 n) (map s_reward w))).
Proof.
  intros St Ac Ps ds n g x Hn. destruct ds as [|d ds'].
  { simpl. split; [tauto|]. intros (i & w & H & _). simpl in H. lia. }
  change (nstep_samples (d :: ds') n g) with
    (map (nstep_sample (d :: ds') n g d)
       (filter (window_ok (d :: ds') n) (seq 0 (length (d :: ds') + 1 - n)))).
  set (ds := d :: ds'). clearbody ds.
  assert (FW : forall i, i + n <= length ds ->
     firstn (n - 1) (firstn n (skipn i ds)) = slice i (i + (n - 1)) ds).
  { intros i Hi. unfold slice. rewrite firstn_firstn. f_equal. lia. }
  assert (NTH : forall i t, t < n -> nth t (firstn n (skipn i ds)) d = nth (i + t) ds d).
  { intros i t Ht. replace (firstn n (skipn i ds)) with (slice i (i + n) ds)
      by (unfold slice; f_equal; lia). apply nth_slice. lia. }
  assert (SUM : forall i, i + n <= length ds ->
     rsum (map (fun jr => g ^ fst jr * snd jr)%R (combine (seq 0 n) (map s_reward (firstn n (skipn i ds)))))
     = nstep_return ds n g i d).
  { intros i Hi. unfold nstep_return.
    assert (LW : length (firstn n (skipn i ds)) = n) by (rewrite firstn_length, skipn_length; lia).
    f_equal. apply (nth_ext _ _ (g ^ 0 * 0)%R (g ^ 0 * 0)%R).
    - rewrite !map_length, combine_length, seq_length, map_length, LW. lia.
    - intros t Ht. rewrite map_length, combine_length, seq_length, map_length, LW in Ht.
      change (g ^ 0 * 0)%R with ((fun jr : nat * R => g ^ fst jr * snd jr)%R (0, 0%R)) at 1.
      rewrite map_nth. rewrite combine_nth by (rewrite seq_length, map_length; lia).
      rewrite seq_nth by lia. simpl fst. simpl snd.
      rewrite (nth_indep _ 0%R (s_reward d)) by (rewrite map_length; lia).
      rewrite map_nth, NTH by lia.
      rewrite (nth_indep _ (g ^ 0 * 0)%R ((fun j => g ^ j * s_reward (nth (i + j) ds d))%R 0)) by (rewrite map_length, seq_length; lia).
      rewrite (map_nth (fun j => g ^ j * s_reward (nth (i + j) ds d))%R), seq_nth by lia. reflexivity. }
  split.
  - intros H. apply in_map_iff in H. destruct H as (i & E & Hi). apply filter_In in Hi. destruct Hi as (Hs & Hw).
    apply in_seq in Hs. exists i, (firstn n (skipn i ds)). split; [lia|]. split; [reflexivity|]. split.
    + rewrite FW by lia. unfold window_ok in Hw. rewrite forallb_forall in Hw. apply Forall_forall.
      intros y Hy. apply Hw in Hy. destruct (s_last y); auto; discriminate.
    + exists (nth i ds d), (nth (i + (n - 1)) ds d). subst x. simpl. split.
      * assert (0 < length (firstn n (skipn i ds))) by (rewrite firstn_length, skipn_length; lia).
        pose proof (NTH i 0 ltac:(lia)) as N0. rewrite Nat.add_0_r in N0.
        destruct (firstn n (skipn i ds)); simpl in *; [lia|congruence].
      * split; [rewrite <- NTH by lia; apply nth_error_nth'; rewrite firstn_length, skipn_length; lia|].
        repeat split; auto. symmetry. apply SUM. lia.
  - intros (i & w & Hi & Ew & HF & a & b & Ha & Hb & E1 & E2 & E3 & E4 & E5 & E6 & E7 & E8). subst w.
    apply in_map_iff. exists i. split.
    + pose proof (NTH i 0 ltac:(lia)) as N0. rewrite Nat.add_0_r in N0.
      assert (a = nth i ds d).
      { destruct (firstn n (skipn i ds)); simpl in *; congruence. }
      assert (b = nth (i + (n - 1)) ds d).
      { rewrite <- NTH by lia. rewrite (nth_error_nth' _ _ _ d) in Hb. congruence.
        rewrite firstn_length, skipn_length; lia. }
      subst a b. unfold nstep_sample. rewrite <- (SUM i Hi). rewrite <- E8.
      destruct x; simpl in *; subst; reflexivity.
    + apply filter_In. split; [apply in_seq; lia|].
      unfold window_ok. apply forallb_forall. intros y Hy. rewrite <- FW in Hy by lia.
      rewrite Forall_forall in HF. rewrite HF by auto. reflexivity.
Qed.

(** C14.  With n = 1 the stored transitions are the dataset itself. *)
Theorem replay_one_step_is_identity : forall (St Ac Ps : Type) (ds : list (sample St Ac Ps)) g,
  nstep_samples ds 1 g = ds.
Proof. exact nstep_samples_one. Qed.

(** C15 (n = 1 only): the caller's rewards are unchanged. *)
Theorem replay_add_keeps_caller_rewards_partial : forall (St Ac Ps : Type) (m m' : memory St Ac Ps) ds g rew',
  add m ds 1 g = Some (m', rew') -> rew' = map s_reward ds.
Proof. intros St Ac Ps m m' ds g rew' H. unfold add in H. simpl in H. eapply add_loop_one; eauto. Qed.

(** C15 is false for n >= 2: add overwrites the caller's rewards with n-step sums. *)
Theorem replay_add_keeps_caller_rewards_refuted :
  exists (m : memory nat nat unit) ds n g m' rew',
    add m ds n g = Some (m', rew') /\ rew' <> map s_reward ds.
Proof.
  exists (mem_init 0 5),
    [mkSample 0 0 1%R 1 false false tt tt; mkSample 1 0 1%R 2 true true tt tt], 2, 1%R.
  eexists. eexists. split; [reflexivity|]. simpl. intros H. injection H as H. lra.
Qed.

(** Non-vacuity: a history with a wrap-around, an n-step add, an episode end and a reset. *)
Example replay_example :
  exists m, run_ops (mem_init 0 2)
    [OpAdd nat nat unit [mkSample 9 9 9%R 9 false false tt tt] 1 1%R; OpReset nat nat unit;
     OpAdd nat nat unit [mkSample 0 0 1%R 1 false false tt tt; mkSample 1 0 2%R 2 true true tt tt;
            mkSample 5 0 3%R 6 false false tt tt; mkSample 6 0 4%R 7 false false tt tt;
            mkSample 7 0 5%R 8 false true tt tt] 2 2%R] = Some m /\
    m_full m = true /\ m_idx m = 1 /\
    map s_state (chronological m) = [5; 6] /\ map s_next (chronological m) = [7; 8].
Proof. eexists. split; [reflexivity|]. repeat split; reflexivity. Qed.

Print Assumptions replay_is_bounded_fifo.
Print Assumptions replay_get_returns_held.
Print Assumptions replay_add_nstep.
Print Assumptions replay_nstep_meaning.
Print Assumptions replay_one_step_is_identity.
Print Assumptions replay_add_keeps_caller_rewards_partial.
Print Assumptions replay_add_keeps_caller_rewards_refuted.

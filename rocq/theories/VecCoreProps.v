(** C07-C10: the vectorised interaction loop [VectorCore]. *)
From Coq Require Import List Arith Lia Bool.
From Verif Require Import Common CoreModel VecCoreModel VecCoreSpec VecCoreProofs.
Import ListNotations.

Section Props.
Variable W : vworld.
Hypothesis Hn : 2 <= n_envs W.
Notation n := (n_envs W).

Lemma Hn1 : 1 <= n. Proof. lia. Qed.
Lemma Hn2 : n <> 1. Proof. lia. Qed.

Lemma Forall2_len : forall A B (R : A -> B -> Prop) a b, Forall2 R a b -> length a = length b.
Proof. induction 1; simpl; auto. Qed.

Lemma count_batches : forall (B : Type) (f : B -> nat) k l, Forall (fun b => f b = k) l -> list_sum (map f l) = k * length l.
Proof. induction 1; simpl; lia. Qed.

Lemma done_app : forall a b, n_eps_done (a ++ b) = n_eps_done a + n_eps_done b.
Proof. intros. unfold n_eps_done. rewrite map_app, list_sum_app. auto. Qed.

Lemma done_concat : forall bs, n_eps_done (concat bs) = list_sum (map n_eps_done bs).
Proof.
  induction bs; simpl; auto. rewrite done_app, IHbs. auto.
Qed.

(** C07.  [learn(n_episodes=N, n_episodes_per_fit=k)]: the call returns; the
    parallel steps form a proper run of the environments; exactly N episodes are
    completed and none is left in progress; there are N/k fits; each one receives
    exactly the transitions executed since the previous fit, which contain exactly k
    complete episodes. *)
Theorem vec_learn_episodes : forall fuel l N k h,
  vhorizon W = Some h -> 1 <= h -> 1 <= k -> h * N <= fuel ->
  exists r out, vlearn W fuel l None (Some N) None (Some k) = VDone r out /\
    well_scheduled W (steps_of (v_events r)) /\
    n_eps_done (steps_of (v_events r)) = N /\
    (forall j, j < n -> ~ in_progress j (steps_of (v_events r))) /\
    length (vfits_of (v_events r)) = N / k /\
    Forall2 (fun bt d => n_eps_done bt = k /\ d = transitions n bt)
            (fit_batches (v_events r)) (vfits_of (v_events r)) /\
    concat (fit_batches (v_events r)) ++ since_fit (v_events r) = steps_of (v_events r).
Proof.
  intros fuel l N k h Hh Hh1 Hk Hf.
  assert (Hhor : vhorizon W <> Some 0) by (rewrite Hh; intros E; inversion E; lia).
  unfold vlearn. simpl. rewrite Hh.
  match goal with |- context[vloop W fuel ?c (vstart W ?c ?l2)] => set (cap := c); set (lg := l2) end.
  assert (H : Head W (VEps k) (VBEps N) (vstart W cap lg)) by (apply (vstart_head W Hn1 Hhor); simpl; auto).
  pose proof (vstart_data W cap (VEps k) (VBEps N) lg) as D.
  assert (C : clean W (VEps k) (VBEps N) cap) by (simpl; eauto).
  destruct (vloop_clean W Hn1 Hhor Hn2 fuel cap _ _ _ H D Hk C) as (_ & HD & HT).
  destruct HT as (r & out & E). { exists h. split; auto. simpl. lia. }
  exists r, out. split; [exact E|].
  destruct (vloop_safe W Hn1 Hhor fuel cap _ _ _ _ _ H Hk E) as (H' & Em & _). specialize (HD _ _ E).
  destruct (head_done_eps W Hn1 _ _ _ H' Em) as [EN EA].
  pose proof (c_batches _ _ _ _ (h_cnt _ _ _ _ H')) as CB. simpl in CB.
  pose proof (d_fits _ _ _ _ _ HD) as DF.
  pose proof (batches_concat (v_events r)) as BC.
  split; [apply (h_cnt _ _ _ _ H')|]. split; [exact EN|]. split.
  { intros j Hj P. unfold in_progress in P. fold (st_of r) in P. rewrite EA in P by auto. lia. }
  split; [|split].
  - rewrite <- (Forall2_len _ _ _ _ _ DF).
    assert (X : N = k * length (fit_batches (v_events r)) + n_eps_done (since_fit (v_events r))).
    { rewrite <- EN. unfold st_of. rewrite <- BC, done_app, done_concat, (count_batches _ _ k); auto. }
    apply (Nat.div_unique N k _ (n_eps_done (since_fit (v_events r)))); auto.
    pose proof (c_notdue _ _ _ _ (h_cnt _ _ _ _ H')) as ND. simpl in ND.
    rewrite (c_cur_ep _ _ _ _ (h_cnt _ _ _ _ H')) in ND. auto.
  - clear -DF CB. induction DF; constructor; inversion CB; subst; auto. split; tauto.
  - exact BC.
Qed.

(** C07/C08 (positive part).  [evaluate(n_episodes=N)] on a core whose last learn
    call did not use [n_episodes_per_fit] (or on a fresh one). *)
Theorem vec_evaluate_episodes_partial : forall fuel l N h,
  vhorizon W = Some h -> 1 <= h -> n_episodes_per_fit l = None -> h * N <= fuel ->
  exists r out, vevaluate W fuel l None (Some N) = VDone r out /\
    well_scheduled W (steps_of (v_events r)) /\
    n_eps_done (steps_of (v_events r)) = N /\
    (forall j, j < n -> ~ in_progress j (steps_of (v_events r))) /\
    vfits_of (v_events r) = [] /\
    out = transitions n (steps_of (v_events r)).
Proof.
  intros fuel l N h Hh Hh1 He Hf.
  assert (Hhor : vhorizon W <> Some 0) by (rewrite Hh; intros E; inversion E; lia).
  unfold vevaluate. simpl. rewrite Hh.
  match goal with |- context[vloop W fuel ?c (vstart W ?c ?l2)] => set (cap := c); set (lg := l2) end.
  assert (H : Head W VNever (VBEps N) (vstart W cap lg)) by (apply (vstart_head W Hn1 Hhor); simpl; auto).
  pose proof (vstart_data W cap VNever (VBEps N) lg) as D.
  assert (C : clean W VNever (VBEps N) cap) by (simpl; eauto).
  destruct (vloop_clean W Hn1 Hhor Hn2 fuel cap _ _ _ H D I C) as (_ & HD & HT).
  destruct HT as (r & out & E). { exists h. split; auto. simpl. lia. }
  exists r, out. split; [exact E|].
  destruct (vloop_safe W Hn1 Hhor fuel cap _ _ _ _ _ H I E) as (H' & Em & EO). specialize (HD _ _ E).
  destruct (head_done_eps W Hn1 _ _ _ H' Em) as [EN EA].
  destruct (never_since W _ _ (h_cnt _ _ _ _ H')) as [NS NF].
  split; [apply (h_cnt _ _ _ _ H')|]. split; [exact EN|]. split.
  { intros j Hj P. unfold in_progress in P. fold (st_of r) in P. rewrite EA in P by auto. lia. }
  split.
  - pose proof (d_fits _ _ _ _ _ HD) as DF. rewrite NF in DF. inversion DF. auto.
  - rewrite EO, (data_out W Hn1 cap _ _ _ HD), NS. fold (st_of r).
    pose proof (c_ws _ _ _ _ (h_cnt _ _ _ _ H')) as WS.
    destruct (st_of r) as [|[[t m] l0] st] using rev_ind; [reflexivity|].
    apply transitions_cut_id; [apply Hn1| |].
    + apply (WS st t m l0 []). auto.
    + eapply ws_last_ended; eauto. apply Hn1.
Qed.

(** C09.  Step budgets: whenever [learn(n_steps=N, ..)] returns, at least N and
    fewer than N+n environment steps were executed, and with a step schedule
    every fit happens after at least k and fewer than k+n steps. *)
Theorem vec_learn_step_budget : forall fuel l N spf epf k r out, 1 <= k -> vhorizon W <> Some 0 ->
  (spf = Some k /\ epf = None) \/ (spf = None /\ epf = Some k) ->
  vlearn W fuel l (Some N) None spf epf = VDone r out ->
  well_scheduled W (steps_of (v_events r)) /\
  N <= n_steps_run (steps_of (v_events r)) < N + n /\
  (spf = Some k -> Forall (fun bt => k <= n_steps_run bt < k + n) (fit_batches (v_events r))) /\
  (epf = Some k -> Forall (fun bt => n_eps_done bt = k) (fit_batches (v_events r))) /\
  concat (fit_batches (v_events r)) ++ since_fit (v_events r) = steps_of (v_events r).
Proof.
  intros fuel l N spf epf k r out Hk Hhor HS E.
  assert (X : exists s cap lg, Head W s (VBSteps N) (vstart W cap lg) /\ vpos s /\ tot_st lg = 0 /\
     vloop W fuel cap (vstart W cap lg) = VDone r out /\
     (spf = Some k -> s = VSteps k) /\ (epf = Some k -> s = VEps k)).
  { unfold vlearn in E. destruct HS as [[-> ->]|[-> ->]]; simpl in E.
    - exists (VSteps k). do 2 eexists. split; [|split; [|split; [|split; [exact E|split; congruence]]]]; simpl; auto.
      apply (vstart_head W Hn1 Hhor); simpl; auto.
    - destruct (vhorizon W) as [h0|] eqn:EH; [|discriminate]. rewrite <- EH in Hhor.
      exists (VEps k). do 2 eexists. split; [|split; [|split; [|split; [exact E|split; congruence]]]]; simpl; auto.
      apply (vstart_head W Hn1 Hhor); simpl; auto. }
  destruct X as (s & cap & lg & H & Hp & T0 & EL & ES & EE).
  destruct (vloop_safe W Hn1 Hhor fuel cap _ _ _ _ _ H Hp EL) as (H' & Em & _).
  pose proof (vloop_tot W Hn1 Hhor fuel cap s (VBSteps N) N _ r out eq_refl H Hp) as T.
  specialize (T ltac:(simpl; lia) EL). rewrite (c_tot_st _ _ _ _ (h_cnt _ _ _ _ H')) in T.
  pose proof (c_batches _ _ _ _ (h_cnt _ _ _ _ H')) as CB.
  split; [apply (h_cnt _ _ _ _ H')|]. split; [exact T|]. split; [|split].
  - intros ->. rewrite ES in CB; auto.
  - intros ->. rewrite EE in CB; auto.
  - apply batches_concat.
Qed.

(** C10 (positive part).  When the number of environments divides k,
    [learn(n_steps=N, n_steps_per_fit=k)] never overflows its buffer, returns,
    and every fit receives exactly the k transitions executed since the
    previous fit (episodes in progress being cut at the fit). *)
Theorem vec_fit_data_exact_partial : forall fuel l N k q, 1 <= k -> k = n * q -> vhorizon W <> Some 0 -> N <= fuel ->
  exists r out, vlearn W fuel l (Some N) None (Some k) None = VDone r out /\
    Forall2 (fun bt d => d = transitions n (cut bt) /\ length d = k)
            (fit_batches (v_events r)) (vfits_of (v_events r)) /\
    concat (fit_batches (v_events r)) ++ since_fit (v_events r) = steps_of (v_events r).
Proof.
  intros fuel l N k q Hk Hq Hhor Hf. unfold vlearn. simpl.
  match goal with |- context[vloop W fuel ?c (vstart W ?c ?l2)] => set (lg := l2) end.
  assert (H : Head W (VSteps k) (VBSteps N) (vstart W k lg)) by (apply (vstart_head W Hn1 Hhor); simpl; auto).
  pose proof (vstart_data W k (VSteps k) (VBSteps N) lg) as D.
  assert (C : clean W (VSteps k) (VBSteps N) k) by (simpl; eauto).
  destruct (vloop_clean W Hn1 Hhor Hn2 fuel k _ _ _ H D Hk C) as (_ & HD & HT).
  destruct HT as (r & out & E). { simpl. lia. }
  exists r, out. split; [exact E|]. specialize (HD _ _ E). split; [apply HD|]. apply batches_concat.
Qed.

(** C10.  With an episode schedule the buffer never overflows either. *)
Theorem vec_learn_episode_schedule_no_overflow : forall fuel l ns ne N k h,
  vhorizon W = Some h -> 1 <= h -> 1 <= k ->
  (ns = Some N /\ ne = None) \/ (ns = None /\ ne = Some N) ->
  vlearn W fuel l ns ne None (Some k) <> VCrash.
Proof.
  intros fuel l ns ne N k h Hh Hh1 Hk HB.
  assert (Hhor : vhorizon W <> Some 0) by (rewrite Hh; intros E; inversion E; lia).
  unfold vlearn. destruct HB as [[-> ->]|[-> ->]]; simpl; rewrite Hh;
  match goal with |- context[vloop W fuel ?c (vstart W ?c ?l2)] => set (cap := c); set (lg := l2) end.
  - assert (H : Head W (VEps k) (VBSteps N) (vstart W cap lg)) by (apply (vstart_head W Hn1 Hhor); simpl; auto).
    pose proof (vstart_data W cap (VEps k) (VBSteps N) lg) as D.
    assert (C : clean W (VEps k) (VBSteps N) cap) by (simpl; eauto).
    apply (vloop_clean W Hn1 Hhor Hn2 fuel cap _ _ _ H D Hk C).
  - assert (H : Head W (VEps k) (VBEps N) (vstart W cap lg)) by (apply (vstart_head W Hn1 Hhor); simpl; auto).
    pose proof (vstart_data W cap (VEps k) (VBEps N) lg) as D.
    assert (C : clean W (VEps k) (VBEps N) cap) by (simpl; eauto).
    apply (vloop_clean W Hn1 Hhor Hn2 fuel cap _ _ _ H D Hk C).
Qed.

End Props.

(** C08 fails: after learn(n_episodes_per_fit=1), evaluate(n_episodes=2) with two
    environments never returns a dataset (it stalls with no running environment
    until its buffer overflows).  [stale] is the logic state left by that learn. *)
Definition demoW (n h : nat) : vworld := mkVW n (Some h) (fun t j => (t + j) mod 3 =? 2) (fun _ _ _ => true).

Definition stallW : vworld := mkVW 2 (Some 1) (fun _ _ => false) (fun _ _ _ => false).

Theorem vec_evaluate_after_learn_refuted :
  exists W l, n_envs W = 2 /\
    (exists r out, vlearn W 10 fresh_logic None (Some 1) None (Some 1) = VDone r out /\ vl (v_log r) = l) /\
    (exists r out, vevaluate W 10 fresh_logic None (Some 2) = VDone r out) /\
    (forall fuel r out, vevaluate W fuel l None (Some 2) <> VDone r out).
Proof.
  exists stallW.
  let x := eval vm_compute in (vlearn stallW 10 fresh_logic None (Some 1) None (Some 1)) in
  let y := eval vm_compute in (vevaluate stallW 10 fresh_logic None (Some 2)) in
  match x with VDone ?r ?o => match y with VDone ?r' ?o' =>
    let l := eval vm_compute in (vl (v_log r)) in
    exists l; split; [reflexivity|]; split; [exists r, o; split; vm_compute; reflexivity|];
    split; [exists r', o'; vm_compute; reflexivity|] end end.
  intros fuel r out. destruct fuel as [|[|[|fuel]]]; intros E; vm_compute in E; discriminate.
Qed.

(** C10 fails: [learn(n_steps=N, n_steps_per_fit=1)] overflows its one-row buffer
    in the second iteration, for any number of environments and any flags. *)
Theorem vec_buffer_overflow_refuted : forall W fuel N, 2 <= n_envs W -> n_envs W < N -> vhorizon W <> Some 0 -> 2 <= fuel ->
  vlearn W fuel fresh_logic (Some N) None (Some 1) None = VCrash.
Proof.
  intros W fuel N Hn HN Hhor Hf. unfold vlearn. simpl.
  match goal with |- context[vloop W fuel 1 (vstart W 1 ?l2)] => set (lg := l2) end.
  assert (Hn1 : 1 <= n_envs W) by lia. assert (Hn2 : n_envs W <> 1) by lia.
  assert (H : Head W (VSteps 1) (VBSteps N) (vstart W 1 lg)) by (apply (vstart_head W Hn1 Hhor); simpl; auto).
  assert (Em : move_required (vl (v_log (vstart W 1 lg))) = Some true).
  { unfold move_required; simpl. f_equal. apply Nat.ltb_lt. lia. }
  destruct fuel as [|[|fuel]]; try lia. cbn [vloop]. rewrite Em.
  destruct (viterate_cases W Hn1 Hhor 1 _ _ _ H (le_n 1) Em) as (r1 & _ & M & Ed & Ee & Et & El & X).
  unfold vappend in X. rewrite (proj2 (Nat.eqb_neq _ _) Hn2) in X. cbn [negb andb vrows v_ds vstart length Nat.ltb Nat.leb] in X.
  match type of X with Pre _ _ _ (after W r1 ?d) /\ _ => remember d as ds eqn:EDS end.
  destruct X as [P X].
  assert (CM : cnt (v_mask r1) = n_envs W) by (pose proof (m_all _ _ _ _ M) as A; exact A).
  assert (CS : cur_st (vl (v_log (after W r1 ds))) = n_envs W).
  { simpl. rewrite El. simpl. rewrite (m_run _ _ _ _ M). auto. }
  assert (F : is_fit (VSteps 1) (vl (v_log (after W r1 ds))) = true).
  { unfold is_fit. rewrite CS. apply Nat.leb_le. lia. }
  rewrite F in X. pose proof (p_hs _ _ _ _ P) as HS. unfold vhas in HS. destruct HS as (_ & HS & HS2).
  unfold after_fit_vectorized in X. change (n_episodes_per_fit (after_fit (vl (v_log (after W r1 ds))))) with (n_episodes_per_fit (vl (v_log (after W r1 ds)))) in X.
  rewrite HS, HS2 in X. cbn [flatten] in X. unfold flatten in X.
  match type of X with viterate _ _ _ = Some (mkVR _ _ _ _ _ ?d _) => set (ds2 := d) in X end.
  assert (RL : length (vrows ds2) = 1).
  { unfold ds2, vclear. subst ds. cbn [vrows maskarr allocs]. 
    unfold dmask, close_last_row. cbn [vrows maskarr rev app length map]. 
    unfold np_empty. cbn [map seq v_ds vstart maskarr setnth firstn length rev app]. cbn [list_sum map fold_right].
    rewrite CM, Nat.add_0_r. rewrite (proj2 (Nat.ltb_lt 1 (n_envs W))) by lia. cbn [vrows].
    assert (ceil_div (n_envs W - 1) (n_envs W) = 1) as ->.
    { unfold ceil_div. symmetry. apply (Nat.div_unique _ _ _ (n_envs W - 2)); lia. }
    reflexivity. }
  rewrite X. 
  match goal with |- context[move_required (vl (v_log ?r))] => set (r2 := r) in * end.
  assert (H2 : Head W (VSteps 1) (VBSteps N) r2) by (eapply (viterate_head W Hn1 Hhor 1); [exact H|simpl; auto|exact Em|exact X]).
  assert (Em2 : move_required (vl (v_log r2)) = Some true).
  { pose proof (c_b _ _ _ _ (h_cnt _ _ _ _ H2)) as (A & B & _). unfold move_required. rewrite A, B. f_equal. apply Nat.ltb_lt.
    unfold r2. simpl. rewrite El. simpl. rewrite (m_run _ _ _ _ M), CM. auto. }
  rewrite Em2.
  destruct (viterate_cases W Hn1 Hhor 1 _ _ _ H2 (le_n 1) Em2) as (r3 & _ & M3 & Ed3 & _ & _ & _ & X3).
  unfold vappend in X3. change (v_ds r2) with ds2 in X3. rewrite RL in X3. cbn [Nat.ltb Nat.leb andb] in X3. rewrite X3. reflexivity.
Qed.

(** C10 fails also by using a sample twice: two environments, fits every three
    steps, and reused memory that happens to contain True.  The first fit receives
    steps 0 and 1 of environment 0 and step 0 of environment 1; the second one
    receives step 1 of environment 0 again. *)
Theorem vec_fit_samples_duplicated_refuted :
  exists W r out d1 d2 rest, n_envs W = 2 /\
    vlearn W 10 fresh_logic (Some 7) None (Some 3) None = VDone r out /\
    vfits_of (v_events r) = d1 :: d2 :: rest /\
    exists c, In c (map fst d1) /\ In c (map fst d2).
Proof.
  exists (mkVW 2 (Some 9) (fun _ _ => false) (fun _ _ _ => true)).
  let x := eval vm_compute in (vlearn (mkVW 2 (Some 9) (fun _ _ => false) (fun _ _ _ => true)) 10 fresh_logic (Some 7) None (Some 3) None) in
  match x with VDone ?r ?o =>
    let f := eval vm_compute in (vfits_of (v_events r)) in
    match f with ?d1 :: ?d2 :: ?rest => exists r, o, d1, d2, rest end end.
  split; [reflexivity|]. split; [vm_compute; reflexivity|]. split; [vm_compute; reflexivity|].
  exists (1, 0). split; vm_compute; auto.
Qed.

(** A single environment: the vectorised dataset is built without a mask and the
    first append raises, so no learn call with a positive budget ever returns. *)
Theorem vec_single_env_refuted : forall W fuel l N k, n_envs W = 1 -> 1 <= N -> 1 <= k -> vhorizon W <> Some 0 -> 1 <= fuel ->
  vlearn W fuel l (Some N) None (Some k) None = VCrash.
Proof.
  intros W fuel l N k Hn HN Hk Hhor Hf. unfold vlearn. simpl.
  match goal with |- context[vloop W fuel k (vstart W k ?l2)] => set (lg := l2) end.
  assert (Hn1 : 1 <= n_envs W) by lia.
  assert (H : Head W (VSteps k) (VBSteps N) (vstart W k lg)) by (apply (vstart_head W Hn1 Hhor); simpl; auto).
  assert (Em : move_required (vl (v_log (vstart W k lg))) = Some true).
  { unfold move_required; simpl. f_equal. apply Nat.ltb_lt. lia. }
  destruct fuel as [|fuel]; try lia. cbn [vloop]. rewrite Em.
  destruct (viterate_cases W Hn1 Hhor k _ _ _ H Hk Em) as (r1 & _ & _ & _ & _ & _ & _ & X).
  unfold vappend in X. rewrite Hn in X. simpl in X. rewrite andb_false_r in X. rewrite X. auto.
Qed.

(** Non-vacuity of the positive theorems. *)
Example vec_demo : match vlearn (demoW 3 2) 20 fresh_logic None (Some 7) None (Some 3) with
  | VDone r out => n_eps_done (steps_of (v_events r)) = 7 /\ length (vfits_of (v_events r)) = 2
  | _ => False end.
Proof. vm_compute. auto. Qed.

Example vec_demo_steps : match vlearn (demoW 3 4) 20 fresh_logic (Some 20) None (Some 6) None with
  | VDone r out => n_steps_run (steps_of (v_events r)) = 21 /\ map (@length cell) (vfits_of (v_events r)) = [6; 6; 6]
  | _ => False end.
Proof. vm_compute. auto. Qed.

Print Assumptions vec_learn_episodes.
Print Assumptions vec_evaluate_episodes_partial.
Print Assumptions vec_learn_step_budget.
Print Assumptions vec_fit_data_exact_partial.
Print Assumptions vec_learn_episode_schedule_no_overflow.
Print Assumptions vec_evaluate_after_learn_refuted.
Print Assumptions vec_buffer_overflow_refuted.
Print Assumptions vec_fit_samples_duplicated_refuted.
Print Assumptions vec_single_env_refuted.

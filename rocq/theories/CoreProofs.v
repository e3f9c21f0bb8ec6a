From Coq Require Import List Arith Lia Bool.
From Verif Require Import Common EpisodeSpec CoreModel CoreSpec.
Import ListNotations.

Section Proofs.
Context {En Ag Ob Ac Rw Ps Th : Type}.
Variable W : world En Ag Ob Ac Rw Ps Th.
Hypothesis Hhor : horizon W <> Some 0.
Notation sample := (sample Ob Ac Rw Ps).
Notation dataset := (dataset Ob Ac Rw Ps Th).
Notation event := (event Ob Ac Rw Ps Th).
Notation run := (@run En Ag Ob Ac Rw Ps Th).

Lemma samples_app : forall a b : list event, samples_of (a ++ b) = samples_of a ++ samples_of b.
Proof. intros. apply flat_map_app. Qed.
Lemma fits_app : forall a b : list event, fits_of (a ++ b) = fits_of a ++ fits_of b.
Proof. intros. apply flat_map_app. Qed.
Lemma resets_app : forall a b : list event, resets_of (a ++ b) = resets_of a ++ resets_of b.
Proof. intros. apply flat_map_app. Qed.
Lemma thetas_app : forall a b : list event, thetas_of (a ++ b) = thetas_of a ++ thetas_of b.
Proof. intros. apply flat_map_app. Qed.

(** The fit schedule that a [logic] encodes. *)
Inductive sched := SSteps (k : nat) | SEps (k : nat) | SNever.
Inductive budget := BSteps (n : nat) | BEps (n : nat).

Definition has_sched (l : logic) (s : sched) : Prop :=
  match s with
  | SSteps k => fit_req l = FitSteps /\ n_steps_per_fit l = Some k
  | SEps k => fit_req l = FitEpisodes /\ n_episodes_per_fit l = Some k
  | SNever => fit_req l = FitNever
  end.
Definition has_budget (l : logic) (b : budget) : Prop :=
  match b with
  | BSteps n => move_req l = MoveSteps /\ n_steps l = Some n
  | BEps n => move_req l = MoveEpisodes /\ n_episodes l = Some n
  end.

Definition sched_pos (s : sched) : Prop :=
  match s with SSteps k => 1 <= k | SEps k => 1 <= k | SNever => True end.

(** The dataset is large enough for the schedule/budget. *)
Definition cap_ok (cap : nat) (s : sched) (b : budget) : Prop :=
  match s with
  | SSteps k => k <= cap
  | SEps k => exists h, horizon W = Some h /\ 1 <= h /\ h * k <= cap
  | SNever => match b with
              | BSteps n => n <= cap
              | BEps n => exists h, horizon W = Some h /\ 1 <= h /\ h * n <= cap
              end
  end.

Definition fit_good (s : sched) (d : dataset) : Prop :=
  match s with
  | SSteps k => length (rows d) = k
  | SEps k => count_last last (rows d) = k /\ unfinished last (rows d) = [] /\
              (is_episodic W = true -> length (thetas d) = k)
  | SNever => False
  end.

Definition not_due (s : sched) (l : logic) : Prop :=
  match s with SSteps k => cur_st l < k | SEps k => cur_ep l < k | SNever => True end.

Record Inv (s : sched) (b : budget) (init : option (list Ob)) (p0 : phase En Ag Ob Ps) (r : run) : Prop := {
  i_sched : has_sched (r_logic r) s;
  i_budget : has_budget (r_logic r) b;
  i_samples : samples_of (r_log r) = concat (map rows (fits_of (r_log r))) ++ rows (r_ds r);
  i_thetas : is_episodic W = true ->
      thetas_of (r_log r) = concat (map thetas (fits_of (r_log r))) ++ thetas (r_ds r);
  i_tot_st : tot_st (r_logic r) = length (samples_of (r_log r));
  i_tot_ep : tot_ep (r_logic r) = count_last last (samples_of (r_log r));
  i_cur_st : cur_st (r_logic r) = length (rows (r_ds r));
  i_cur_ep : cur_ep (r_logic r) = count_last last (rows (r_ds r));
  i_notdue : not_due s (r_logic r);
  i_fits : Forall (fit_good s) (fits_of (r_log r));
  i_last : if r_last r then unfinished last (samples_of (r_log r)) = []
           else length (unfinished last (samples_of (r_log r))) = r_steps r /\ 1 <= r_steps r;
  i_phase : trace W p0 (r_log r)
      (if r_last r then Between (r_env r) (r_ag r)
       else match r_obs r, r_ps r with
            | Some o, Some ps => Inside (r_env r) (r_ag r) o ps (r_steps r)
            | _, _ => p0 end);
  i_some : r_last r = false -> r_obs r <> None /\ r_ps r <> None;
  i_eps : Forall (respects_horizon W) (complete last (samples_of (r_log r)));
  i_steps_h : forall h, horizon W = Some h -> r_last r = false -> r_steps r < h;
  i_rows_unf : match s with SEps _ => unfinished last (rows (r_ds r)) = unfinished last (samples_of (r_log r))
                          | SSteps _ => True
                          | SNever => fits_of (r_log r) = [] end;
  i_rows_len : match s with
               | SSteps _ => True
               | _ => forall h, horizon W = Some h -> 1 <= h ->
                   length (rows (r_ds r)) <= h * cur_ep (r_logic r) + (if r_last r then 0 else r_steps r)
               end;
  i_nthetas : is_episodic W = true -> match s with SEps _ =>
       length (thetas (r_ds r)) = cur_ep (r_logic r) + (if r_last r then 0 else 1) | _ => True end;
  i_resets : resets_of (r_log r) =
     match init with
     | None => map (fun _ => None) (seq 0 (tot_ep (r_logic r) + (if r_last r then 0 else 1)))
     | Some is => map Some (firstn (tot_ep (r_logic r) + (if r_last r then 0 else 1)) is)
     end;
  i_init : match init with None => True
           | Some is => has_budget (r_logic r) (BEps (length is)) end }.

(** After the optional reset at the head of an iteration. *)
Record Mid (s : sched) (b : budget) (init : option (list Ob)) (p0 : phase En Ag Ob Ps) (r : run) : Prop := {
  m_sched : has_sched (r_logic r) s;
  m_budget : has_budget (r_logic r) b;
  m_samples : samples_of (r_log r) = concat (map rows (fits_of (r_log r))) ++ rows (r_ds r);
  m_thetas : is_episodic W = true ->
      thetas_of (r_log r) = concat (map thetas (fits_of (r_log r))) ++ thetas (r_ds r);
  m_tot_st : tot_st (r_logic r) = length (samples_of (r_log r));
  m_tot_ep : tot_ep (r_logic r) = count_last last (samples_of (r_log r));
  m_cur_st : cur_st (r_logic r) = length (rows (r_ds r));
  m_cur_ep : cur_ep (r_logic r) = count_last last (rows (r_ds r));
  m_notdue : not_due s (r_logic r);
  m_fits : Forall (fit_good s) (fits_of (r_log r));
  m_unf : length (unfinished last (samples_of (r_log r))) = r_steps r;
  m_phase : exists o ps, r_obs r = Some o /\ r_ps r = Some ps /\
      trace W p0 (r_log r) (Inside (r_env r) (r_ag r) o ps (r_steps r));
  m_eps : Forall (respects_horizon W) (complete last (samples_of (r_log r)));
  m_steps_h : forall h, horizon W = Some h -> 1 <= h -> r_steps r < h;
  m_rows_unf : match s with SEps _ => unfinished last (rows (r_ds r)) = unfinished last (samples_of (r_log r))
                          | SSteps _ => True
                          | SNever => fits_of (r_log r) = [] end;
  m_rows_len : match s with
               | SSteps _ => True
               | _ => forall h, horizon W = Some h -> 1 <= h ->
                   length (rows (r_ds r)) <= h * cur_ep (r_logic r) + r_steps r
               end;
  m_nthetas : is_episodic W = true -> match s with SEps _ =>
       length (thetas (r_ds r)) = cur_ep (r_logic r) + 1 | _ => True end;
  m_resets : resets_of (r_log r) =
     match init with
     | None => map (fun _ => None) (seq 0 (tot_ep (r_logic r) + 1))
     | Some is => map Some (firstn (tot_ep (r_logic r) + 1) is)
     end;
  m_init : match init with None => True
           | Some is => has_budget (r_logic r) (BEps (length is)) end }.

Lemma firstn_snoc : forall A (l : list A) n x, nth_error l n = Some x -> firstn (n + 1) l = firstn n l ++ [x].
Proof.
  induction l as [|a l IH]; destruct n; simpl; intros x H; try discriminate.
  - inversion H; reflexivity.
  - f_equal. apply IH; auto.
Qed.

Lemma map_const_snoc : forall (B : Type) (c : B) n,
  map (fun _ : nat => c) (seq 0 (n + 1)) = map (fun _ => c) (seq 0 n) ++ [c].
Proof. intros. replace (n + 1) with (S n) by lia. rewrite seq_S, map_app. reflexivity. Qed.

Lemma reset_mid : forall s b init p0 r, Inv s b init p0 r -> move_required (r_logic r) = Some true ->
  exists r1, (if r_last r then do_reset W init r else Some r) = Some r1 /\ Mid s b init p0 r1 /\
             r_logic r1 = r_logic r /\ rows (r_ds r1) = rows (r_ds r) /\
             r_steps r1 = (if r_last r then 0 else r_steps r).
Proof.
  intros s b init p0 r I Hm. destruct (r_last r) eqn:RL.
  - (* a reset *)
    unfold do_reset.
    assert (G : exists i0, get_initial_state (r_logic r) init = Some i0 /\
       match init with None => i0 = None | Some is => exists o, nth_error is (tot_ep (r_logic r)) = Some o /\ i0 = Some o end).
    { unfold get_initial_state. destruct init as [is|]; [|eauto].
      pose proof (i_init _ _ _ _ _ I) as [B1 B2]. unfold move_required in Hm. rewrite B1, B2 in Hm.
      inversion Hm as [Hm']. apply Nat.ltb_lt in Hm'. rewrite B2.
      destruct (Nat.eqb_spec (tot_ep (r_logic r)) (length is)); [lia|].
      destruct (nth_error is (tot_ep (r_logic r))) eqn:E; [eauto|]. apply nth_error_None in E. lia. }
    destruct G as (i0 & G1 & G2). rewrite G1.
    destruct (env_reset W (r_env r) i0) as [e raw] eqn:E1.
    destruct (ep_start W (r_ag r) raw) as [[a1 ps] th] eqn:E2.
    destruct (prep W a1 raw) as [a2 o] eqn:E3.
    eexists. split; [reflexivity|]. split; [|split; [reflexivity|split; [destruct (is_episodic W); reflexivity|reflexivity]]].
    pose proof (i_last _ _ _ _ _ I) as HL. rewrite RL in HL.
    constructor; simpl; rewrite ?samples_app, ?fits_app, ?thetas_app, ?resets_app; simpl; rewrite ?app_nil_r.
    + apply I.
    + apply I.
    + rewrite (i_samples _ _ _ _ _ I). destruct (is_episodic W); reflexivity.
    + intros H. rewrite H. simpl. rewrite (i_thetas _ _ _ _ _ I H), app_assoc. reflexivity.
    + apply I.
    + apply I.
    + rewrite (i_cur_st _ _ _ _ _ I). destruct (is_episodic W); reflexivity.
    + rewrite (i_cur_ep _ _ _ _ _ I). destruct (is_episodic W); reflexivity.
    + apply I.
    + apply I.
    + rewrite HL. reflexivity.
    + exists o, ps. repeat split; auto. eapply tr_snoc; [|eapply es_reset; eauto].
      pose proof (i_phase _ _ _ _ _ I) as P. rewrite RL in P. exact P.
    + apply I.
    + intros; lia.
    + pose proof (i_rows_unf _ _ _ _ _ I) as P. destruct s; auto. destruct (is_episodic W); auto.
    + pose proof (i_rows_len _ _ _ _ _ I) as P. rewrite RL in P. destruct s; auto; destruct (is_episodic W); auto.
    + intros H. pose proof (i_nthetas _ _ _ _ _ I H) as P. rewrite RL in P. rewrite H. destruct s; auto.
      simpl. rewrite app_length, P. simpl. lia.
    + rewrite (i_resets _ _ _ _ _ I), RL, Nat.add_0_r. destruct init as [is|].
      * destruct G2 as (oo & N & ->). rewrite (firstn_snoc _ _ _ _ N), map_app. reflexivity.
      * subst i0. rewrite map_const_snoc. reflexivity.
    + apply I.
  - exists r. split; auto. split; auto.
    pose proof (i_last _ _ _ _ _ I) as HL. rewrite RL in HL. destruct HL as [HL1 HL2].
    pose proof (i_some _ _ _ _ _ I RL) as [O1 O2].
    constructor; try apply I; auto.
    + destruct (r_obs r) as [o|] eqn:Eo; [|congruence]. destruct (r_ps r) as [q|] eqn:Eq; [|congruence].
      exists o, q. repeat split; auto. pose proof (i_phase _ _ _ _ _ I) as P. rewrite RL, Eo, Eq in P. exact P.
    + intros. eapply (i_steps_h _ _ _ _ _ I); eauto.
    + pose proof (i_rows_len _ _ _ _ _ I) as P. rewrite RL in P. exact P.
    + intros H. pose proof (i_nthetas _ _ _ _ _ I H) as P. rewrite RL in P. exact P.
    + pose proof (i_resets _ _ _ _ _ I) as P. rewrite RL in P. exact P.
Qed.

Lemma count_last_snoc : forall (l : list sample) x,
  count_last last (l ++ [x]) = count_last last l + (if last x then 1 else 0).
Proof. intros. rewrite count_last_app. unfold count_last at 2. simpl. destruct (last x); simpl; lia. Qed.

Lemma iterate_inv : forall cap s b init p0 r,
  sched_pos s -> cap_ok cap s b ->
  Inv s b init p0 r -> move_required (r_logic r) = Some true ->
  exists r', iterate W cap init r = Some r' /\ Inv s b init p0 r' /\
     tot_st (r_logic r') = tot_st (r_logic r) + 1 /\
     tot_ep (r_logic r') + (if r_last r' then 0 else 1) = tot_ep (r_logic r) + 1 /\
     (r_last r' = false -> r_steps r' = (if r_last r then 0 else r_steps r) + 1).
Proof.
  intros cap s b init p0 r Hp Hc I Hm.
  destruct (reset_mid _ _ _ _ _ I Hm) as (r1 & R1 & M & EL & ER & ES).
  unfold iterate. rewrite R1. cbn [obind].
  destruct (m_phase _ _ _ _ _ M) as (o & ps & Eo & Eps & TR).
  unfold do_step. rewrite Eo, Eps.
  destruct (draw W (r_ag r1) o ps) as [[a1 act] pns] eqn:D1.
  destruct (env_step W (r_env r1) act) as [[[e raw] rw] ab] eqn:D2.
  destruct (prep W a1 raw) as [a2 o'] eqn:D3. cbn [obind].
  remember ((match horizon W with Some h => h <=? r_steps r1 + 1 | None => false end) || ab) as lst eqn:ELST.
  remember (mkS o act rw o' ab lst ps pns) as x eqn:EX.
  cbn [r_logic r_ds r_env r_ag r_obs r_ps r_steps r_log].
  assert (LX : last x = lst) by (rewrite EX; reflexivity).
  assert (AX : absorbing x = ab) by (rewrite EX; reflexivity).
  rewrite LX.
  (* facts about x *)
  assert (HX : last x = true <-> absorbing x = true \/ (exists h, horizon W = Some h /\ h <= r_steps r1 + 1)).
  { rewrite LX, AX, ELST, orb_true_iff. split.
    - intros [A|A]; auto. destruct (horizon W) as [h|]; [|discriminate]. apply Nat.leb_le in A. eauto.
    - intros [A|(h & A & B)]; auto. rewrite A. left. apply Nat.leb_le. lia. }
  assert (TR2 : trace W p0 (r_log r1 ++ [EvSample x])
     (if lst then Between e a2 else Inside e a2 o' pns (r_steps r1 + 1))).
  { eapply tr_snoc; [exact TR|].
    replace (if lst then Between e a2 else Inside e a2 o' pns (r_steps r1 + 1)) with
      (if last x then Between e a2 else Inside e a2 (next_state x) (pnext x) (r_steps r1 + 1))
      by (rewrite LX, EX; reflexivity).
    apply (es_sample W _ _ o ps (r_steps r1) x a1 e raw a2); auto; rewrite EX; auto. }
  (* capacity *)
  assert (HCAP : length (rows (r_ds r1)) < cap).
  { pose proof (m_notdue _ _ _ _ _ M) as ND. pose proof (m_cur_st _ _ _ _ _ M) as CS.
    pose proof (m_rows_len _ _ _ _ _ M) as RL. pose proof (m_steps_h _ _ _ _ _ M) as SH.
    destruct s as [k|k|]; simpl in *.
    - lia.
    - destruct Hc as (h & H1 & H2 & H3). specialize (RL h H1 H2). specialize (SH h H1 H2).
      assert (h * cur_ep (r_logic r1) + h <= h * k) by nia. lia.
    - destruct b as [n|n].
      + (* evaluate, n_steps *)
        pose proof (m_samples _ _ _ _ _ M) as SA. rewrite (m_rows_unf _ _ _ _ _ M) in SA. simpl in SA.
        pose proof (m_tot_st _ _ _ _ _ M) as TS. rewrite SA in TS.
        pose proof (m_budget _ _ _ _ _ M) as [B1 B2]. rewrite EL in *. unfold move_required in Hm.
        rewrite B1, B2 in Hm. inversion Hm as [Hm']. apply Nat.ltb_lt in Hm'. lia.
      + destruct Hc as (h & H1 & H2 & H3). specialize (RL h H1 H2). specialize (SH h H1 H2).
        pose proof (m_samples _ _ _ _ _ M) as SA. rewrite (m_rows_unf _ _ _ _ _ M) in SA. simpl in SA.
        pose proof (m_tot_ep _ _ _ _ _ M) as TE. rewrite SA, <- (m_cur_ep _ _ _ _ _ M) in TE.
        pose proof (m_budget _ _ _ _ _ M) as [B1 B2]. rewrite EL in *. unfold move_required in Hm.
        rewrite B1, B2 in Hm. inversion Hm as [Hm']. apply Nat.ltb_lt in Hm'.
        assert (h * cur_ep (r_logic r) + h <= h * n) by nia. lia. }
  destruct (Nat.ltb_spec (length (rows (r_ds r1))) cap) as [_|]; [|lia].
  (* episode bookkeeping after appending x *)
  assert (UNF : if lst then unfinished last (samples_of (r_log r1) ++ [x]) = []
                else length (unfinished last (samples_of (r_log r1) ++ [x])) = r_steps r1 + 1).
  { destruct lst eqn:EE; rename LX into EEX.
    - apply split_snoc_last. exact EEX.
    - destruct (split_snoc_notlast last (samples_of (r_log r1)) x EEX) as [_ ->].
      rewrite app_length, (m_unf _ _ _ _ _ M). simpl. lia. }
  assert (EPS : Forall (respects_horizon W) (complete last (samples_of (r_log r1) ++ [x]))).
  { destruct lst eqn:EE; rename LX into EEX.
    - destruct (split_snoc_last last (samples_of (r_log r1)) x EEX) as [-> _].
      apply Forall_app. split; [apply M|]. constructor; auto.
      unfold respects_horizon. rewrite rev_app_distr. simpl. rewrite app_length, (m_unf _ _ _ _ _ M). simpl.
      pose proof (m_steps_h _ _ _ _ _ M) as SH.
      destruct (horizon W) as [h|] eqn:EH.
      + assert (1 <= h) by (destruct h; [congruence|lia]).
        specialize (SH h eq_refl H). split; [lia|]. intros Hlt.
        destruct (Nat.leb_spec h (r_steps r1 + 1)); [lia|]. rewrite AX. symmetry. exact ELST.
      + rewrite AX. symmetry. exact ELST.
    - destruct (split_snoc_notlast last (samples_of (r_log r1)) x EEX) as [-> _]. apply M. }
  assert (CNT : count_last last (samples_of (r_log r1) ++ [x]) = tot_ep (r_logic r1) + (if lst then 1 else 0)).
  { rewrite count_last_snoc, LX, (m_tot_ep _ _ _ _ _ M). reflexivity. }
  assert (CNTR : count_last last (rows (r_ds r1) ++ [x]) = cur_ep (r_logic r1) + (if lst then 1 else 0)).
  { rewrite count_last_snoc, LX, (m_cur_ep _ _ _ _ _ M). reflexivity. }
  assert (STH : forall h, horizon W = Some h -> lst = false -> r_steps r1 + 1 < h).
  { intros h H1 H2. rewrite ELST, H1 in H2. apply orb_false_iff in H2. destruct H2 as [H2 _].
    apply Nat.leb_gt in H2. lia. }
  assert (RUNF : match s with SEps _ => unfinished last (rows (r_ds r1) ++ [x]) = unfinished last (samples_of (r_log r1) ++ [x])
                            | _ => True end).
  { pose proof (m_rows_unf _ _ _ _ _ M) as P. destruct s; auto. destruct lst eqn:EE; rename LX into EEX.
    - destruct (split_snoc_last last (samples_of (r_log r1)) x EEX) as [_ ->].
      destruct (split_snoc_last last (rows (r_ds r1)) x EEX) as [_ ->]. reflexivity.
    - destruct (split_snoc_notlast last (samples_of (r_log r1)) x EEX) as [_ ->].
      destruct (split_snoc_notlast last (rows (r_ds r1)) x EEX) as [_ ->]. rewrite P. reflexivity. }
  assert (RESETS : resets_of (r_log r1) =
     match init with
     | None => map (fun _ => None) (seq 0 (tot_ep (r_logic r1) + (if lst then 1 else 0) + (if lst then 0 else 1)))
     | Some is => map Some (firstn (tot_ep (r_logic r1) + (if lst then 1 else 0) + (if lst then 0 else 1)) is)
     end).
  { rewrite (m_resets _ _ _ _ _ M). replace (tot_ep (r_logic r1) + (if lst then 1 else 0) + (if lst then 0 else 1))
      with (tot_ep (r_logic r1) + 1) by (destruct lst; lia). reflexivity. }
  assert (FR : exists due, fit_required (after_step (r_logic r1) lst) = Some due /\
     (if due then fit_good s (mkD (rows (r_ds r1) ++ [x]) (thetas (r_ds r1))) /\
                  (match s with SEps _ => lst = true | _ => True end)
      else not_due s (after_step (r_logic r1) lst)) /\ (s = SNever -> due = false)).
  { pose proof (m_sched _ _ _ _ _ M) as SC. pose proof (m_notdue _ _ _ _ _ M) as ND.
    pose proof (m_cur_st _ _ _ _ _ M) as CS.
    unfold fit_required. destruct s as [k|k|]; simpl in SC.
    - destruct SC as [S1 S2]. simpl. rewrite S1, S2. eexists; split; [reflexivity|]. split; [|discriminate].
      destruct (Nat.leb_spec k (cur_st (r_logic r1) + 1)); simpl in *.
      + split; auto. rewrite app_length; simpl. lia.
      + lia.
    - destruct SC as [S1 S2]. simpl. rewrite S1, S2. eexists; split; [reflexivity|]. split; [|discriminate].
      destruct (Nat.leb_spec k (cur_ep (r_logic r1) + (if lst then 1 else 0))); simpl in *.
      + assert (EE : lst = true) by (destruct lst; auto; lia). rewrite EE in *.
        split; auto. split; [lia|]. split.
        * rewrite RUNF. apply UNF.
        * intros H0. pose proof (m_nthetas _ _ _ _ _ M H0). simpl in H1. lia.
      + lia.
    - simpl. rewrite SC. eexists; split; [reflexivity|]. split; simpl; auto. }
  destruct FR as (due & FR1 & FR2 & FR3). rewrite FR1.
  assert (HS : has_sched (after_step (r_logic r1) lst) s) by (pose proof (m_sched _ _ _ _ _ M) as P; destruct s; exact P).
  assert (HB : has_budget (after_step (r_logic r1) lst) b) by (pose proof (m_budget _ _ _ _ _ M) as P; destruct b; exact P).
  assert (HI : match init with None => True | Some is => has_budget (after_step (r_logic r1) lst) (BEps (length is)) end).
  { pose proof (m_init _ _ _ _ _ M) as P. destruct init; exact P. }
  destruct due.
  - (* fit *)
    destruct FR2 as [FG FL].
    eexists. split; [reflexivity|]. split; [|simpl; rewrite EL, ES; split; [reflexivity|split; [destruct lst; lia|auto]]].
    constructor; simpl;
      rewrite ?samples_app, ?fits_app, ?thetas_app, ?resets_app; simpl; rewrite ?app_nil_r; auto.
    + rewrite map_app, concat_app. simpl. rewrite !app_nil_r, app_assoc, <- (m_samples _ _ _ _ _ M). reflexivity.
    + intros H. rewrite map_app, concat_app. simpl. rewrite !app_nil_r, <- (m_thetas _ _ _ _ _ M H). reflexivity.
    + rewrite app_length, (m_tot_st _ _ _ _ _ M). reflexivity.
    + apply Forall_app. split; [apply M|]. auto.
    + destruct lst; auto. split; auto; lia.
    + eapply tr_snoc; [exact TR2|]. destruct lst; constructor.
    + intros _. split; discriminate.
    + destruct s; auto; [|specialize (FR3 eq_refl); discriminate].
      rewrite FL in UNF. rewrite UNF. reflexivity.
    + destruct s; auto; intros; lia.
    + intros H. destruct s; auto. rewrite FL. reflexivity.
  - eexists. split; [reflexivity|]. split; [|simpl; rewrite EL, ES; split; [reflexivity|split; [destruct lst; lia|auto]]].
    constructor; simpl;
      rewrite ?samples_app, ?fits_app, ?thetas_app, ?resets_app; simpl; rewrite ?app_nil_r; auto.
    + rewrite app_assoc, <- (m_samples _ _ _ _ _ M). reflexivity.
    + apply M.
    + rewrite app_length, (m_tot_st _ _ _ _ _ M). reflexivity.
    + rewrite app_length, (m_cur_st _ _ _ _ _ M). reflexivity.
    + apply M.
    + destruct lst; auto. split; auto; lia.
    + intros _. split; discriminate.
    + pose proof (m_rows_unf _ _ _ _ _ M) as P. destruct s; auto.
    + pose proof (m_rows_len _ _ _ _ _ M) as P.
      assert (forall h, horizon W = Some h -> 1 <= h -> 
        length (rows (r_ds r1)) <= h * cur_ep (r_logic r1) + r_steps r1 ->
        length (rows (r_ds r1) ++ [x]) <= h * (cur_ep (r_logic r1) + (if lst then 1 else 0)) + (if lst then 0 else r_steps r1 + 1)).
      { intros h H1 H2 H3. rewrite app_length; simpl. pose proof (m_steps_h _ _ _ _ _ M h H1 H2). destruct lst; nia. }
      destruct s; auto.
    + intros H. pose proof (m_nthetas _ _ _ _ _ M H) as P. destruct s; auto. rewrite P. destruct lst; lia.
Qed.

Lemma loop_inv : forall fuel cap s b init p0 r,
  sched_pos s -> cap_ok cap s b -> Inv s b init p0 r ->
  match loop W fuel cap init r with
  | Crash => False
  | OutOfFuel => True
  | Done r' => Inv s b init p0 r' /\ move_required (r_logic r') = Some false
  end.
Proof.
  induction fuel as [|fuel IH]; intros cap s b init p0 r Hp Hc I; simpl.
  - destruct (move_required (r_logic r)) as [[|]|] eqn:E; auto.
    pose proof (i_budget _ _ _ _ _ I) as B. unfold move_required in E. destruct b; destruct B as [B1 B2]; rewrite B1, B2 in E; discriminate.
  - destruct (move_required (r_logic r)) as [[|]|] eqn:E; auto.
    + destruct (iterate_inv cap s b init p0 r Hp Hc I E) as (r' & E' & I' & _). rewrite E'.
      apply (IH cap s b init p0 r'); auto.
    + pose proof (i_budget _ _ _ _ _ I) as B. unfold move_required in E. destruct b; destruct B as [B1 B2]; rewrite B1, B2 in E; discriminate.
Qed.

(** A step budget is never overshot. *)
Lemma loop_tot_st : forall fuel cap s n init p0 r r',
  sched_pos s -> cap_ok cap s (BSteps n) -> Inv s (BSteps n) init p0 r -> tot_st (r_logic r) <= n ->
  loop W fuel cap init r = Done r' -> tot_st (r_logic r') = n.
Proof.
  induction fuel as [|fuel IH]; intros cap s n init p0 r r' Hp Hc I Hn HD; simpl in HD;
    pose proof (i_budget _ _ _ _ _ I) as [B1 B2]; unfold move_required in HD; rewrite B1, B2 in HD.
  - destruct (Nat.ltb_spec (tot_st (r_logic r)) n); [discriminate|]. inversion HD; subst. lia.
  - destruct (Nat.ltb_spec (tot_st (r_logic r)) n).
    + assert (Hm : move_required (r_logic r) = Some true).
      { unfold move_required. rewrite B1, B2. apply f_equal. apply Nat.ltb_lt; auto. }
      destruct (iterate_inv cap s (BSteps n) init p0 r Hp Hc I Hm) as (r1 & E' & I' & T & _). rewrite E' in HD.
      eapply (IH cap s n init p0 r1); eauto. lia.
    + inversion HD; subst. lia.
Qed.

(** An episode budget is never overshot, and the run stops at an episode end. *)
Lemma loop_tot_ep : forall fuel cap s n init p0 r r',
  sched_pos s -> cap_ok cap s (BEps n) -> Inv s (BEps n) init p0 r ->
  tot_ep (r_logic r) + (if r_last r then 0 else 1) <= n ->
  loop W fuel cap init r = Done r' -> tot_ep (r_logic r') = n /\ r_last r' = true.
Proof.
  induction fuel as [|fuel IH]; intros cap s n init p0 r r' Hp Hc I Hn HD; simpl in HD;
    pose proof (i_budget _ _ _ _ _ I) as [B1 B2]; unfold move_required in HD; rewrite B1, B2 in HD.
  - destruct (Nat.ltb_spec (tot_ep (r_logic r)) n); [discriminate|]. inversion HD; subst. 
    destruct (r_last r'); split; auto; lia.
  - destruct (Nat.ltb_spec (tot_ep (r_logic r)) n).
    + assert (Hm : move_required (r_logic r) = Some true).
      { unfold move_required. rewrite B1, B2. apply f_equal. apply Nat.ltb_lt; auto. }
      destruct (iterate_inv cap s (BEps n) init p0 r Hp Hc I Hm) as (r1 & E' & I' & T & T2 & _). rewrite E' in HD.
      eapply (IH cap s n init p0 r1); eauto. lia.
    + inversion HD; subst. destruct (r_last r'); split; auto; lia.
Qed.

Lemma loop_mono : forall fuel fuel' cap init r r',
  fuel <= fuel' -> loop W fuel cap init r = Done r' -> loop W fuel' cap init r = Done r'.
Proof.
  induction fuel as [|fuel IH]; intros fuel' cap init r r' Hle H; simpl in H.
  - destruct fuel'; simpl; destruct (move_required (r_logic r)) as [[|]|]; congruence.
  - destruct fuel' as [|fuel']; [lia|]. simpl.
    destruct (move_required (r_logic r)) as [[|]|]; try congruence.
    destruct (iterate W cap init r); [|discriminate]. apply IH; auto. lia.
Qed.

Lemma loop_steps_terminates : forall fuel cap s n init p0 r,
  sched_pos s -> cap_ok cap s (BSteps n) -> Inv s (BSteps n) init p0 r ->
  n <= fuel + tot_st (r_logic r) -> exists r', loop W fuel cap init r = Done r'.
Proof.
  induction fuel as [|fuel IH]; intros cap s n init p0 r Hp Hc I Hn; simpl;
    pose proof (i_budget _ _ _ _ _ I) as [B1 B2]; unfold move_required; rewrite B1, B2.
  - destruct (Nat.ltb_spec (tot_st (r_logic r)) n); [lia|eauto].
  - destruct (Nat.ltb_spec (tot_st (r_logic r)) n); [|eauto].
    assert (Hm : move_required (r_logic r) = Some true).
    { unfold move_required. rewrite B1, B2. apply f_equal. apply Nat.ltb_lt; auto. }
    destruct (iterate_inv cap s (BSteps n) init p0 r Hp Hc I Hm) as (r1 & E' & I' & T & T2 & _). rewrite E'.
    apply (IH cap s n init p0 r1); auto. lia.
Qed.

Lemma loop_eps_terminates : forall h, horizon W = Some h -> forall fuel cap s n init p0 r,
  sched_pos s -> cap_ok cap s (BEps n) -> Inv s (BEps n) init p0 r ->
  h * n <= fuel + h * tot_ep (r_logic r) + (if r_last r then 0 else r_steps r) ->
  exists r', loop W fuel cap init r = Done r'.
Proof.
  intros h Hh. assert (H1h : 1 <= h) by (destruct h; [congruence|lia]).
  induction fuel as [|fuel IH]; intros cap s n init p0 r Hp Hc I Hn; simpl;
    pose proof (i_budget _ _ _ _ _ I) as [B1 B2]; unfold move_required; rewrite B1, B2.
  - destruct (Nat.ltb_spec (tot_ep (r_logic r)) n); [|eauto]. exfalso.
    assert (h * tot_ep (r_logic r) + h <= h * n) by nia.
    destruct (r_last r) eqn:RL; [lia|]. pose proof (i_steps_h _ _ _ _ _ I h Hh RL). lia.
  - destruct (Nat.ltb_spec (tot_ep (r_logic r)) n); [|eauto].
    assert (Hm : move_required (r_logic r) = Some true).
    { unfold move_required. rewrite B1, B2. apply f_equal. apply Nat.ltb_lt; auto. }
    destruct (iterate_inv cap s (BEps n) init p0 r Hp Hc I Hm) as (r1 & E' & I' & T & T2 & T3). rewrite E'.
    apply (IH cap s n init p0 r1); auto.
    assert (h * tot_ep (r_logic r) + h <= h * n) by nia.
    destruct (r_last r1) eqn:RL1.
    + assert (EE : tot_ep (r_logic r1) = tot_ep (r_logic r) + 1) by lia. rewrite EE.
      destruct (r_last r) eqn:RL; [nia|]. pose proof (i_steps_h _ _ _ _ _ I h Hh RL). nia.
    + specialize (T3 eq_refl). assert (EE : tot_ep (r_logic r1) = tot_ep (r_logic r)) by lia. rewrite EE, T3. lia.
Qed.

Lemma start_inv : forall s b init e a l,
  has_sched l s -> has_budget l b -> sched_pos s ->
  tot_ep l = 0 -> tot_st l = 0 -> cur_ep l = 0 -> cur_st l = 0 ->
  match init with None => True | Some is => has_budget l (BEps (length is)) end ->
  Inv s b init (Between e a) (start e a l).
Proof.
  intros s b init e a l Hs Hb Hp T1 T2 T3 T4 Hi. constructor; simpl; auto.
  - destruct s; simpl in *; auto; lia.
  - constructor.
  - intros HH; discriminate HH.
  - constructor.
  - intros hh HH1 HH2; discriminate HH2.
  - destruct s; auto.
  - destruct s; auto; intros; lia.
  - intros. destruct s; auto. rewrite T3. reflexivity.
  - rewrite T1. destruct init; reflexivity.
Qed.

Definition budget_of (ns ne : option nat) (init : option (list Ob)) : option budget :=
  match ns, ne, init with
  | Some n, None, None => Some (BSteps n)
  | None, Some n, None => Some (BEps n)
  | None, None, Some is => Some (BEps (length is))
  | _, _, _ => None
  end.
Definition sched_of (spf epf : option nat) : option sched :=
  match spf, epf with
  | Some k, None => Some (SSteps k)
  | None, Some k => Some (SEps k)
  | _, _ => None
  end.

Lemma learn_unfold : forall e a l ns ne spf epf s b,
  sched_of spf epf = Some s -> budget_of ns ne None = Some b -> sched_pos s ->
  (match s with SEps _ => horizon W <> None | _ => True end) ->
  exists cap l2, cap_ok cap s b /\ Inv s b None (Between e a) (start e a l2) /\
   tot_st l2 = 0 /\ tot_ep l2 = 0 /\
   forall fuel, learn W fuel e a l ns ne spf epf = loop W fuel cap None (start e a l2).
Proof.
  intros e a l ns ne spf epf s b Hs Hb Hp Hinf.
  destruct spf as [k|], epf as [k'|]; simpl in Hs; try discriminate; inversion Hs; subst s; clear Hs.
  - destruct ns as [n|], ne as [n'|]; simpl in Hb; try discriminate; inversion Hb; subst b; clear Hb;
      unfold learn; simpl; eexists; eexists; (split; [|split; [|split; [|split; [|intros; reflexivity]]]]); simpl; auto;
      apply start_inv; simpl; auto.
  - destruct (horizon W) as [h|] eqn:EH; [|congruence].
    assert (1 <= h) by (destruct h; [congruence|lia]).
    destruct ns as [n|], ne as [n'|]; simpl in Hb; try discriminate; inversion Hb; subst b; clear Hb;
      unfold learn, capacity; rewrite EH; simpl; eexists; eexists; (split; [|split; [|split; [|split; [|intros; reflexivity]]]]); simpl; auto;
      try (exists h; auto); apply start_inv; simpl; auto.
Qed.

Lemma evaluate_unfold : forall e a l init ns ne b,
  budget_of ns ne init = Some b ->
  (match b with BEps _ => horizon W <> None | _ => True end) ->
  exists cap l2, cap_ok cap SNever b /\ Inv SNever b init (Between e a) (start e a l2) /\
   tot_st l2 = 0 /\ tot_ep l2 = 0 /\
   forall fuel, evaluate W fuel e a l init ns ne = loop W fuel cap init (start e a l2).
Proof.
  intros e a l init ns ne b Hb Hinf.
  destruct ns as [n|], ne as [n'|], init as [is|]; simpl in Hb; try discriminate; inversion Hb; subst b; clear Hb;
    try (destruct (horizon W) as [h|] eqn:EH; [|congruence]);
    try assert (1 <= h) by (destruct h; [congruence|lia]);
    unfold evaluate, capacity; rewrite ?EH; simpl; eexists; eexists; (split; [|split; [|split; [|split; [|intros; reflexivity]]]]); simpl; auto;
      try (exists h; auto); apply start_inv; simpl; auto.
Qed.

End Proofs.

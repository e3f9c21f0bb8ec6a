(** C104: what DDPG, TD3 and SAC agents trained by [Core] learn from, over whole experiments. *)
From Coq Require Import List Arith Lia Bool Reals Lra Permutation.
From Verif Require Import Common ReplayModel ReplaySpec ReplayProofs DqnModel SacModel CoreReplayModel.
From Verif Require CoreModel CoreSpec CoreProofs CoreProps CoreDqnProps.
Import ListNotations.

(** ** Experiments: any sequence of learn and evaluate calls *)
Section Experiment.
Context {En Ag Ob Ac Rw Ps Th : Type}.
Variable W : CoreModel.world En Ag Ob Ac Rw Ps Th.

(** [experiment e0 a0 ds xs e a]: from environment [e0] and agent [a0], some sequence of learn and
    evaluate calls returned; the agent was given the datasets [ds], the learn calls made the
    transitions [xs] in the environment, and [e], [a] are left. *)
Inductive experiment (e0 : En) (a0 : Ag) : list (CoreModel.dataset Ob Ac Rw Ps Th) -> list (CoreModel.sample Ob Ac Rw Ps) -> En -> Ag -> Prop :=
| ex_start : experiment e0 a0 [] [] e0 a0
| ex_learn : forall ds xs e a fuel l ns ne spf epf r, experiment e0 a0 ds xs e a ->
    (spf = None \/ exists k, spf = Some k /\ 1 <= k) -> (epf = None \/ exists k, epf = Some k /\ 1 <= k) ->
    CoreModel.learn W fuel e a l ns ne spf epf = CoreModel.Done r ->
    experiment e0 a0 (ds ++ CoreModel.fits_of (CoreModel.r_log r)) (xs ++ CoreModel.samples_of (CoreModel.r_log r))
      (CoreModel.r_env r) (CoreModel.r_ag r)
| ex_evaluate : forall ds xs e a fuel l init ns ne r, experiment e0 a0 ds xs e a ->
    CoreModel.evaluate W fuel e a l init ns ne = CoreModel.Done r ->
    experiment e0 a0 ds xs (CoreModel.r_env r) (CoreModel.r_ag r).

(** [subseq u v]: u is v without some of its entries. *)
Inductive subseq {X} : list X -> list X -> Prop :=
| sub_nil : forall v, subseq [] v
| sub_keep : forall x u v, subseq u v -> subseq (x :: u) (x :: v)
| sub_drop : forall x u v, subseq u v -> subseq u (x :: v).

Lemma subseq_refl : forall X (u : list X), subseq u u.
Proof. induction u; constructor; auto. Qed.
Lemma subseq_app : forall X (u v u' v' : list X), subseq u v -> subseq u' v' -> subseq (u ++ u') (v ++ v').
Proof.
  intros X u v u' v' H H'. induction H; cbn [app].
  - induction v; [exact H'|]. apply sub_drop. exact IHv.
  - apply sub_keep. exact IHsubseq.
  - apply sub_drop. exact IHsubseq.
Qed.
Lemma subseq_prefix : forall X (u v : list X), subseq u (u ++ v).
Proof. intros X u v. induction u; cbn [app]; constructor; auto. Qed.

Hypothesis Hhor : CoreModel.horizon W <> Some 0.

Lemma eval_agent : forall fuel e a l init ns ne r,
  CoreModel.evaluate W fuel e a l init ns ne = CoreModel.Done r ->
  CoreModel.fits_of (CoreModel.r_log r) = [] /\
  exists p, CoreSpec.trace W (CoreSpec.Between e a) (CoreModel.r_log r) p /\ CoreDqnProps.agent_of p = CoreModel.r_ag r.
Proof.
  intros fuel e a l init ns ne r HD.
  assert (exists b, CoreProofs.budget_of ns ne init = Some b /\
     match b with CoreProofs.BEps _ => CoreModel.horizon W <> None | _ => True end) as (b & B & Hi).
  { unfold CoreModel.evaluate, CoreModel.capacity in HD. destruct (CoreModel.horizon W) eqn:EH;
    destruct ns, ne, init; simpl in HD; try discriminate; eexists; (split; [reflexivity|]); simpl; auto; congruence. }
  destruct (CoreProofs.evaluate_unfold W Hhor e a l init ns ne b) as (cap & l2 & C & I & T & T2 & U); auto.
  rewrite U in HD.
  pose proof (CoreProofs.loop_inv W Hhor fuel cap CoreProofs.SNever b init (CoreSpec.Between e a) _ Logic.I C I) as Q. rewrite HD in Q. destruct Q as [Q _].
  split; [exact (CoreProofs.i_rows_unf _ _ _ _ _ _ Q)|].
  eexists. split; [apply Q|]. destruct (CoreModel.r_last r) eqn:RL; [reflexivity|].
  destruct (CoreProofs.i_some _ _ _ _ _ _ Q RL) as [N1 N2].
  destruct (CoreModel.r_obs r); [|congruence]. destruct (CoreModel.r_ps r); [|congruence]. reflexivity.
Qed.

(** The fits of an experiment get its transitions in order, each at most once. *)
Lemma experiment_subseq : forall e0 a0 ds xs e a, experiment e0 a0 ds xs e a -> subseq (concat (map CoreModel.rows ds)) xs.
Proof.
  intros e0 a0 ds xs e a H. induction H; [constructor| |exact IHexperiment].
  rewrite map_app, concat_app. apply subseq_app; [exact IHexperiment|].
  destruct (CoreProps.core_learn_fits_partition_samples W Hhor fuel e a l ns ne spf epf r) as (PA & _); auto.
  rewrite PA. apply subseq_prefix.
Qed.

Lemma experiment_inv : forall (P : list (CoreModel.dataset Ob Ac Rw Ps Th) -> Ag -> Prop) e0 a0,
  P [] a0 ->
  (forall ds a o ps, P ds a -> P ds (fst (fst (CoreModel.draw W a o ps)))) ->
  (forall ds a o, P ds a -> P ds (fst (fst (CoreModel.ep_start W a o)))) ->
  (forall ds a o, P ds a -> P ds (fst (CoreModel.prep W a o))) ->
  (forall ds a, P ds a -> P ds (CoreModel.clear_next W a)) ->
  (forall ds a d, P ds a -> P (ds ++ [d]) (CoreModel.fit W a d)) ->
  forall ds xs e a, experiment e0 a0 ds xs e a -> P ds a.
Proof.
  intros P e0 a0 H0 HD HE HP HC HF ds xs e a H. induction H; [exact H0| |].
  - destruct (CoreDqnProps.learn_agent W Hhor fuel e a l ns ne spf epf r) as (p & T & <-); auto.
    apply (CoreDqnProps.trace_agent W (fun ds' => P (ds ++ ds')) e a) with (log := CoreModel.r_log r); auto.
    + rewrite app_nil_r. exact IHexperiment.
    + intros ds' a' d H'. rewrite app_assoc. apply HF. exact H'.
  - destruct (eval_agent fuel e a l init ns ne r) as (F & p & T & <-); auto.
    replace ds with (ds ++ CoreModel.fits_of (CoreModel.r_log r)) by (rewrite F; apply app_nil_r).
    apply (CoreDqnProps.trace_agent W (fun ds' => P (ds ++ ds')) e a) with (log := CoreModel.r_log r); auto.
    + rewrite app_nil_r. exact IHexperiment.
    + intros ds' a' d H'. rewrite app_assoc. apply HF. exact H'.
Qed.
End Experiment.

(** ** Agents with a replay memory *)
Section Replay.
Context {En Ob Ac L P : Type}.
Variable (learn : L -> nat -> nat -> list (sample Ob Ac unit) -> L).
Variable (tick : L -> L).
Variable (pol : L -> P -> Ob -> P * Ac).
Variable (pstart : L -> P -> Ob -> P).
Variable (drawn : nat -> nat -> list nat).
Variable (ini mx bs : nat) (s0 : L) (p0 : P).
Hypothesis DR : forall i len, 1 <= len -> length (drawn i len) = bs /\ Forall (fun j => j < len) (drawn i len).
Hypothesis M1 : 1 <= mx.

(** the transitions that fit number i can use *)
Definition recent (ds : list (CoreModel.dataset Ob Ac R unit unit)) (i : nat) : list (CoreModel.sample Ob Ac R unit) :=
  lastn mx (concat (map CoreModel.rows (firstn (i + 1) ds))).

(** What fit number i must do.  The rows are those at the drawn positions of some arrangement of
    the recent transitions, so uniform positions give each of them the same chance. *)
Definition fit_ok (ds : list (CoreModel.dataset Ob Ac R unit unit)) (hist : list L) (i : nat) : Prop :=
  let R := recent ds i in
  if ini <? length R
  then exists held rows, Permutation held R /\ map Some rows = map (nth_error held) (drawn i (length R)) /\
         nth (i + 1) hist s0 = tick (learn (nth i hist s0) i (length R) (map row_of rows))
  else nth (i + 1) hist s0 = tick (nth i hist s0).

Definition RInv (ds : list (CoreModel.dataset Ob Ac R unit unit)) (a : ragent (L:=L) (P:=P)) : Prop :=
  r_ok a = true /\ r_fits a = length ds /\ length (r_hist a) = S (length ds) /\
  wf _ _ _ (r_mem a) /\ m_max (r_mem a) = mx /\ m_initial (r_mem a) = ini /\
  chronological (r_mem a) = lastn mx (map row_of (concat (map CoreModel.rows ds))) /\
  r_learner a = nth (length ds) (r_hist a) s0 /\
  forall i, i < length ds -> fit_ok ds (r_hist a) i.

Lemma fit_ok_later : forall ds d h s i, i < length ds -> length h = S (length ds) ->
  fit_ok ds h i -> fit_ok (ds ++ [d]) (h ++ [s]) i.
Proof.
  intros ds d h s i Hi Lh. unfold fit_ok, recent. rewrite !(app_nth1 h) by lia.
  replace (firstn (i + 1) (ds ++ [d])) with (firstn (i + 1) ds); [auto|].
  rewrite firstn_app. replace (i + 1 - length ds) with 0 by lia. cbn [firstn]. rewrite app_nil_r. reflexivity.
Qed.

Lemma lastn_map : forall A B (f : A -> B) n l, lastn n (map f l) = map f (lastn n l).
Proof. intros. unfold lastn. rewrite map_length, skipn_map. reflexivity. Qed.

Lemma chron_perm : forall (m : memory Ob Ac unit), Permutation (m_data m) (chronological m).
Proof.
  intros m. unfold chronological. destruct (m_full m); [|apply Permutation_refl].
  rewrite <- (firstn_skipn (m_idx m)) at 1. apply Permutation_app_comm.
Qed.

Lemma get_rows : forall (m : memory Ob Ac unit) held idxs, m_data m = map row_of held ->
  Forall (fun i => i < length held) idxs ->
  exists rows, get m idxs = Some (map row_of rows) /\ map Some rows = map (nth_error held) idxs.
Proof.
  intros m held idxs E. induction idxs as [|i idxs IH]; intros F; [exists []; split; reflexivity|].
  inversion F; subst. destruct (IH H2) as (rows & G & M).
  destruct (nth_error held i) as [x|] eqn:N; [|apply nth_error_None in N; lia].
  exists (x :: rows). unfold get in *. cbn [fold_right map]. rewrite E, (map_nth_error _ _ _ N). rewrite E in G. rewrite G, M, N.
  split; reflexivity.
Qed.

Lemma rinv_fit : forall ds a d, RInv ds a -> RInv (ds ++ [d]) (replay_fit learn tick drawn a d).
Proof.
  intros ds a d (A1 & A2 & A3 & A4 & A5 & A6 & A7 & A8 & A9).
  destruct (add_spec _ _ _ (r_mem a) (map row_of (CoreModel.rows d)) 1 1 A4 (Nat.le_refl 1)) as (m & rw & AD & WF & MM & MI & MC).
  rewrite nstep_samples_one, A7, A5 in MC.
  assert (MC' : chronological m = lastn mx (map row_of (concat (map CoreModel.rows (ds ++ [d]))))).
  { rewrite MC, map_app, concat_app. cbn [map concat]. rewrite app_nil_r, map_app. apply lastn_app. }
  clear MC. rename MC' into MC. rewrite lastn_map in MC.
  set (i := length ds) in *.
  assert (LD : length (ds ++ [d]) = i + 1) by (rewrite app_length; reflexivity).
  assert (RE : recent (ds ++ [d]) i = lastn mx (concat (map CoreModel.rows (ds ++ [d])))).
  { unfold recent. rewrite <- LD, firstn_all. reflexivity. }
  rewrite <- RE in MC. set (rc := recent (ds ++ [d]) i) in *.
  assert (SZ : size m = length rc) by (rewrite <- (chron_length _ _ _ m WF), MC, map_length; reflexivity).
  unfold replay_fit. rewrite AD. unfold initialized. rewrite MI, A6, SZ.
  assert (DONE : forall s, fit_ok (ds ++ [d]) (r_hist a ++ [tick s]) i ->
     RInv (ds ++ [d]) (mkRA m (tick s) (r_pol a) (S (r_fits a)) (r_ok a) (r_hist a ++ [tick s]))).
  { intros s FO. unfold RInv. cbn [r_ok r_fits r_hist r_mem r_learner]. rewrite LD.
    split; [exact A1|]. split; [lia|]. split; [rewrite app_length, A3; cbn [length]; lia|].
    split; [exact WF|]. split; [congruence|]. split; [congruence|].
    split; [rewrite MC, RE, lastn_map; reflexivity|].
    split; [rewrite app_nth2 by lia; replace (i + 1 - length (r_hist a)) with 0 by lia; reflexivity|].
    intros j Hj. destruct (Nat.eq_dec j i) as [->|NE]; [exact FO|].
    apply fit_ok_later; [fold i; lia|exact A3|apply A9; lia]. }
  destruct (ini <? length rc) eqn:INI.
  - destruct (Permutation_map_inv row_of rc (l1 := m_data m)) as (held & HE & HP).
    { rewrite <- MC. apply chron_perm. }
    apply Permutation_sym in HP.
    assert (LM : length (m_data m) = length rc) by (rewrite HE, map_length; apply Permutation_length; exact HP).
    rewrite LM, A2. apply Nat.ltb_lt in INI. destruct (DR i (length rc) ltac:(lia)) as [DL DF].
    destruct (get_rows m held (drawn i (length rc)) HE) as (rows & G & GM).
    { rewrite (Permutation_length HP). exact DF. }
    rewrite G. rewrite <- A2. apply DONE. unfold fit_ok. fold rc. apply Nat.ltb_lt in INI. rewrite INI.
    exists held, rows. split; [exact HP|]. split; [exact GM|].
    rewrite app_nth2, (app_nth1 (r_hist a)) by lia. replace (i + 1 - length (r_hist a)) with 0 by lia. cbn [nth].
    rewrite A2, A8. reflexivity.
  - apply DONE. unfold fit_ok. fold rc. rewrite INI.
    rewrite app_nth2, (app_nth1 (r_hist a)) by lia. replace (i + 1 - length (r_hist a)) with 0 by lia. cbn [nth]. rewrite A8. reflexivity.
Qed.

Notation W := (replay_world learn tick pol pstart drawn).

(** In every experiment no fit raises, and every fit does what it must. *)
Theorem replay_agent_experiment : forall ereset estep hor (e0 : En) ds xs e a, hor <> Some 0 ->
  experiment (W ereset estep hor) e0 (replay_init ini mx s0 p0) ds xs e a ->
  r_ok a = true /\ subseq (concat (map CoreModel.rows ds)) xs /\
  length (r_hist a) = S (length ds) /\ nth 0 (r_hist a) s0 = s0 /\ r_learner a = nth (length ds) (r_hist a) s0 /\
  forall i, i < length ds -> fit_ok ds (r_hist a) i.
Proof.
  intros ereset estep hor e0 ds xs e a Hh EX.
  assert (HH : CoreModel.horizon (W ereset estep hor) <> Some 0) by exact Hh.
  pose proof (experiment_subseq _ HH _ _ _ _ _ _ EX) as SS.
  assert (D : RInv ds a /\ nth 0 (r_hist a) s0 = s0).
  { apply (experiment_inv (W ereset estep hor) HH (fun ds a => RInv ds a /\ nth 0 (r_hist a) s0 = s0) e0 (replay_init ini mx s0 p0)) with (xs := xs) (e := e).
    - split; [|reflexivity]. unfold RInv, replay_init. cbn. repeat split; auto; lia.
    - intros ds' a' o ps H. cbn [CoreModel.draw replay_world]. unfold replay_draw. destruct (pol (r_learner a') (r_pol a') o). exact H.
    - intros ds' a' o H. exact H.
    - intros ds' a' o H. exact H.
    - intros ds' a' H. exact H.
    - intros ds' a' d [H H0]. split; [apply rinv_fit; exact H|].
      destruct (rinv_fit ds' a' d H) as (OK & _). destruct H as (_ & _ & LH & _). revert OK. cbn [CoreModel.fit replay_world].
      unfold replay_fit. destruct (add _ _ _ _) as [[m ?]|]; [|discriminate]. destruct (initialized m); [destruct (get _ _)|];
      cbn [r_ok r_hist]; try discriminate; intros _; rewrite app_nth1 by lia; exact H0.
    - exact EX. }
  destruct D as [(A1 & A2 & A3 & A4 & A5 & A6 & A7 & A8 & A9) Z]. repeat split; auto.
Qed.
End Replay.

(** ** Deep actor-critic agents *)
Section Deep.
Context {En Ob P : Type}.
Notation Ac := (list R).
Notation trans := (CoreModel.sample Ob Ac R unit).
Notation rowsT := (list (sample Ob Ac unit)).
Variable (gamma : R).
Variable (train : list (list R) -> list (Ob * Ac * R) -> list (list R)).
Variable (critic : list R -> Ob -> Ac -> R).
Variable (drawn : nat -> nat -> list nat).
Variable (ini mx bs : nat) (p0 : P).
Hypothesis DR : forall i len, 1 <= len -> length (drawn i len) = bs /\ Forall (fun j => j < len) (drawn i len).
Hypothesis M1 : 1 <= mx.
Variables (ereset : En -> option Ob -> En * Ob) (estep : En -> Ac -> En * Ob * R * bool) (hor : option nat).
Hypothesis Hh : hor <> Some 0.

(** [b] is training data made from the transitions [xs]: row j is state and action of x_j with
    the label reward + gamma v, where v is 0 if x_j is absorbing, and [value j x_j v] otherwise. *)
Definition trained_on (value : nat -> trans -> R -> Prop) (xs : list trans) (b : list (Ob * Ac * R)) : Prop :=
  length b = length xs /\
  forall j x row, nth_error xs j = Some x -> nth_error b j = Some row ->
    fst (fst row) = CoreModel.state x /\ snd (fst row) = CoreModel.action x /\
    exists v, snd row = (CoreModel.reward x + gamma * v)%R /\
      (CoreModel.absorbing x = true -> v = 0%R) /\ (CoreModel.absorbing x = false -> value j x v).

Lemma labelled_trained : forall (value : nat -> trans -> R -> Prop) (target : nat -> sample Ob Ac unit -> R) (xs : list trans),
  (forall j x, exists v, target j (row_of x) = (CoreModel.reward x + gamma * v)%R /\
      (CoreModel.absorbing x = true -> v = 0%R) /\ (CoreModel.absorbing x = false -> value j x v)) ->
  trained_on value xs (labelled target (map row_of xs)).
Proof.
  intros value target xs H. unfold labelled, trained_on. rewrite !map_length, combine_length, seq_length, map_length, Nat.min_id. split; [reflexivity|].
  assert (G : forall xs k j x row, nth_error xs j = Some x ->
    nth_error (map (fun p : nat * sample Ob Ac unit => (s_state (snd p), s_action (snd p), target (fst p) (snd p)))
      (combine (seq k (length xs)) (map row_of xs))) j = Some row ->
    row = (CoreModel.state x, CoreModel.action x, target (k + j) (row_of x))).
  { clear. induction xs as [|y xs IH]; intros k j x row N1 N2; [destruct j; discriminate|].
    cbn [length seq map combine] in N2. destruct j as [|j]; cbn [nth_error] in *.
    - injection N1 as <-. injection N2 as <-. rewrite Nat.add_0_r. reflexivity.
    - rewrite (IH _ _ _ _ N1 N2). replace (S k + j) with (k + S j) by lia. reflexivity. }
  intros j x row N1 N2. rewrite (G xs 0 j x row N1 N2). cbn [fst snd]. split; [reflexivity|]. split; [reflexivity|]. apply H.
Qed.

(** the rows of a batch are recent transitions *)
Lemma rows_recent : forall (held rc rows : list trans) i, Permutation held rc -> 1 <= length rc ->
  map Some rows = map (nth_error held) (drawn i (length rc)) -> length rows = bs /\ Forall (fun x => In x rc) rows.
Proof.
  intros held rc rows i HP L1 E. destruct (DR i (length rc) L1) as [DL _]. split.
  - rewrite <- (map_length Some), E, map_length. exact DL.
  - apply Forall_forall. intros x Hx. apply (Permutation_in _ HP).
    assert (In (Some x) (map Some rows)) by (apply in_map; exact Hx). rewrite E in H. apply in_map_iff in H as (j & N & _).
    eapply nth_error_In. exact N.
Qed.

Lemma zero_flag : forall v, (v * (1 - flag true) = 0)%R.
Proof. intros. unfold flag. ring. Qed.
Lemma one_flag : forall v, (v * (1 - flag false) = v)%R.
Proof. intros. unfold flag. ring. Qed.

(** the soft update of the target critics *)
Definition moved (tau : nat -> R) (k : nat) (online target target' : list (list R)) : Prop :=
  forall i o t, nth_error online i = Some o -> nth_error target i = Some t ->
    nth_error target' i = Some (map (fun ot => tau (k + i)%nat * fst ot + (1 - tau (k + i)%nat) * snd ot)%R (combine o t)).

Lemma update_target_moved : forall tau online target k, moved tau k online target (update_target tau k online target).
Proof.
  intros tau online. unfold moved. induction online as [|o' online IH]; intros target k i o t N1 N2; [destruct i; discriminate|].
  destruct target as [|t' target]; [destruct i; discriminate|]. destruct i as [|i]; cbn [nth_error update_target] in *.
  - injection N1 as <-. injection N2 as <-. rewrite Nat.add_0_r. reflexivity.
  - rewrite (IH target (S k) i o t N1 N2). replace (S k + i) with (k + S i) by lia. reflexivity.
Qed.

Section DdpgTd3.
Context {A : Type}.
Variable (actor : A -> Ob -> Ac).
Variable (actor_step : A -> list (list R) -> rowsT -> A).
Variable (blend : nat -> A -> A -> A).
Variables (delay : nat) (tau : nat -> R) (pi0 : A) (q0 : list (list R)).
Variable (pol : @ddpg A -> P -> Ob -> P * Ac) (pstart : @ddpg A -> P -> Ob -> P).
Notation st0 := (mkD pi0 pi0 q0 q0 0 0).

(** How many of the first i fits had more than [ini] transitions. *)
Definition trained_fits (ds : list (CoreModel.dataset Ob Ac R unit unit)) (i : nat) : nat :=
  length (filter (fun j => ini <? length (recent mx ds j)) (seq 0 i)).

(** What a fit does to actor, critics and target networks. *)
Definition dpg_step (value : nat -> @ddpg A -> nat -> trans -> R -> Prop) (ds : list (CoreModel.dataset Ob Ac R unit unit)) (i : nat) (st st' : @ddpg A) : Prop :=
  if ini <? length (recent mx ds i)
  then exists xs b, length xs = bs /\ Forall (fun x => In x (recent mx ds i)) xs /\ trained_on (value i st) xs b /\
         d_q st' = train (d_q st) b /\
         d_pi st' = (if trained_fits ds i mod delay =? 0 then actor_step (d_pi st) (d_q st') (map row_of xs) else d_pi st) /\
         (exists k, d_tpi st' = blend k (d_pi st') (d_tpi st)) /\ (exists k, moved tau k (d_q st') (d_tq st) (d_tq st'))
  else st' = st.

Lemma trained_fits_S : forall ds i, trained_fits ds (S i) = trained_fits ds i + (if ini <? length (recent mx ds i) then 1 else 0).
Proof.
  intros ds i. unfold trained_fits. rewrite seq_S, filter_app, app_length. cbn [filter Nat.add]. destruct (ini <? _); reflexivity.
Qed.

(** learners built on DDPG.fit count the trained fits *)
Lemma dpg_count : forall (cf : nat -> list (list R) -> A * list (list R) -> rowsT -> list (list R)) ds hist,
  nth 0 hist st0 = st0 ->
  (forall i, i < length ds -> fit_ok (fun st i _ b => ddpg_fit actor_step (cf i) blend delay tau st (true, b)) (fun s => s) drawn ini mx st0 ds hist i) ->
  forall i, i <= length ds -> d_count (nth i hist st0) = trained_fits ds i.
Proof.
  intros cf ds hist H0 H. induction i as [|i IH]; intros Hi; [rewrite H0; reflexivity|].
  rewrite trained_fits_S, <- IH by lia. specialize (H i ltac:(lia)). unfold fit_ok in H.
  replace (i + 1) with (S i) in H by lia. destruct (ini <? _).
  - destruct H as (held & rows & _ & _ & ->). cbn [ddpg_fit d_count]. lia.
  - rewrite H. lia.
Qed.

Lemma dpg_steps : forall (value : nat -> @ddpg A -> nat -> trans -> R -> Prop) (cf : nat -> list (list R) -> A * list (list R) -> rowsT -> list (list R)) ds hist,
  (forall st i rows, exists b, trained_on (value i st) rows b /\ cf i (d_q st) (d_tpi st, d_tq st) (map row_of rows) = train (d_q st) b) ->
  nth 0 hist st0 = st0 ->
  (forall i, i < length ds -> fit_ok (fun st i _ b => ddpg_fit actor_step (cf i) blend delay tau st (true, b)) (fun s => s) drawn ini mx st0 ds hist i) ->
  forall i, i < length ds -> dpg_step value ds i (nth i hist st0) (nth (i + 1) hist st0).
Proof.
  intros value cf ds hist C H0 H i Hi. pose proof (dpg_count cf ds hist H0 H i ltac:(lia)) as CT.
  specialize (H i Hi). unfold fit_ok in H. unfold dpg_step. destruct (ini <? length (recent mx ds i)) eqn:INI; [|exact H].
  destruct H as (held & rows & HP & HR & ->). apply Nat.ltb_lt in INI.
  destruct (rows_recent held _ rows i HP ltac:(lia) HR) as [RL RR].
  destruct (C (nth i hist st0) i rows) as (b & TB & CB).
  exists rows, b. split; [exact RL|]. split; [exact RR|]. split; [exact TB|]. cbn [ddpg_fit d_q d_pi d_tpi d_tq]. rewrite CT.
  split; [exact CB|]. split; [reflexivity|]. split; [eexists; reflexivity|]. eexists. apply update_target_moved.
Qed.

(** DDPG: the label uses the target critic at the action of the target actor. *)
Definition ddpg_value (st : @ddpg A) (j : nat) (x : trans) (v : R) : Prop :=
  v = critic (nth 0 (d_tq st) []) (CoreModel.next_state x) (actor (d_tpi st) (CoreModel.next_state x)).

Theorem ddpg_learns_from_run : forall (e0 : En) ds xs e a,
  experiment (replay_world (ddpg_learn gamma train critic actor actor_step blend delay tau) (fun s => s) pol pstart drawn ereset estep hor)
    e0 (replay_init ini mx st0 p0) ds xs e a ->
  r_ok a = true /\ subseq (concat (map CoreModel.rows ds)) xs /\ length (r_hist a) = S (length ds) /\
  nth 0 (r_hist a) st0 = st0 /\ r_learner a = nth (length ds) (r_hist a) st0 /\
  forall i, i < length ds -> dpg_step (fun _ => ddpg_value) ds i (nth i (r_hist a) st0) (nth (i + 1) (r_hist a) st0).
Proof.
  intros e0 ds xs e a EX.
  destruct (replay_agent_experiment _ _ pol pstart drawn ini mx bs st0 p0 DR M1 ereset estep hor e0 ds xs e a Hh EX) as (OK & SS & LH & H0 & HL & HF).
  repeat (split; [assumption|]). apply (dpg_steps (fun _ => ddpg_value) (fun _ => ddpg_critic_fit gamma train critic actor)); auto.
  intros st i rows. exists (labelled (fun _ x => td_target (s_reward x) gamma (ddpg_next_q critic actor (d_tpi st, d_tq st) x)) (map row_of rows)).
  split; [|reflexivity]. apply labelled_trained. intros j x. exists (ddpg_next_q critic actor (d_tpi st, d_tq st) (row_of x)).
  split; [reflexivity|]. unfold ddpg_next_q, ddpg_value. cbn [row_of s_next s_absorbing fst snd].
  split; intros ->; [apply zero_flag|apply one_flag].
Qed.

(** TD3: the smaller of two target critics at the target action plus clipped noise, clipped to the
    action space. *)
Variable (noise : nat -> nat -> list R).
Variables (noise_clip : R) (low high : list R).
Definition td3_value (i : nat) (st : @ddpg A) (j : nat) (x : trans) (v : R) : Prop :=
  let s := CoreModel.next_state x in
  let a := map (fun z => Rmin (Rmax (fst (fst z) + Rmin (Rmax (snd (fst z)) (- noise_clip)) noise_clip) (fst (snd z))) (snd (snd z)))%R
             (combine (combine (actor (d_tpi st) s) (noise i j)) (combine low high)) in
  v = Rmin (critic (nth 0 (d_tq st) []) s a) (critic (nth 1 (d_tq st) []) s a).

Theorem td3_learns_from_run : forall (e0 : En) ds xs e a,
  experiment (replay_world (td3_learn gamma train critic actor actor_step blend delay tau noise noise_clip low high) (fun s => s) pol pstart drawn ereset estep hor)
    e0 (replay_init ini mx st0 p0) ds xs e a ->
  r_ok a = true /\ subseq (concat (map CoreModel.rows ds)) xs /\ length (r_hist a) = S (length ds) /\
  nth 0 (r_hist a) st0 = st0 /\ r_learner a = nth (length ds) (r_hist a) st0 /\
  forall i, i < length ds -> dpg_step td3_value ds i (nth i (r_hist a) st0) (nth (i + 1) (r_hist a) st0).
Proof.
  intros e0 ds xs e a EX.
  destruct (replay_agent_experiment _ _ pol pstart drawn ini mx bs st0 p0 DR M1 ereset estep hor e0 ds xs e a Hh EX) as (OK & SS & LH & H0 & HL & HF).
  repeat (split; [assumption|]).
  apply (dpg_steps td3_value (fun i => td3_critic_fit gamma train critic actor noise noise_clip low high i)); auto.
  intros st i rows. unfold td3_critic_fit. eexists. split; [|reflexivity]. apply labelled_trained. intros j x. eexists.
  split; [reflexivity|]. unfold td3_value, td3_next_q, td3_action, clip. cbn [row_of s_next s_absorbing fst snd]. cbv zeta.
  split; intros ->; [apply zero_flag|apply one_flag].
Qed.
End DdpgTd3.

Section SacRun.
Context {Pi : Type}.
Variable (sampled : Pi -> nat -> nat -> Ob -> Ac * R).
Variable (log_probs : Pi -> rowsT -> list R).
Variable (actor_step : Pi -> R -> list (list R) -> rowsT -> Pi).
Variable (alpha_step : R -> (R -> R) -> R).
Variables (warmup : nat) (log_form : bool) (target_entropy : R) (tau : nat -> R) (pi0 : Pi) (q0 : list (list R)).
Variable (pol : @sac Pi -> P -> Ob -> P * Ac) (pstart : @sac Pi -> P -> Ob -> P).
Notation st0 := (mkS pi0 0%R q0 q0 0).

(** The label uses the smaller target critic at an action sampled from the policy that the fit has
    just updated, minus the entropy coefficient times its log-probability. *)
Definition sac_value (i : nat) (st st' : @sac Pi) (j : nat) (x : trans) (v : R) : Prop :=
  let s := CoreModel.next_state x in
  let (a, lp) := sampled (s_pi st') i j s in
  v = (Rmin (critic (nth 0 (s_tq st) []) s a) (critic (nth 1 (s_tq st) []) s a) - exp (s_la st') * lp)%R.

(** What a fit does: critics on labelled recent transitions; actor and entropy coefficient only
    when more than [warmup] transitions are held. *)
Definition sac_step (ds : list (CoreModel.dataset Ob Ac R unit unit)) (i : nat) (st st' : @sac Pi) : Prop :=
  if ini <? length (recent mx ds i)
  then exists xs b, length xs = bs /\ Forall (fun x => In x (recent mx ds i)) xs /\ trained_on (sac_value i st st') xs b /\
         s_q st' = train (s_q st) b /\ (exists k, moved tau k (s_q st') (s_tq st) (s_tq st')) /\
         (warmup < length (recent mx ds i) ->
            s_pi st' = actor_step (s_pi st) (s_la st) (s_q st) (map row_of xs) /\
            s_la st' = alpha_step (s_la st) (alpha_loss log_form target_entropy (log_probs (s_pi st) (map row_of xs)))) /\
         (length (recent mx ds i) <= warmup -> s_pi st' = s_pi st /\ s_la st' = s_la st)
  else st' = st.

Theorem sac_learns_from_run : forall (e0 : En) ds xs e a,
  experiment (replay_world (sac_learn gamma train critic sampled log_probs actor_step alpha_step warmup log_form target_entropy tau) (fun s => s) pol pstart drawn ereset estep hor)
    e0 (replay_init ini mx st0 p0) ds xs e a ->
  r_ok a = true /\ subseq (concat (map CoreModel.rows ds)) xs /\ length (r_hist a) = S (length ds) /\
  nth 0 (r_hist a) st0 = st0 /\ r_learner a = nth (length ds) (r_hist a) st0 /\
  forall i, i < length ds -> sac_step ds i (nth i (r_hist a) st0) (nth (i + 1) (r_hist a) st0).
Proof.
  intros e0 ds xs e a EX.
  destruct (replay_agent_experiment _ _ pol pstart drawn ini mx bs st0 p0 DR M1 ereset estep hor e0 ds xs e a Hh EX) as (OK & SS & LH & H0 & HL & HF).
  repeat (split; [assumption|]). intros i Hi. specialize (HF i Hi). unfold fit_ok in HF. unfold sac_step.
  destruct (ini <? length (recent mx ds i)) eqn:INI; [|exact HF].
  destruct HF as (held & rows & HP & HR & E). apply Nat.ltb_lt in INI.
  destruct (rows_recent held _ rows i HP ltac:(lia) HR) as [RL RR].
  unfold sac_learn, sac_fit in E. set (st := nth i (r_hist a) st0) in *. set (st' := nth (i + 1) (r_hist a) st0) in *.
  set (pl := if warmup <? length (recent mx ds i) then _ else _) in E.
  assert (EP : s_pi st' = fst pl) by (rewrite E; reflexivity).
  assert (EL : s_la st' = snd pl) by (rewrite E; reflexivity).
  assert (EQ : s_q st' = sac_critic_fit gamma train critic sampled i (s_q st) (fst pl, snd pl, s_tq st) (map row_of rows)) by (rewrite E; reflexivity).
  assert (ET : s_tq st' = update_target tau (s_k st) (s_q st') (s_tq st)) by (rewrite E; reflexivity).
  unfold sac_critic_fit in EQ. rewrite <- EP, <- EL in EQ.
  exists rows. eexists. split; [exact RL|]. split; [exact RR|]. split; [|split; [exact EQ|]].
  - apply labelled_trained. intros j x. unfold sac_value. cbn [row_of s_next s_absorbing s_reward].
    destruct (sampled (s_pi st') i j (CoreModel.next_state x)) as [u lp]. eexists. split; [reflexivity|]. unfold sac_next_q.
    split; intros ->; [apply zero_flag|apply one_flag].
  - split; [exists (s_k st); rewrite ET; apply update_target_moved|]. subst pl. split; intros HW.
    + apply Nat.ltb_lt in HW. rewrite HW in EP, EL. split; [exact EP|exact EL].
    + apply Nat.ltb_ge in HW. rewrite HW in EP, EL. split; [exact EP|exact EL].
Qed.
End SacRun.
End Deep.

(** ** DQN over experiments: C103 for any sequence of learn and evaluate calls *)
Theorem dqn_learns_from_experiment : forall {En Ob Ac Wt : Type} (predict : Wt -> Ob -> list R)
    (train : Wt -> list (Ob * Ac * R) -> Wt) (pol : Wt -> nat -> Ob -> Ac) (drawn : nat -> nat -> list nat)
    gamma clip_reward freq bs ini mx (w0 : Wt),
  (forall w o, predict w o <> []) ->
  (forall i len, 1 <= len -> length (drawn i len) = bs /\ Forall (fun j => j < len) (drawn i len)) ->
  1 <= mx -> 1 <= freq ->
  forall ereset estep hor (e0 : En) ds xs e a, hor <> Some 0 ->
  experiment (CoreDqnModel.dqn_world predict train pol drawn gamma clip_reward freq ereset estep hor) e0
    (CoreDqnModel.dqn_agent_init ini mx w0) ds xs e a ->
  CoreDqnModel.a_ok a = true /\ CoreDqnModel.a_updates a = length ds /\ length (CoreDqnModel.a_ws a) = S (length ds) /\
  CoreDqnModel.a_w a = nth (length ds) (CoreDqnModel.a_ws a) w0 /\
  subseq (concat (map CoreModel.rows ds)) xs /\
  forall i, i < length ds -> CoreDqnProps.fit_right predict train gamma clip_reward freq bs ini mx w0 ds (CoreDqnModel.a_ws a) (CoreDqnModel.a_batches a) i.
Proof.
  intros En Ob Ac Wt predict train pol drawn gamma cr freq bs ini mx w0 PN DR M1 F1 ereset estep hor e0 ds xs e a Hh EX.
  set (W := CoreDqnModel.dqn_world predict train pol drawn gamma cr freq ereset estep hor) in *.
  assert (HH : CoreModel.horizon W <> Some 0) by exact Hh.
  pose proof (experiment_subseq W HH _ _ _ _ _ _ EX) as SS.
  assert (D : CoreDqnProps.DInv predict train gamma cr freq bs ini mx w0 ds a).
  { apply (experiment_inv W HH (CoreDqnProps.DInv predict train gamma cr freq bs ini mx w0) e0 (CoreDqnModel.dqn_agent_init ini mx w0)) with (xs := xs) (e := e); auto.
    - unfold CoreDqnProps.DInv, CoreDqnModel.dqn_agent_init. cbn. repeat split; auto; try lia.
      destruct (freq * (0 / freq)) as [|[|n]]; reflexivity.
    - intros ds' a' d H. apply (CoreDqnProps.dinv_fit predict train drawn gamma cr freq bs ini mx w0 PN DR); auto. }
  destruct D as (A1 & A2 & A3 & A4 & A5 & A6 & A7 & A8 & A9 & A10 & A11). auto 10.
Qed.

(** A concrete experiment: a walk on the naturals that ends at 3; DDPG with one critic, memory of
    two rows, batches of one row, the actor updated at every second trained fit. The actor counts
    its updates. Learn for four steps, evaluate for two, learn for two more. *)
Notation ex_ag := (@ragent nat (list R) (@ddpg nat) nat).
Definition ex_world : CoreModel.world nat ex_ag nat (list R) R unit unit :=
  replay_world (ddpg_learn (1 / 2) (fun q b => map (map (fun w => w + 1)%R) q) (fun w o u => nth 0 w 0%R) (fun n o => [INR n])
      (fun n q b => S n) (fun k p t => t) 2 (fun _ => 1 / 2)%R)
    (fun s => s) (fun st p o => (S p, [0%R])) (fun st p o => p) (fun i len => [i mod len])
    (fun e i => (0, 0)) (fun e a => (S e, S e, 1%R, S e =? 3)) (Some 5).
Definition ex_agent : ex_ag := replay_init 1 2 (mkD 0 0 [[0%R]] [[0%R]] 0 0) 0.
Definition done (o : @CoreModel.outcome nat ex_ag nat (list R) R unit unit) (e : nat) (a : ex_ag)
  : @CoreModel.run nat ex_ag nat (list R) R unit unit := match o with CoreModel.Done r => r | _ => CoreModel.start e a CoreProps.any_logic end.
Definition ex_r1 := done (CoreModel.learn ex_world 4 0 ex_agent CoreProps.any_logic (Some 4) None (Some 1) None) 0 ex_agent.
Definition ex_r2 := done (CoreModel.evaluate ex_world 2 (CoreModel.r_env ex_r1) (CoreModel.r_ag ex_r1) CoreProps.any_logic None (Some 2) None) 0 ex_agent.
Definition ex_r3 := done (CoreModel.learn ex_world 2 (CoreModel.r_env ex_r2) (CoreModel.r_ag ex_r2) CoreProps.any_logic (Some 2) None (Some 1) None) 0 ex_agent.
Example ddpg_experiment_ex : exists ds xs, experiment ex_world 0 ex_agent ds xs (CoreModel.r_env ex_r3) (CoreModel.r_ag ex_r3) /\
  map CoreModel.state xs = [0; 1; 2; 0; 0; 1] /\ length ds = 6 /\
  map d_pi (r_hist (CoreModel.r_ag ex_r3)) = [0; 0; 1; 1; 2; 2; 3] /\ d_count (r_learner (CoreModel.r_ag ex_r3)) = 5 /\ r_pol (CoreModel.r_ag ex_r3) = 8.
Proof.
  eexists. eexists. split.
  - eapply ex_learn with (fuel := 2) (l := CoreProps.any_logic) (ns := Some 2) (ne := None) (spf := Some 1) (epf := None).
    + eapply ex_evaluate with (fuel := 2) (l := CoreProps.any_logic) (init := None) (ns := Some 2) (ne := None) (r := ex_r2).
      * eapply ex_learn with (fuel := 4) (l := CoreProps.any_logic) (ns := Some 4) (ne := None) (spf := Some 1) (epf := None) (r := ex_r1).
        { apply ex_start. }
        { right. exists 1. split; [reflexivity|lia]. }
        { left. reflexivity. }
        { vm_compute. reflexivity. }
      * vm_compute. reflexivity.
    + right. exists 1. split; [reflexivity|lia].
    + left. reflexivity.
    + vm_compute. reflexivity.
  - vm_compute. repeat split.
Qed.

Print Assumptions replay_agent_experiment.
Print Assumptions ddpg_learns_from_run.
Print Assumptions td3_learns_from_run.
Print Assumptions sac_learns_from_run.
Print Assumptions dqn_learns_from_experiment.

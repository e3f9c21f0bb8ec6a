(** C103: what a DQN agent trained by [Core] learns from. *)
From Coq Require Import List Arith Lia Bool Reals Lra.
From Verif Require Import Common ReplayModel ReplaySpec ReplayProofs DqnModel CoreDqnModel.
From Verif Require CoreModel CoreSpec CoreProofs CoreProps.
Import ListNotations.

(** ** Executions end in the agent of the run *)
Section Generic.
Context {En Ag Ob Ac Rw Ps Th : Type}.
Variable W : CoreModel.world En Ag Ob Ac Rw Ps Th.
Hypothesis Hhor : CoreModel.horizon W <> Some 0.

Definition agent_of (p : CoreSpec.phase En Ag Ob Ps) : Ag :=
  match p with CoreSpec.Between _ a => a | CoreSpec.Inside _ a _ _ _ => a end.

(** Every learn call that returns leaves the agent at the end of the execution. *)
Lemma learn_agent : forall fuel e a l ns ne spf epf r,
  (spf = None \/ exists k, spf = Some k /\ 1 <= k) ->
  (epf = None \/ exists k, epf = Some k /\ 1 <= k) ->
  CoreModel.learn W fuel e a l ns ne spf epf = CoreModel.Done r ->
  exists p, CoreSpec.trace W (CoreSpec.Between e a) (CoreModel.r_log r) p /\ agent_of p = CoreModel.r_ag r.
Proof.
  intros fuel e a l ns ne spf epf r Hs He HD.
  assert (exists s b, CoreProofs.sched_of spf epf = Some s /\ CoreProofs.budget_of ns ne (@None (list Ob)) = Some b /\ CoreProofs.sched_pos s /\
     match s with CoreProofs.SEps _ => CoreModel.horizon W <> None | _ => True end) as (s & b & S & B & P & Hi).
  { unfold CoreModel.learn in HD. destruct spf as [k|], epf as [k'|]; simpl in HD; try discriminate.
    - destruct ns as [n|], ne as [n'|]; simpl in HD; try discriminate; do 2 eexists; repeat split; simpl; auto;
      destruct Hs as [|(?&E&?)]; congruence || (inversion E; subst; auto).
    - destruct (CoreModel.horizon W) eqn:EH; try discriminate.
      destruct ns as [n'|], ne as [n''|]; simpl in HD; try discriminate; do 2 eexists; repeat split; simpl; auto; try congruence;
      destruct He as [|(?&E&?)]; congruence || (inversion E; subst; auto). }
  destruct (CoreProofs.learn_unfold W Hhor e a l ns ne spf epf s b) as (cap & l2 & C & I & T & T2 & U); auto.
  rewrite U in HD.
  pose proof (CoreProofs.loop_inv W Hhor fuel cap s b None (CoreSpec.Between e a) _ P C I) as Q. rewrite HD in Q. destruct Q as [Q _].
  eexists. split; [apply Q|]. destruct (CoreModel.r_last r) eqn:RL; [reflexivity|].
  destruct (CoreProofs.i_some _ _ _ _ _ _ Q RL) as [N1 N2].
  destruct (CoreModel.r_obs r); [|congruence]. destruct (CoreModel.r_ps r); [|congruence]. reflexivity.
Qed.

(** Whatever survives drawing, starting an episode and preprocessing depends only on the fits. *)
Lemma trace_agent : forall (P : list (CoreModel.dataset Ob Ac Rw Ps Th) -> Ag -> Prop) e a,
  P [] a ->
  (forall ds a o ps, P ds a -> P ds (fst (fst (CoreModel.draw W a o ps)))) ->
  (forall ds a o, P ds a -> P ds (fst (fst (CoreModel.ep_start W a o)))) ->
  (forall ds a o, P ds a -> P ds (fst (CoreModel.prep W a o))) ->
  (forall ds a, P ds a -> P ds (CoreModel.clear_next W a)) ->
  (forall ds a d, P ds a -> P (ds ++ [d]) (CoreModel.fit W a d)) ->
  forall log p, CoreSpec.trace W (CoreSpec.Between e a) log p -> P (CoreModel.fits_of log) (agent_of p).
Proof.
  intros P e a H0 HD HE HP HC HF log p T. induction T as [|log q ev q' T IH ES]; [exact H0|].
  unfold CoreModel.fits_of in *. rewrite flat_map_app. cbn [flat_map].
  set (ds := flat_map _ log) in *. clearbody ds.
  inversion ES; subst; cbn [agent_of] in *; rewrite ?app_nil_r.
  - apply HC.
    match goal with HP1 : CoreModel.prep W ?a1 ?raw = _, HE1 : CoreModel.ep_start W ?a0 ?raw = _ |- _ =>
      pose proof (HE ds a0 raw IH) as Z'; rewrite HE1 in Z'; pose proof (HP ds a1 raw Z') as Z; rewrite HP1 in Z; exact Z end.
  - match goal with HP1 : CoreModel.prep W ?a1 ?raw = _, HD1 : CoreModel.draw W ?a0 ?o ?p = _ |- _ =>
      pose proof (HD ds a0 o p IH) as Z'; rewrite HD1 in Z'; pose proof (HP ds a1 raw Z') as Z; rewrite HP1 in Z end.
    destruct (CoreModel.last x); exact Z.
  - apply HF. exact IH.
  - apply HF. exact IH.
Qed.
End Generic.

(** ** DQN *)
Section Props.
Context {En Ob Ac Wt : Type}.
Variable (predict : Wt -> Ob -> list R).
Variable (train : Wt -> list (Ob * Ac * R) -> Wt).
Variable (pol : Wt -> nat -> Ob -> Ac).
Variable (drawn : nat -> nat -> list nat).
Variable (gamma : R) (clip_reward : bool) (freq bs ini mx : nat) (w0 : Wt).
Hypothesis PN : forall w o, predict w o <> [].
Hypothesis DR : forall i len, 1 <= len -> length (drawn i len) = bs /\ Forall (fun j => j < len) (drawn i len).
Hypothesis M1 : 1 <= mx.
Hypothesis F1 : 1 <= freq.

Notation dfit := (dqn_agent_fit predict train drawn gamma clip_reward freq).

(** The target of a transition x: reward (clipped if asked for), plus the discounted largest
    value of the next state under the target weights unless x is absorbing. *)
Definition learns (target : Wt) (row : Ob * Ac * R) (x : CoreModel.sample Ob Ac R unit) : Prop :=
  fst (fst row) = CoreModel.state x /\ snd (fst row) = CoreModel.action x /\
  exists v, snd row = ((if clip_reward then Rmin (Rmax (CoreModel.reward x) (-1)) 1 else CoreModel.reward x) + gamma * v)%R /\
    (CoreModel.absorbing x = true -> v = 0%R) /\
    (CoreModel.absorbing x = false -> In v (predict target (CoreModel.next_state x)) /\
        forall y, In y (predict target (CoreModel.next_state x)) -> (y <= v)%R).

(** What fit number i must have done, all fits having received the datasets [ds]. *)
Definition fit_right (ds : list (CoreModel.dataset Ob Ac R unit unit)) (ws : list Wt)
    (batches : list (nat * list (Ob * Ac * R))) (i : nat) : Prop :=
  let seen := concat (map CoreModel.rows (firstn (i + 1) ds)) in
  if ini <? Nat.min mx (length seen)
  then exists b, (forall b', In (i, b') batches <-> b' = b) /\ length b = bs /\
         nth (i + 1) ws w0 = train (nth i ws w0) b /\
         Forall (fun row => exists x, In x (lastn mx seen) /\ learns (nth (freq * (i / freq)) ws w0) row x) b
  else nth (i + 1) ws w0 = nth i ws w0 /\ forall b', ~ In (i, b') batches.

Definition DInv (ds : list (CoreModel.dataset Ob Ac R unit unit)) (a : dagent) : Prop :=
  a_ok a = true /\ a_updates a = length ds /\ length (a_ws a) = S (length ds) /\
  wf _ _ _ (a_mem a) /\ m_max (a_mem a) = mx /\ m_initial (a_mem a) = ini /\
  chronological (a_mem a) = lastn mx (map row_of (concat (map CoreModel.rows ds))) /\
  a_w a = nth (length ds) (a_ws a) w0 /\ a_target a = nth (freq * (length ds / freq)) (a_ws a) w0 /\
  (forall i b, In (i, b) (a_batches a) -> i < length ds) /\
  forall i, i < length ds -> fit_right ds (a_ws a) (a_batches a) i.

Lemma rmaxl_spec : forall l x, (In (rmaxl x l) (x :: l)) /\ forall y, In y (x :: l) -> (y <= rmaxl x l)%R.
Proof.
  induction l as [|z l IH]; intros x; cbn [rmaxl].
  - split; [left; reflexivity|]. intros y [<-|[]]. lra.
  - destruct (IH (Rmax x z)) as [A B]. split.
    + destruct A as [A|A]; [|right; right; exact A]. rewrite <- A. unfold Rmax. destruct (Rle_dec x z); [right; left|left]; reflexivity.
    + intros y [<-|[<-|Hy]].
      * eapply Rle_trans; [apply (Rmax_l x z)|apply B; left; reflexivity].
      * eapply Rle_trans; [apply (Rmax_r x z)|apply B; left; reflexivity].
      * apply B. right. exact Hy.
Qed.

Lemma rowmax_spec : forall l, l <> [] -> In (rowmax l) l /\ forall y, In y l -> (y <= rowmax l)%R.
Proof. destruct l as [|x l]; intros H; [congruence|]. apply rmaxl_spec. Qed.

Lemma rowmax_zero : forall l, l <> [] -> rowmax (map (fun x => x * (1 - flag true))%R l) = 0%R.
Proof.
  intros l H. destruct (rowmax_spec (map (fun x => x * (1 - flag true))%R l)) as [I _].
  { destruct l; [congruence|discriminate]. }
  apply in_map_iff in I as (x & E & _). rewrite <- E. unfold flag. ring.
Qed.

(** The value used for each row of a batch. *)
Lemma next_q_rows : forall (qs : list (list R)) ab, length qs = length ab -> Forall (fun l => l <> []) qs ->
  dqn_next_q qs ab = map (fun p => if (snd p : bool) then 0%R else rowmax (fst p)) (combine qs ab).
Proof.
  intros qs ab L F. unfold dqn_next_q. destruct (existsb (fun b => b) ab) eqn:E.
  - rewrite map_map. apply map_ext_in. intros [l b] Hp. cbn [fst snd]. destruct b.
    + apply rowmax_zero. rewrite Forall_forall in F. apply F. apply (in_combine_l _ _ _ _ Hp).
    + f_equal. rewrite <- (map_id l) at 2. apply map_ext. intros x. unfold flag. ring.
  - revert ab L E. induction F as [|l qs Hl F IH]; intros [|b ab] L E; cbn in L; try discriminate; [reflexivity|].
    cbn [existsb] in E. apply orb_false_iff in E as [-> E]. cbn [map combine fst snd]. f_equal. apply IH; [lia|exact E].
Qed.

Lemma make_batch_rows : forall t (rows : list (sample Ob Ac unit)) (b : list (Ob * Ac * R)), make_batch predict gamma clip_reward t rows = b ->
  length b = length rows /\
  Forall (fun row => exists y, In y rows /\ fst (fst row) = s_state y /\ snd (fst row) = s_action y /\
     snd row = (clipped clip_reward (s_reward y) + gamma * (if s_absorbing y then 0 else rowmax (predict t (s_next y))))%R) b.
Proof.
  intros t rows b <-. unfold make_batch. rewrite next_q_rows.
  2: { rewrite !map_length. reflexivity. }
  2: { apply Forall_forall. intros l Hl. apply in_map_iff in Hl as (y & <- & _). apply PN. }
  induction rows as [|y rows [IH1 IH2]]; [split; [reflexivity|constructor]|].
  cbn [map combine length]. split; [f_equal; exact IH1|]. constructor.
  - exists y. split; [left; reflexivity|]. cbn [fst snd]. auto.
  - eapply Forall_impl; [|exact IH2]. cbn beta. intros row (y' & Hy & E). exists y'. split; [right; exact Hy|exact E].
Qed.

Lemma fit_right_later : forall ds d ws bt w bt' i, i < length ds -> length ws = S (length ds) ->
  (forall b, In (i, b) bt' -> False) ->
  fit_right ds ws bt i -> fit_right (ds ++ [d]) (ws ++ [w]) (bt ++ bt') i.
Proof.
  intros ds d ws bt w bt' i Hi Lw NB. unfold fit_right.
  assert (D : freq * (i / freq) <= i) by (apply Nat.mul_div_le; lia).
  rewrite !(app_nth1 ws) by lia.
  replace (firstn (i + 1) (ds ++ [d])) with (firstn (i + 1) ds).
  2: { rewrite firstn_app. replace (i + 1 - length ds) with 0 by lia. cbn [firstn]. rewrite app_nil_r. reflexivity. }
  destruct (ini <? _).
  - intros (b & B1 & B2 & B3). exists b. split; [|auto]. intros b'. rewrite in_app_iff, B1. split; [intros [H|H]; [exact H|destruct (NB _ H)]|auto].
  - intros [A B]. split; [exact A|]. intros b' H. apply in_app_iff in H as [H|H]; [apply (B _ H)|apply (NB _ H)].
Qed.

Lemma dinv_fit : forall ds a d, DInv ds a -> DInv (ds ++ [d]) (dfit a d).
Proof.
  intros ds a d (A1 & A2 & A3 & A4 & A5 & A6 & A7 & A8 & A9 & A10 & A11).
  destruct (add_spec _ _ _ (a_mem a) (map row_of (CoreModel.rows d)) 1 1 A4 (Nat.le_refl 1)) as (m & rw & AD & WF & MM & MI & MC).
  rewrite nstep_samples_one, A7, A5 in MC.
  assert (MC' : chronological m = lastn mx (map row_of (concat (map CoreModel.rows (ds ++ [d]))))).
  { rewrite MC, map_app, concat_app. cbn [map concat]. rewrite app_nil_r, map_app. apply lastn_app. }
  clear MC. rename MC' into MC.
  set (seen := concat (map CoreModel.rows (ds ++ [d]))) in *.
  assert (SZ : size m = Nat.min mx (length seen)).
  { rewrite <- (chron_length _ _ _ m WF), MC, lastn_length, map_length. reflexivity. }
  set (i := length ds).
  assert (TG : forall (ws : list Wt) w, length ws = S i ->
     (if (i + 1) mod freq =? 0 then w else nth (freq * (i / freq)) ws w0) = nth (freq * ((i + 1) / freq)) (ws ++ [w]) w0).
  { intros ws w Lw. destruct ((i + 1) mod freq =? 0) eqn:E.
    - apply Nat.eqb_eq in E. pose proof (Nat.div_mod (i + 1) freq ltac:(lia)) as DM. rewrite E, Nat.add_0_r in DM.
      rewrite <- DM, app_nth2 by lia. replace (i + 1 - length ws) with 0 by lia. reflexivity.
    - apply Nat.eqb_neq in E.
      assert (DE : (i + 1) / freq = i / freq).
      { pose proof (Nat.div_mod (i + 1) freq ltac:(lia)) as DM. pose proof (Nat.mod_upper_bound (i + 1) freq ltac:(lia)) as UB.
        apply Nat.div_unique with (r := (i + 1) mod freq - 1); lia. }
      rewrite DE. rewrite app_nth1; [reflexivity|]. pose proof (Nat.mul_div_le i freq ltac:(lia)). lia. }
  assert (LD : length (ds ++ [d]) = i + 1) by (rewrite app_length; reflexivity).
  assert (FS : firstn (i + 1) (ds ++ [d]) = ds ++ [d]) by (rewrite <- LD; apply firstn_all).
  unfold dqn_agent_fit, fit_standard. rewrite AD. unfold initialized. rewrite MI, A6, SZ.
  destruct (ini <? Nat.min mx (length seen)) eqn:INI.
  - assert (L1 : 1 <= length (m_data m)).
    { apply Nat.ltb_lt in INI. destruct WF as (_ & _ & WF). unfold size in SZ. destruct (m_full m); lia. }
    rewrite A2. fold i. destruct (DR i (length (m_data m)) L1) as [DL DF].
    destruct (get_spec _ _ _ m (drawn i (length (m_data m))) WF DF) as (out & G & GL & GI). rewrite G.
    cbn [a_mem a_w a_target a_updates a_drawn a_ok a_ws a_batches].
    set (b := make_batch predict gamma clip_reward (a_target a) out).
    destruct (make_batch_rows (a_target a) out b eq_refl) as [BL BR].
    unfold DInv. cbn [a_mem a_w a_target a_updates a_drawn a_ok a_ws a_batches]. rewrite LD.
    split; [exact A1|]. split; [reflexivity|]. split; [rewrite app_length, A3; cbn [length]; fold i; lia|].
    split; [exact WF|]. split; [congruence|]. split; [congruence|]. split; [exact MC|].
    split. { rewrite app_nth2 by (fold i in A3; lia). fold i in A3. replace (i + 1 - length (a_ws a)) with 0 by lia. reflexivity. }
    split. { rewrite A9. fold i. apply TG. exact A3. }
    split. { intros j b' H. apply in_app_iff in H as [H|[H|[]]]; [specialize (A10 _ _ H); fold i in A10; lia|].
      injection H as <- _. lia. }
    intros j Hj. destruct (Nat.eq_dec j i) as [->|NE].
    + unfold fit_right. rewrite FS. fold seen. rewrite INI. exists b. split.
      { intros b'. rewrite in_app_iff. split.
        - intros [H|[H|[]]]; [specialize (A10 _ _ H); fold i in A10; lia|]. injection H as <-. reflexivity.
        - intros ->. right. left. reflexivity. }
      split; [congruence|].
      fold i in A3, A8, A9.
      split. { rewrite app_nth2, (app_nth1 (a_ws a)) by lia. replace (i + 1 - length (a_ws a)) with 0 by lia. cbn [nth]. rewrite A8. reflexivity. }
      rewrite (app_nth1 (a_ws a)) by (pose proof (Nat.mul_div_le i freq ltac:(lia)); lia). rewrite <- A9.
      eapply Forall_impl; [|exact BR]. cbn beta. intros row (y & Hy & E1 & E2 & E3).
      rewrite Forall_forall in GI. specialize (GI y Hy). rewrite MC in GI.
      assert (LM : forall (l : list (CoreModel.sample Ob Ac R unit)), lastn mx (map row_of l) = map row_of (lastn mx l)).
      { intros l. unfold lastn. rewrite map_length, skipn_map. reflexivity. }
      rewrite LM in GI. apply in_map_iff in GI as (x & <- & Hx). exists x. split; [exact Hx|].
      split; [exact E1|]. split; [exact E2|]. exists (if CoreModel.absorbing x then 0%R else rowmax (predict (a_target a) (CoreModel.next_state x))).
      split; [exact E3|]. split; intros ->; [reflexivity|]. apply rowmax_spec, PN.
    + apply fit_right_later; [fold i; lia|exact A3| |apply A11; fold i; lia].
      intros b' [H|[]]. injection H as H _. fold i in H. lia.
  - cbn [a_mem a_w a_target a_updates a_drawn a_ok a_ws a_batches].
    unfold DInv. cbn [a_mem a_w a_target a_updates a_drawn a_ok a_ws a_batches]. rewrite LD, A2. fold i.
    split; [exact A1|]. split; [reflexivity|]. split; [rewrite app_length, A3; cbn [length]; fold i; lia|].
    split; [exact WF|]. split; [congruence|]. split; [congruence|]. split; [exact MC|].
    fold i in A3, A8, A9.
    split. { rewrite app_nth2 by lia. replace (i + 1 - length (a_ws a)) with 0 by lia. reflexivity. }
    split. { rewrite A9. apply TG. exact A3. }
    split. { intros j b' H. specialize (A10 _ _ H). fold i in A10. lia. }
    intros j Hj. destruct (Nat.eq_dec j i) as [->|NE].
    + unfold fit_right. rewrite FS. fold seen. rewrite INI. split.
      { rewrite app_nth2, (app_nth1 (a_ws a)) by lia. replace (i + 1 - length (a_ws a)) with 0 by lia. cbn [nth]. exact A8. }
      intros b' H. specialize (A10 _ _ H). fold i in A10. lia.
    + rewrite <- (app_nil_r (a_batches a)). apply fit_right_later; [fold i; lia|exact A3|intros b' []|apply A11; fold i; lia].
Qed.

(** Whatever the environment, the policy, the network and the schedule: a DQN agent trained by
    Core never raises; fit number i trains iff more than [ini] transitions are held, on exactly
    [bs] rows, each of which is one of the last [mx] transitions handed over so far (which are a
    prefix of the transitions made in the environment), with the target computed by the weights
    the network had after the last multiple of [freq] fits. *)
Theorem dqn_learns_from_run : forall ereset estep hor fuel (e : En) l ns ne spf epf r,
  hor <> Some 0 ->
  (spf = None \/ exists k, spf = Some k /\ 1 <= k) -> (epf = None \/ exists k, epf = Some k /\ 1 <= k) ->
  CoreModel.learn (dqn_world predict train pol drawn gamma clip_reward freq ereset estep hor) fuel e
     (dqn_agent_init ini mx w0) l ns ne spf epf = CoreModel.Done r ->
  let a := CoreModel.r_ag r in
  let ds := CoreModel.fits_of (CoreModel.r_log r) in
  a_ok a = true /\ a_updates a = length ds /\ length (a_ws a) = S (length ds) /\
  a_w a = nth (length ds) (a_ws a) w0 /\
  (exists rest, CoreModel.samples_of (CoreModel.r_log r) = concat (map CoreModel.rows ds) ++ rest) /\
  forall i, i < length ds -> fit_right ds (a_ws a) (a_batches a) i.
Proof.
  intros ereset estep hor fuel e l ns ne spf epf r Hh Hs He HD a ds.
  set (W := dqn_world predict train pol drawn gamma clip_reward freq ereset estep hor) in *.
  assert (HH : CoreModel.horizon W <> Some 0) by exact Hh.
  destruct (learn_agent W HH fuel e _ l ns ne spf epf r Hs He HD) as (p & T & EA).
  destruct (CoreProps.core_learn_fits_partition_samples W HH fuel e _ l ns ne spf epf r Hs He HD) as (PA & _).
  assert (D : DInv ds a).
  { unfold a, ds. rewrite <- EA. apply (trace_agent W DInv e (dqn_agent_init ini mx w0)) with (log := CoreModel.r_log r); auto.
    - unfold DInv, dqn_agent_init. cbn. repeat split; auto; try lia.
      destruct (freq * (0 / freq)) as [|[|n]]; reflexivity.
    - intros ds' a' d H. apply dinv_fit. exact H. }
  destruct D as (A1 & A2 & A3 & A4 & A5 & A6 & A7 & A8 & A9 & A10 & A11).
  split; [exact A1|]. split; [exact A2|]. split; [exact A3|]. split; [exact A8|]. split; [|exact A11].
  exists (CoreModel.rows (CoreModel.r_ds r)). exact PA.
Qed.
End Props.

(** A concrete run: a walk on the naturals that ends at 3, one fit per step, memory of two rows,
    training from the second fit on, target copied at every second fit. *)
Definition ex_net (w : nat) (o : nat) : list R := [INR w; INR o]%R.
Example dqn_run_ex :
  match CoreModel.learn (dqn_world ex_net (fun w b => w + length b) (fun _ _ _ => 0) (fun i len => [i mod len])
          (1 / 2) false 2 (fun e i => (0, 0)) (fun e a => (S e, S e, 1%R, S e =? 3)) (Some 5)) 4 0
        (dqn_agent_init 1 2 0) CoreProps.any_logic (Some 4) None (Some 1) None with
  | CoreModel.Done r => map fst (a_batches (CoreModel.r_ag r)) = [1; 2; 3] /\ a_ws (CoreModel.r_ag r) = [0; 0; 1; 2; 3] /\
      a_target (CoreModel.r_ag r) = 3 /\
      map (fun b => map (fun x => fst (fst x)) (snd b)) (a_batches (CoreModel.r_ag r)) = [[1]; [2]; [0]]
  | _ => False
  end.
Proof. vm_compute. repeat split. Qed.

Print Assumptions dqn_learns_from_run.

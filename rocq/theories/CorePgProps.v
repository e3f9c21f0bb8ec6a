(** C108: policy-gradient agents trained by [Core] with n_episodes_per_fit. *)
From Coq Require Import List Arith Lia Bool Reals Lra.
From Verif Require Import Common EpisodeSpec PgModel PgSpec PgProofs CorePgModel CoreDqnProps OnPolicyProps.
From Verif Require CoreModel CoreSpec CoreProofs CoreProps VecCoreModel PgProps.
Import ListNotations.

(** ** Every fit directly follows a step *)
Section Prompt.
Context {En Ag Ob Ac Rw Ps Th : Type}.
Variable W : CoreModel.world En Ag Ob Ac Rw Ps Th.
Notation log := (list (CoreModel.event Ob Ac Rw Ps Th)).

Definition prompt (l : log) : Prop := forall u d v, l = u ++ CoreModel.EvFit d :: v -> exists u' x, u = u' ++ [CoreModel.EvSample x].

Lemma prompt_other : forall l e, prompt l -> (forall d, e <> CoreModel.EvFit d) -> prompt (l ++ [e]).
Proof.
  intros l e T N u d v H. destruct (snoc_split _ _ _ _ _ H) as [(-> & E & _)|(v' & -> & _)]; [destruct (N d); auto|]. eapply T. reflexivity.
Qed.

Lemma iterate_prompt : forall cap init r r', CoreModel.iterate W cap init r = Some r' -> prompt (CoreModel.r_log r) -> prompt (CoreModel.r_log r').
Proof.
  intros cap init r r' H P. unfold CoreModel.iterate in H.
  assert (H1 : forall r1, (if CoreModel.r_last r then CoreModel.do_reset W init r else Some r) = Some r1 -> prompt (CoreModel.r_log r1)).
  { intros r1 E. destruct (CoreModel.r_last r); [|injection E as <-; assumption]. unfold CoreModel.do_reset in E.
    destruct (CoreModel.get_initial_state (CoreModel.r_logic r) init); [|discriminate]. destruct (CoreModel.env_reset W (CoreModel.r_env r) _) as [e raw].
    destruct (CoreModel.ep_start W (CoreModel.r_ag r) raw) as [[a1 ps] th]. destruct (CoreModel.prep W a1 raw) as [a2 o']. injection E as <-.
    cbn [CoreModel.r_log]. apply prompt_other; [exact P|intros; discriminate]. }
  destruct (if CoreModel.r_last r then CoreModel.do_reset W init r else Some r) as [r1|]; [|discriminate]. specialize (H1 r1 eq_refl).
  unfold obind in H. cbn beta iota in H. unfold CoreModel.do_step in H. destruct (CoreModel.r_obs r1) as [o|]; [|discriminate H].
  destruct (CoreModel.r_ps r1) as [ps|]; [|discriminate H].
  destruct (CoreModel.draw W (CoreModel.r_ag r1) o ps) as [[a1 act] pns]. destruct (CoreModel.env_step W (CoreModel.r_env r1) act) as [[[e raw] rw] ab].
  destruct (CoreModel.prep W a1 raw) as [a2 o'].
  cbn [CoreModel.r_ds CoreModel.r_logic CoreModel.r_env CoreModel.r_ag CoreModel.r_obs CoreModel.r_ps CoreModel.r_steps CoreModel.r_log] in H.
  set (x := CoreModel.mkS o act rw o' ab _ ps pns) in *.
  assert (T2 : prompt (CoreModel.r_log r1 ++ [CoreModel.EvSample x])) by (apply prompt_other; [exact H1|intros; discriminate]).
  destruct (length (CoreModel.rows (CoreModel.r_ds r1)) <? cap); [|discriminate].
  destruct (CoreModel.fit_required _) as [[|]|]; [| |discriminate]; injection H as <-; cbn [CoreModel.r_log]; [|exact T2].
  intros u d v E. destruct (snoc_split _ _ _ _ _ E) as [(-> & E' & _)|(v' & E' & _)]; [eauto|]. eapply T2. exact E'.
Qed.

Lemma learn_prompt : forall fuel e a l ns ne spf epf r, CoreModel.learn W fuel e a l ns ne spf epf = CoreModel.Done r -> prompt (CoreModel.r_log r).
Proof.
  assert (G : forall fuel cap init r r', CoreModel.loop W fuel cap init r = CoreModel.Done r' -> prompt (CoreModel.r_log r) -> prompt (CoreModel.r_log r')).
  { induction fuel as [|f IH]; intros cap init r r' H T; cbn [CoreModel.loop] in H.
    - destruct (CoreModel.move_required (CoreModel.r_logic r)) as [[|]|]; try discriminate. injection H as <-. exact T.
    - destruct (CoreModel.move_required (CoreModel.r_logic r)) as [[|]|]; try discriminate; [|injection H as <-; exact T].
      destruct (CoreModel.iterate W cap init r) as [r1|] eqn:E; [|discriminate]. apply (IH _ _ _ _ H). apply (iterate_prompt _ _ _ _ E T). }
  intros fuel e a l ns ne spf epf r H. unfold CoreModel.learn in H. destruct (CoreModel.initialize_learn l spf epf); [|discriminate].
  destruct (CoreModel.capacity W spf epf); [|discriminate]. destruct (CoreModel.initialize_run _ _ _ _); [|discriminate].
  apply (G _ _ _ _ _ H). intros u d v E. cbn in E. destruct u; discriminate.
Qed.

Lemma samples_snoc : forall (u : log) x, CoreModel.samples_of (u ++ [CoreModel.EvSample x]) = CoreModel.samples_of u ++ [x].
Proof. intros. rewrite samples_app. reflexivity. Qed.

(** After a last step the execution is between episodes. *)
Lemma trace_last : forall p u x q, CoreSpec.trace W p (u ++ [CoreModel.EvSample x]) q -> CoreModel.last x = true -> exists e a, q = CoreSpec.Between e a.
Proof.
  intros p u x q T L. inversion T as [|l q1 ev q2 T' ES E1 E2]; [destruct u; discriminate|].
  apply app_inj_tail in E1 as [-> ->]. inversion ES; subst. rewrite L. eauto.
Qed.

Hypothesis Hhor : CoreModel.horizon W <> Some 0.

Lemma unfinished_last : forall {A} (f : A -> bool) l x, unfinished f (l ++ [x]) = [] -> f x = true.
Proof.
  intros A f l x H. destruct (f x) eqn:E; [reflexivity|]. rewrite (proj2 (split_snoc_notlast f l x E)) in H. destruct (unfinished f l); discriminate.
Qed.

(** A fit under an episode schedule: the dataset is made of whole episodes, each begun with a
    reset after the fit before. *)
Lemma whole_episode_fits : forall fuel e a l ns ne k r, 1 <= k ->
  CoreModel.learn W fuel e a l ns ne None (Some k) = CoreModel.Done r ->
  forall u d v, CoreModel.r_log r = u ++ CoreModel.EvFit d :: v ->
  exists u0 w e1 a1 e2 a2,
    u = u0 ++ w /\ (u0 = [] \/ exists u1 d1, u0 = u1 ++ [CoreModel.EvFit d1]) /\ CoreModel.fits_of w = [] /\ CoreModel.rows d = CoreModel.samples_of w /\
    CoreSpec.trace W (CoreSpec.Between e a) u0 (CoreSpec.Between e1 a1) /\ CoreSpec.trace W (CoreSpec.Between e1 a1) w (CoreSpec.Between e2 a2) /\
    length (complete CoreModel.last (CoreModel.rows d)) = k /\ unfinished CoreModel.last (CoreModel.rows d) = [].
Proof.
  intros fuel e a l ns ne k r K HD u d v E.
  pose proof (learn_timed W fuel e a l ns ne None (Some k) r HD) as T. pose proof (learn_prompt fuel e a l ns ne None (Some k) r HD) as P.
  assert (FG : Forall (fun d => length (complete CoreModel.last (CoreModel.rows d)) = k /\ unfinished CoreModel.last (CoreModel.rows d) = []) (CoreModel.fits_of (CoreModel.r_log r))).
  { assert (exists b, CoreProofs.budget_of ns ne (@None (list Ob)) = Some b /\ CoreModel.horizon W <> None) as (b & B & Hi).
    { unfold CoreModel.learn in HD. cbn [CoreModel.initialize_learn CoreModel.capacity] in HD. destruct (CoreModel.horizon W) eqn:EH; [|discriminate].
      destruct ns as [n'|], ne as [n''|]; simpl in HD; try discriminate; eexists; (split; [reflexivity|congruence]). }
    destruct (CoreProofs.learn_unfold W Hhor e a l ns ne None (Some k) (CoreProofs.SEps k) b) as (cap & l2 & C & I & _ & _ & U); auto.
    rewrite U in HD. pose proof (CoreProofs.loop_inv W Hhor fuel cap (CoreProofs.SEps k) b None (CoreSpec.Between e a) _ K C I) as Q. rewrite HD in Q. destruct Q as [Q _].
    eapply Forall_impl; [|apply (CoreProofs.i_fits _ _ _ _ _ _ Q)]. intros d0 (C1 & C2 & _). rewrite count_complete. auto. }
  assert (BT : forall u d v, CoreModel.r_log r = u ++ CoreModel.EvFit d :: v -> forall p, CoreSpec.trace W (CoreSpec.Between e a) u p -> exists e2 a2, p = CoreSpec.Between e2 a2).
  { clear u d v E. intros u d v E p TU. destruct (P _ _ _ E) as (u' & x & ->). apply (trace_last _ _ _ _ TU).
    assert (IN : In d (CoreModel.fits_of (CoreModel.r_log r))) by (rewrite E, fits_app; apply in_or_app; right; left; reflexivity).
    rewrite Forall_forall in FG. destruct (FG _ IN) as [CK CU].
    pose proof (T _ _ _ E) as S. rewrite samples_snoc in S.
    destruct (@exists_last _ (CoreModel.rows d)) as (rw & y & ER). { intros Z. rewrite Z in CK. cbn in CK. lia. }
    rewrite ER, app_assoc in S. apply app_inj_tail in S as [_ <-]. rewrite ER in CU. apply (unfinished_last _ _ _ CU). }
  destruct (timely_since _ _ _ _ T E) as (u0 & w & EU & F & RD & C).
  destruct (learn_agent W Hhor fuel e a l ns ne None (Some k) r) as (pe & TR & _); auto. { right. eauto. }
  rewrite E in TR. destruct (trace_app W _ _ _ _ TR) as (p & TU & _).
  destruct (BT _ _ _ E _ TU) as (e2 & a2 & ->). rewrite EU in TU. destruct (trace_app W _ _ _ _ TU) as (q & T0 & T1).
  assert (exists e1 a1, q = CoreSpec.Between e1 a1) as (e1 & a1 & ->).
  { destruct C as [->|(u1 & d1 & ->)].
    - inversion T0 as [|l' ? ? ? ? ? E1]; [eauto|destruct l'; discriminate].
    - assert (E1 : CoreModel.r_log r = u1 ++ CoreModel.EvFit d1 :: (w ++ CoreModel.EvFit d :: v)) by (rewrite E, EU, <- !app_assoc; reflexivity).
      destruct (trace_app W _ _ _ _ T0) as (q1 & TA & TB). destruct (BT _ _ _ E1 _ TA) as (e3 & a3 & ->).
      apply trace_one in TB. inversion TB; subst; eauto. }
  exists u0, w, e1, a1, e2, a2. do 6 (split; [assumption|]).
  rewrite Forall_forall in FG. apply FG. rewrite E, fits_app. apply in_or_app. right. left. reflexivity.
Qed.
(** Every evaluate call that returns leaves the agent at the end of an execution without fits. *)
Lemma evaluate_agent : forall fuel e a l init ns ne r,
  CoreModel.evaluate W fuel e a l init ns ne = CoreModel.Done r ->
  exists p, CoreSpec.trace W (CoreSpec.Between e a) (CoreModel.r_log r) p /\ agent_of p = CoreModel.r_ag r /\ CoreModel.fits_of (CoreModel.r_log r) = [].
Proof.
  intros fuel e a l init ns ne r HD.
  assert (exists b, CoreProofs.budget_of ns ne init = Some b /\
     match b with CoreProofs.BEps _ => CoreModel.horizon W <> None | _ => True end) as (b & B & Hi).
  { unfold CoreModel.evaluate, CoreModel.capacity in HD. destruct (CoreModel.horizon W) eqn:EH;
    destruct ns, ne, init; simpl in HD; try discriminate; eexists; (split; [reflexivity|]); simpl; auto; congruence. }
  destruct (CoreProofs.evaluate_unfold W Hhor e a l init ns ne b) as (cap & l2 & C & I & T & T2 & U); auto.
  rewrite U in HD.
  pose proof (CoreProofs.loop_inv W Hhor fuel cap CoreProofs.SNever b init (CoreSpec.Between e a) _ Logic.I C I) as Q. rewrite HD in Q. destruct Q as [Q _].
  eexists. split; [apply Q|]. split; [|apply (CoreProofs.i_rows_unf _ _ _ _ _ _ Q)]. destruct (CoreModel.r_last r) eqn:RL; [reflexivity|].
  destruct (CoreProofs.i_some _ _ _ _ _ _ Q RL) as [N1 N2].
  destruct (CoreModel.r_obs r); [|congruence]. destruct (CoreModel.r_ps r); [|congruence]. reflexivity.
Qed.
End Prompt.

Lemma complete_map : forall {A B} (f : A -> bool) (g : B -> bool) (h : A -> B), (forall x, g (h x) = f x) ->
  forall l, complete g (map h l) = map (map h) (complete f l) /\ unfinished g (map h l) = map h (unfinished f l).
Proof.
  intros A B f g h E. unfold complete, unfinished. induction l as [|x l [IH1 IH2]]; [auto|]. cbn [map split_episodes]. rewrite E.
  destruct (split_episodes f l) as [eps tl], (split_episodes g (map h l)) as [eps' tl']. cbn [fst snd] in *. subst.
  destruct (f x); cbn [fst snd map]; [auto|]. destruct eps; cbn [fst snd map]; auto.
Qed.

(** ** The agents *)
Section Props.
Context {En Ob Ac S G Os : Type}.
Variable gamma : R.
Variable al : algo S G.
Variable s0 : S.
Variable dlog : vec -> Ob -> Ac -> vec.
Variable phi : Ob -> list R.
Variable pol : vec -> nat -> Ob -> Ac.
Variable opt : Os -> vec -> G -> Os * vec.
Variable env_reset : En -> option Ob -> En * Ob.
Variable env_step : En -> Ac -> En * Ob * R * bool.
Variable hor : option nat.
Hypothesis Hhor : hor <> Some 0%nat.
Notation W := (p_world gamma al dlog phi pol opt env_reset env_step hor).
Notation agent := (@pagent S Os).
Notation csample := (CoreModel.sample Ob Ac R unit).

(** The agents a user can have: a new one, and what learn calls with at least two episodes per
    fit and evaluate calls make of it. *)
Inductive reached : agent -> Prop :=
| re_new : forall w o n, reached (mkPA w s0 o n true)
| re_learn : forall fuel e a l ns ne k r, reached a -> 2 <= k ->
    CoreModel.learn W fuel e a l ns ne None (Some k) = CoreModel.Done r -> reached (CoreModel.r_ag r)
| re_eval : forall fuel e a l init ns ne r, reached a ->
    CoreModel.evaluate W fuel e a l init ns ne = CoreModel.Done r -> reached (CoreModel.r_ag r).

(** What every fit of a learn call must have done: [k] whole episodes made by the environment
    since the fit before, with actions drawn from the policy with the weights the agent had
    then and has at the fit; the optimizer got the answer of the algorithm for these episodes,
    scored with the same weights, and its result are the new weights. *)
Definition fits_right (answer : list (list sample) -> G -> Prop) (e : En) (a : agent) (k : nat)
    (l : list (CoreModel.event Ob Ac R unit unit)) : Prop :=
  forall u d v, l = u ++ CoreModel.EvFit d :: v ->
  exists u0 w e1 a1 e2 a2 a3 g,
    u = u0 ++ w /\ (u0 = [] \/ exists u1 d1, u0 = u1 ++ [CoreModel.EvFit d1]) /\
    CoreSpec.trace W (CoreSpec.Between e a) u0 (CoreSpec.Between e1 a1) /\
    CoreSpec.trace W (CoreSpec.Between e1 a1) w (CoreSpec.Between e2 a2) /\
    CoreSpec.trace W (CoreSpec.Between e a) (u ++ [CoreModel.EvFit d]) (CoreSpec.Between e2 a3) /\
    CoreModel.fits_of w = [] /\ CoreModel.rows d = CoreModel.samples_of w /\
    length (complete CoreModel.last (CoreModel.rows d)) = k /\ unfinished CoreModel.last (CoreModel.rows d) = [] /\
    p_w a2 = p_w a1 /\ Forall (fun x => exists n, CoreModel.action x = pol (p_w a1) n (CoreModel.state x)) (CoreModel.rows d) /\
    answer (map (map (fun x => {| score := dlog (p_w a1) (CoreModel.state x) (CoreModel.action x); rew := CoreModel.reward x;
                                  phi_c := phi (CoreModel.state x); lst := CoreModel.last x |})) (complete CoreModel.last (CoreModel.rows d))) g /\
    opt (p_o a2) (p_w a1) g = (p_o a3, p_w a3) /\ p_ok a3 = true.

Variable clean : S -> Prop.
Variable answer : list (list sample) -> G -> Prop.
Hypothesis C0 : clean s0.
Hypothesis FIT : forall s ds, clean s -> 1 < length (complete lst ds) -> unfinished lst ds = [] ->
  exists s' g, pg_fit gamma al s ds = (s', Some g) /\ clean s' /\ answer (complete lst ds) g.

Definition Good (a : agent) : Prop := clean (p_s a) /\ p_ok a = true.

Lemma good_nofit : forall p l q, CoreSpec.trace W p l q -> CoreModel.fits_of l = [] -> Good (agent_of p) -> Good (agent_of q).
Proof.
  intros p l q T. induction T as [|l q1 ev q2 T IH ES]; intros F GD; [exact GD|]. rewrite fits_app in F. apply app_eq_nil in F as [F1 F2].
  specialize (IH F1 GD). inversion ES; subst; cbn [agent_of] in *.
  - repeat match goal with H : CoreModel.prep W _ _ = _ |- _ => cbn in H; injection H as <- <- | H : CoreModel.ep_start W _ _ = _ |- _ => cbn in H; injection H as <- <- <- end. exact IH.
  - match goal with HP : CoreModel.prep W _ _ = _, HD : CoreModel.draw W _ _ _ = _ |- _ => cbn in HP; injection HP as <- HP; cbn in HD; injection HD as <- HD1 HD2 end.
    destruct (CoreModel.last x); exact IH.
  - discriminate.
  - discriminate.
Qed.

Lemma fit_step : forall (a : agent) d, Good a -> 2 <= length (complete CoreModel.last (CoreModel.rows d)) -> unfinished CoreModel.last (CoreModel.rows d) = [] ->
  Good (CoreModel.fit W a d) /\ exists g, answer (map (map (p_read dlog phi (p_w a))) (complete CoreModel.last (CoreModel.rows d))) g /\
    opt (p_o a) (p_w a) g = (p_o (CoreModel.fit W a d), p_w (CoreModel.fit W a d)).
Proof.
  intros a d [G1 G2] K U. destruct (complete_map CoreModel.last lst (p_read dlog phi (p_w a)) (fun x => eq_refl) (CoreModel.rows d)) as [EC EU].
  destruct (FIT (p_s a) (map (p_read dlog phi (p_w a)) (CoreModel.rows d)) G1) as (s' & g & E & CL & A).
  { rewrite EC, map_length. lia. } { rewrite EU, U. reflexivity. }
  cbn [CoreModel.fit p_world]. unfold p_fit. rewrite E. rewrite EC in A. destruct (opt (p_o a) (p_w a) g) as [o w] eqn:EO.
  split; [split; [exact CL|exact G2]|]. exists g. split; [exact A|]. cbn [p_o p_w]. exact EO.
Qed.

Lemma drawn_with : forall p l q, CoreSpec.trace W p l q -> CoreModel.fits_of l = [] ->
  Forall (fun x => exists n, CoreModel.action x = pol (p_w (agent_of p)) n (CoreModel.state x)) (CoreModel.samples_of l).
Proof.
  intros p l q T. induction T as [|l q1 ev q2 T IH ES]; intros F; [constructor|]. rewrite fits_app in F. apply app_eq_nil in F as [F1 F2].
  rewrite samples_app. apply Forall_app. split; [apply IH; exact F1|].
  inversion ES; subst; cbn [CoreModel.samples_of flat_map app]; try constructor; [|constructor].
  pose proof (weights_kept W (@p_w S Os) (fun _ _ _ => eq_refl) (fun _ _ => eq_refl) (fun _ _ => eq_refl) (fun _ => eq_refl) _ _ _ T F1) as WK. cbn [agent_of] in WK.
  match goal with HD : CoreModel.draw W _ _ _ = _ |- _ => cbn in HD; injection HD as _ HD _ end. rewrite <- WK. exists (p_draws a). auto.
Qed.

Lemma learn_good : forall fuel e a l ns ne k r, Good a -> 2 <= k ->
  CoreModel.learn W fuel e a l ns ne None (Some k) = CoreModel.Done r -> Good (CoreModel.r_ag r) /\ fits_right answer e a k (CoreModel.r_log r).
Proof.
  intros fuel e a l ns ne k r GA K HD.
  assert (K1 : 1 <= k) by lia.
  pose proof (whole_episode_fits W Hhor fuel e a l ns ne k r K1 HD) as WF.
  destruct (learn_agent W Hhor fuel e a l ns ne None (Some k) r) as (pe & TR & EA); auto. { right. eauto. }
  (* all prefixes keep Good *)
  assert (GP : forall u v p, CoreModel.r_log r = u ++ v -> CoreSpec.trace W (CoreSpec.Between e a) u p -> Good (agent_of p)).
  { induction u as [|ev u IH] using rev_ind; intros v p E T.
    - inversion T as [|l' ? ? ? ? ? E1]; [exact GA|destruct l'; discriminate].
    - rewrite <- app_assoc in E. destruct (trace_app W _ _ _ _ T) as (q & TU & TE). specialize (IH _ _ E TU).
      destruct ev as [i o ps th|x|d].
      1,2: apply (good_nofit _ _ _ TE); [reflexivity|exact IH].
      apply trace_one in TE. destruct (WF _ _ _ E) as (u0 & w & e1 & a1 & e2 & a2 & _ & _ & _ & _ & _ & _ & CK & CU).
      assert (G2 : Good (CoreModel.fit W (agent_of q) d)) by (apply fit_step; [exact IH|lia|exact CU]).
      inversion TE; subst; exact G2. }
  split. { rewrite <- EA. apply (GP (CoreModel.r_log r) [] pe); [rewrite app_nil_r; reflexivity|exact TR]. }
  intros u d v E. destruct (WF _ _ _ E) as (u0 & w & e1 & a1 & e2 & a2 & EU & C & F & RD & T0 & T1 & CK & CU).
  assert (TU : CoreSpec.trace W (CoreSpec.Between e a) u (CoreSpec.Between e2 a2)).
  { rewrite EU. clear -T0 T1. remember (CoreSpec.Between e2 a2) as z. clear Heqz. induction T1 as [|l q1 ev q2 T IH ES]; [rewrite app_nil_r; exact T0|].
    rewrite app_assoc. econstructor; eauto. }
  pose proof (GP _ _ _ E TU) as G2. cbn [agent_of] in G2.
  destruct (fit_step a2 d G2) as (G3 & g & A & O); [lia|exact CU|].
  assert (WK : p_w a2 = p_w a1).
  { apply (weights_kept W (@p_w S Os) (fun _ _ _ => eq_refl) (fun _ _ => eq_refl) (fun _ _ => eq_refl) (fun _ => eq_refl) _ _ _ T1 F). }
  exists u0, w, e1, a1, e2, a2, (CoreModel.fit W a2 d), g.
  split; [exact EU|]. split; [exact C|]. split; [exact T0|]. split; [exact T1|].
  split. { econstructor; [exact TU|]. constructor. }
  split; [exact F|]. split; [exact RD|]. split; [exact CK|]. split; [exact CU|]. split; [exact WK|].
  split; [|rewrite <- WK; split; [exact A|split; [exact O|apply G3]]].
  rewrite RD. apply (drawn_with _ _ _ T1 F).
Qed.

Lemma reached_good : forall a, reached a -> Good a.
Proof.
  intros a H. induction H as [w o n|fuel e a l ns ne k r H IH K HD|fuel e a l init ns ne r H IH HD].
  - split; [exact C0|reflexivity].
  - apply (learn_good fuel e a l ns ne k r IH K HD).
  - destruct (evaluate_agent W Hhor fuel e a l init ns ne r HD) as (p' & T' & <- & F). apply (good_nofit _ _ _ T' F). exact IH.
Qed.

Lemma trained : forall fuel e a l ns ne k r, reached a -> 2 <= k ->
  CoreModel.learn W fuel e a l ns ne None (Some k) = CoreModel.Done r -> p_ok (CoreModel.r_ag r) = true /\ fits_right answer e a k (CoreModel.r_log r).
Proof. intros fuel e a l ns ne k r H K HD. destruct (learn_good fuel e a l ns ne k r (reached_good a H) K HD) as [[_ A] B]. auto. Qed.
End Props.

(** ** REINFORCE, GPOMDP, eNAC *)
Section Agents.
Context {En Ob Ac Os : Type}.
Variable gamma : R.
Variable dlog : vec -> Ob -> Ac -> vec.
Variable phi : Ob -> list R.
Variable pol : vec -> nat -> Ob -> Ac.
Variable env_reset : En -> option Ob -> En * Ob.
Variable env_step : En -> Ac -> En * Ob * R * bool.
Variable hor : option nat.
Hypothesis Hhor : hor <> Some 0%nat.

Theorem core_reinforce_updates : forall (opt : Os -> vec -> vec -> Os * vec) fuel e a l ns ne k r,
  let W := p_world gamma reinforce dlog phi pol opt env_reset env_step hor in
  reached gamma reinforce rf0 dlog phi pol opt env_reset env_step hor a -> 2 <= k ->
  CoreModel.learn W fuel e a l ns ne None (Some k) = CoreModel.Done r ->
  p_ok (CoreModel.r_ag r) = true /\
  fits_right gamma reinforce dlog phi pol opt env_reset env_step hor (fun eps g => forall i, g i = reinforce_gradient gamma eps i) e a k (CoreModel.r_log r).
Proof.
  intros opt fuel e a l ns ne k r W H K HD.
  apply (trained gamma reinforce rf0 dlog phi pol opt env_reset env_step hor Hhor rf_clean (fun eps g => forall i, g i = reinforce_gradient gamma eps i)) with (fuel := fuel) (l := l) (ns := ns) (ne := ne); auto.
  - repeat split.
  - intros s ds C L _. destruct (rf_fit gamma s ds C L) as (s' & g & E & C' & A). eauto.
Qed.

Theorem core_gpomdp_updates : forall (opt : Os -> vec -> vec -> Os * vec) fuel e a l ns ne k r,
  let W := p_world gamma gpomdp dlog phi pol opt env_reset env_step hor in
  reached gamma gpomdp gp0 dlog phi pol opt env_reset env_step hor a -> 2 <= k ->
  CoreModel.learn W fuel e a l ns ne None (Some k) = CoreModel.Done r ->
  p_ok (CoreModel.r_ag r) = true /\
  fits_right gamma gpomdp dlog phi pol opt env_reset env_step hor (fun eps g => forall i, g i = gpomdp_gradient gamma eps eps i) e a k (CoreModel.r_log r).
Proof.
  intros opt fuel e a l ns ne k r W H K HD.
  apply (trained gamma gpomdp gp0 dlog phi pol opt env_reset env_step hor Hhor gp_clean (fun eps g => forall i, g i = gpomdp_gradient gamma eps eps i)) with (fuel := fuel) (l := l) (ns := ns) (ne := ne); auto.
  - repeat split.
  - intros s ds C L U. destruct (gp_fit gamma s ds C L) as (s' & g & E & C' & A). exists s', g. split; [exact E|]. split; [auto|].
    intros i. rewrite A, U. unfold gpomdp_gradient. f_equal. apply rsum_map_ext. intros ep _. apply rsum_map_ext. intros t _.
    f_equal. f_equal. unfold gpomdp_baseline. rewrite filter_app. cbn [filter length]. rewrite app_nil_r. reflexivity.
Qed.

(** eNAC hands the least-squares problem of the [k] episodes to pinv: per episode the discounted
    score and the critic features of its first state, against the returns. *)
Theorem core_enac_updates : forall (opt : Os -> vec -> (list (vec * list R) * list R) -> Os * vec) fuel e a l ns ne k r,
  let W := p_world gamma enac dlog phi pol opt env_reset env_step hor in
  reached gamma enac en0 dlog phi pol opt env_reset env_step hor a -> 2 <= k ->
  CoreModel.learn W fuel e a l ns ne None (Some k) = CoreModel.Done r ->
  p_ok (CoreModel.r_ag r) = true /\
  fits_right gamma enac dlog phi pol opt env_reset env_step hor (fun eps g => exists psi, g = (psi, map (return_ gamma) eps) /\ length psi = length eps /\
     forall j ep x, nth_error eps j = Some (x :: ep) -> exists v, nth_error psi j = Some (v, phi_c x) /\ forall i, v i = discounted_score gamma (x :: ep) i) e a k (CoreModel.r_log r).
Proof.
  intros opt fuel e a l ns ne k r W H K HD.
  match goal with |- _ /\ fits_right _ _ _ _ _ _ _ _ _ ?A _ _ _ _ => 
  apply (trained gamma enac en0 dlog phi pol opt env_reset env_step hor Hhor (fun s => en_list s = []) A) with (fuel := fuel) (l := l) (ns := ns) (ne := ne); auto end.
  intros s ds C L _. rewrite fit_episodes. cbv zeta. rewrite (proj2 (Nat.ltb_lt _ _) L).
  assert (NE : Forall (fun e => e <> []) (complete lst ds)).
  { eapply Forall_impl; [|apply split_complete]. intros e' (b & x & -> & _). destruct b; discriminate. }
  cbn [a_grad enac en_grad]. unfold en_grad. cbn [en_list].
  assert (EL : forall e df s0, en_list (steps gamma enac df e s0) = en_list s0).
  { induction e0 as [|x e0 IHe]; intros df s0; cbn [steps]; auto. rewrite IHe. reflexivity. }
  rewrite EL, en_episodes by (try reflexivity; auto). cbn [en_list a_init enac en_init]. rewrite C. cbn [app].
  eexists. eexists. split; [reflexivity|]. split; [reflexivity|].
  eexists. split; [reflexivity|]. split; [apply map_length|]. intros j ep x HE. rewrite nth_error_map, HE. cbn [option_map hd]. eexists. split; [reflexivity|]. auto.
Qed.

(** With one episode per fit the first fit raises, whatever the algorithm. *)
Theorem core_policy_gradient_one_episode_raises : forall S G (al : algo S G) s0 (opt : Os -> vec -> G -> Os * vec) fuel e w o n l ns ne r,
  let W := p_world gamma al dlog phi pol opt env_reset env_step hor in
  CoreModel.learn W fuel e (mkPA w s0 o n true) l ns ne None (Some 1) = CoreModel.Done r -> CoreModel.fits_of (CoreModel.r_log r) <> [] ->
  p_ok (CoreModel.r_ag r) = false /\ p_w (CoreModel.r_ag r) = w.
Proof.
  intros S G al s0 opt fuel e w o n l ns ne r W HD NF.
  pose proof (whole_episode_fits W Hhor fuel e _ l ns ne 1 r (le_n 1) HD) as WF.
  destruct (learn_agent W Hhor fuel e (mkPA w s0 o n true) l ns ne None (Some 1) r) as (pe & TR & EA); auto. { right. eauto. }
  assert (GP : forall u v p, CoreModel.r_log r = u ++ v -> CoreSpec.trace W (CoreSpec.Between e (mkPA w s0 o n true)) u p ->
     p_w (agent_of p) = w /\ (CoreModel.fits_of u <> [] -> p_ok (agent_of p) = false)).
  { induction u as [|ev u IH] using rev_ind; intros v p E T.
    - inversion T as [|l' ? ? ? ? ? E1]; [split; [reflexivity|intros Z; destruct (Z eq_refl)]|destruct l'; discriminate].
    - rewrite <- app_assoc in E. destruct (trace_app W _ _ _ _ T) as (q & TU & TE). destruct (IH _ _ E TU) as [IW IO]. apply trace_one in TE.
      rewrite fits_app. destruct ev as [i ob ps th|x|d].
      + cbn [CoreModel.fits_of flat_map]. rewrite app_nil_r. inversion TE; subst; cbn [agent_of] in *.
        repeat match goal with H : CoreModel.prep _ _ _ = _ |- _ => cbn in H; injection H as <- <- | H : CoreModel.ep_start _ _ _ = _ |- _ => cbn in H; injection H as <- <- <- end. auto.
      + cbn [CoreModel.fits_of flat_map]. rewrite app_nil_r. inversion TE; subst; cbn [agent_of] in *.
        match goal with HP : CoreModel.prep _ _ _ = _, HD : CoreModel.draw _ _ _ _ = _ |- _ => cbn in HP; injection HP as <- HP; cbn in HD; injection HD as <- HD1 HD2 end.
        destruct (CoreModel.last x); cbn [agent_of p_w p_ok]; auto.
      + destruct (WF _ _ _ E) as (u0 & w' & e1 & a1 & e2 & a2 & _ & _ & _ & _ & _ & _ & CK & CU).
        assert (Z : forall b : @pagent S Os, p_w (CoreModel.fit W b d) = p_w b /\ p_ok (CoreModel.fit W b d) = false).
        { intros b. cbn [CoreModel.fit p_world W]. unfold p_fit. unfold pg_fit. 
          destruct (complete_map CoreModel.last lst (p_read dlog phi (p_w b)) (fun x => eq_refl) (CoreModel.rows d)) as [EC _].
          pose proof (fit_episodes gamma al (p_s b) (map (p_read dlog phi (p_w b)) (CoreModel.rows d))) as FE. unfold pg_fit in FE. rewrite FE. cbv zeta.
          rewrite EC, map_length, CK. cbn. auto. }
        inversion TE; subst; cbn [agent_of] in *; split; intros; try apply Z; rewrite (proj1 (Z _)); exact IW. }
  destruct (GP (CoreModel.r_log r) [] pe) as [A B]; [rewrite app_nil_r; reflexivity|exact TR|]. rewrite <- EA. auto.
Qed.
End Agents.

(** ** Fits scheduled by steps *)
Local Open Scope R_scope.
(** Episodes of two steps; the reward of the first step is the action, that of the second 0;
    the score of an action is the action; the optimizer returns the gradient. *)
Definition cut_dlog (w : vec) (o : nat) (a : nat) : vec := fun _ => INR a.
Definition cut_pol (w : vec) (n : nat) (o : nat) : nat := nth n [1; 1; 1; 1; 3; 1; 1; 0; 2; 0]%nat 0%nat.
Definition cut_reset (e : nat) (i : option nat) : nat * nat := (0, 0)%nat.
Definition cut_step (e : nat) (a : nat) : nat * nat * R * bool := (Datatypes.S e, Datatypes.S e, if (e =? 0)%nat then INR a else 0, false).
Definition cut_world := p_world 1 reinforce cut_dlog (fun _ => [1]) cut_pol (fun (o : unit) w g => (o, g)) cut_reset cut_step (Some 2%nat).
Definition cut_fit := p_fit 1 reinforce cut_dlog (fun _ : nat => [1]) (fun (o : unit) w g => (o, g)).
Definition cut_read := p_read cut_dlog (fun _ : nat => [1]) vzero.

Lemma cut_fit_spec : forall a d, rf_clean (p_s a) -> (1 < length (complete CoreModel.last (CoreModel.rows d)))%nat ->
  rf_clean (p_s (cut_fit a d)) /\ p_ok (cut_fit a d) = p_ok a /\
  forall i, p_w (cut_fit a d) i = reinforce_gradient 1 (map (map cut_read) (complete CoreModel.last (CoreModel.rows d))) i.
Proof.
  intros a d C L. unfold cut_fit, p_fit.
  destruct (complete_map CoreModel.last lst cut_read (fun x => eq_refl) (CoreModel.rows d)) as [EC _].
  change (p_read cut_dlog (fun _ : nat => [1]) (p_w a)) with cut_read.
  destruct (rf_fit 1 (p_s a) (map cut_read (CoreModel.rows d)) C) as (s' & g & E & C' & A). { rewrite EC, map_length. exact L. }
  rewrite E. cbn [p_s p_ok p_w]. split; [exact C'|]. split; [reflexivity|]. intros i. rewrite A, EC. reflexivity.
Qed.

(** With n_steps_per_fit the end of an episode cut by a fit counts as an episode of its own in
    the next fit: the update is the gradient neither of the whole episodes that the dataset
    contains, nor of these and the cut one. *)
Theorem reinforce_step_schedule_refuted : exists r,
  CoreModel.learn cut_world 20 0%nat (mkPA vzero rf0 tt 0 true) VecCoreModel.fresh_logic (Some 10%nat) None (Some 5%nat) None = CoreModel.Done r /\
  p_ok (CoreModel.r_ag r) = true /\
  let eps := map (map cut_read) (complete CoreModel.last (CoreModel.samples_of (CoreModel.r_log r))) in
  length eps = 5%nat /\
  p_w (CoreModel.r_ag r) 0%nat = - (1 / 3) /\
  reinforce_gradient 1 (skipn 3 eps) 0 = - (1 / 5) /\ reinforce_gradient 1 (skipn 2 eps) 0 = - (2 / 3).
Proof.
  change cut_world with (CoreModel.mkW nat (@pagent rf unit) nat nat R unit unit cut_reset cut_step
    (fun a _ => (a, tt, tt)) (fun a o _ => let (a', b) := p_draw cut_pol a o in (a', b, tt))
    (fun a o => (a, o)) (fun a => a) false (Some 2%nat) cut_fit).
  eexists. split.
  - lazy -[cut_fit INR vzero rf0 IZR]. reflexivity.
  - cbn [CoreModel.r_ag CoreModel.r_log].
    match goal with |- p_ok (cut_fit ?a ?d) = true /\ _ => set (a2 := a); set (d2 := d) end.
    assert (H1 : rf_clean (p_s a2) /\ p_ok a2 = true).
    { unfold a2. cbn [p_s p_ok].
      match goal with |- rf_clean (let (_, _, _, _, _) := cut_fit ?a ?d in _) /\ _ => destruct (cut_fit_spec a d) as (A & B & _) end.
      - repeat split.
      - cbn. lia.
      - split; [exact A|exact B]. }
    destruct H1 as [H1 H2]. destruct (cut_fit_spec a2 d2 H1) as (_ & B & C); [cbn; lia|].
    split; [rewrite B; exact H2|]. cbv zeta. split; [reflexivity|]. rewrite C. clear. unfold d2.
    unfold reinforce_gradient, reinforce_baseline, return_, score_of, quotient, cut_read, p_read, cut_dlog. cbn -[INR]. cbn [INR].
    repeat match goal with |- context [Req_EM_T ?a ?b] => destruct (Req_EM_T a b); try lra end.
Qed.

(** The same world with two episodes per fit: the first fit of four steps gets the two whole
    episodes. *)
Example core_pg_ex : exists r,
  CoreModel.learn cut_world 20 0%nat (mkPA vzero rf0 tt 0 true) VecCoreModel.fresh_logic None (Some 5%nat) None (Some 2%nat) = CoreModel.Done r /\ map (fun d => map CoreModel.action (CoreModel.rows d)) (CoreModel.fits_of (CoreModel.r_log r)) = [[1; 1; 1; 1]; [3; 1; 1; 0]]%nat.
Proof.
  change cut_world with (CoreModel.mkW nat (@pagent rf unit) nat nat R unit unit cut_reset cut_step
    (fun a _ => (a, tt, tt)) (fun a o _ => let (a', b) := p_draw cut_pol a o in (a', b, tt))
    (fun a o => (a, o)) (fun a => a) false (Some 2%nat) cut_fit).
  eexists. split; [lazy -[cut_fit INR vzero rf0 IZR]; reflexivity|reflexivity].
Qed.

Print Assumptions core_reinforce_updates.
Print Assumptions core_gpomdp_updates.
Print Assumptions core_enac_updates.
Print Assumptions core_policy_gradient_one_episode_raises.
Print Assumptions reinforce_step_schedule_refuted.

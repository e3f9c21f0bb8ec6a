(** C112: training in several calls, and from a saved agent. *)
From Coq Require Import List Arith Lia Bool Reals Lra Permutation.
From Verif Require Import Common ReplayModel ReplaySpec ReplayProofs SumTreeModel DqnModel CoreDqnModel ResumeModel.
From Verif Require CoreModel CoreSpec CoreProofs CoreProps CoreDqnProps CoreSarsaModel CoreReplayModel CoreReplayProps CorePerModel CorePerProps.
Import ListNotations.

(** ** Core uses the agent only through its methods *)
Section Bisim.
Context {En Ag1 Ag2 Ob Ac Rw Ps Th : Type}.
Variable W1 : CoreModel.world En Ag1 Ob Ac Rw Ps Th.
Variable W2 : CoreModel.world En Ag2 Ob Ac Rw Ps Th.

(** What Core and the environment see of a run: everything but the agent. *)
Definition seen {Ag} (r : @CoreModel.run En Ag Ob Ac Rw Ps Th) :=
  (CoreModel.r_env r, CoreModel.r_logic r, CoreModel.r_obs r, CoreModel.r_ps r, CoreModel.r_steps r,
   CoreModel.r_last r, CoreModel.r_ds r, CoreModel.r_log r).

(** Two outcomes that look the same, with agents related by [Q]. *)
Definition alike (Q : Ag1 -> Ag2 -> Prop) (o1 : @CoreModel.outcome En Ag1 Ob Ac Rw Ps Th) (o2 : @CoreModel.outcome En Ag2 Ob Ac Rw Ps Th) : Prop :=
  match o1, o2 with
  | CoreModel.Done r1, CoreModel.Done r2 => seen r1 = seen r2 /\ Q (CoreModel.r_ag r1) (CoreModel.r_ag r2)
  | CoreModel.Crash, CoreModel.Crash => True
  | CoreModel.OutOfFuel, CoreModel.OutOfFuel => True
  | _, _ => False
  end.

(** [Pre] relates agents before an episode starts, [Q] from then on. *)
Variables Pre Q : Ag1 -> Ag2 -> Prop.
Record similar (fits : bool) : Prop := {
  sim_env_reset : forall e i, CoreModel.env_reset W1 e i = CoreModel.env_reset W2 e i;
  sim_env_step : forall e u, CoreModel.env_step W1 e u = CoreModel.env_step W2 e u;
  sim_horizon : CoreModel.horizon W1 = CoreModel.horizon W2;
  sim_episodic : CoreModel.is_episodic W1 = CoreModel.is_episodic W2;
  sim_start : forall a1 a2 o, Pre a1 a2 \/ Q a1 a2 ->
    let '(b1, p1, t1) := CoreModel.ep_start W1 a1 o in let '(b2, p2, t2) := CoreModel.ep_start W2 a2 o in
    let (c1, o1) := CoreModel.prep W1 b1 o in let (c2, o2) := CoreModel.prep W2 b2 o in
    p1 = p2 /\ t1 = t2 /\ o1 = o2 /\ Q (CoreModel.clear_next W1 c1) (CoreModel.clear_next W2 c2);
  sim_draw : forall a1 a2 o p, Q a1 a2 ->
    let '(b1, u1, p1) := CoreModel.draw W1 a1 o p in let '(b2, u2, p2) := CoreModel.draw W2 a2 o p in
    u1 = u2 /\ p1 = p2 /\ Q b1 b2;
  sim_prep : forall a1 a2 o, Q a1 a2 ->
    let (b1, o1) := CoreModel.prep W1 a1 o in let (b2, o2) := CoreModel.prep W2 a2 o in o1 = o2 /\ Q b1 b2;
  sim_fit : fits = true -> forall a1 a2 d, Q a1 a2 -> Q (CoreModel.fit W1 a1 d) (CoreModel.fit W2 a2 d) }.

Definition run_alike (r1 : @CoreModel.run En Ag1 Ob Ac Rw Ps Th) (r2 : @CoreModel.run En Ag2 Ob Ac Rw Ps Th) : Prop :=
  seen r1 = seen r2 /\ (CoreModel.r_last r1 = true /\ Pre (CoreModel.r_ag r1) (CoreModel.r_ag r2) \/ Q (CoreModel.r_ag r1) (CoreModel.r_ag r2)).

Lemma iterate_alike : forall fits cap init r1 r2, similar fits ->
  (fits = false -> CoreModel.fit_req (CoreModel.r_logic r1) = CoreModel.FitNever) -> run_alike r1 r2 ->
  match CoreModel.iterate W1 cap init r1, CoreModel.iterate W2 cap init r2 with
  | Some r1', Some r2' => seen r1' = seen r2' /\ Q (CoreModel.r_ag r1') (CoreModel.r_ag r2') /\
       CoreModel.fit_req (CoreModel.r_logic r1') = CoreModel.fit_req (CoreModel.r_logic r1)
  | None, None => True
  | _, _ => False
  end.
Proof.
  intros fits cap init [e a1 l o p st la ds log] [e2 a2 l2 o2 p2 st2 la2 ds2 log2] S NF [E R].
  unfold seen in E. cbn in E. injection E as <- <- <- <- <- <- <- <-. cbn [CoreModel.r_last CoreModel.r_ag CoreModel.r_logic] in R, NF.
  unfold CoreModel.iterate. cbn [CoreModel.r_last].
  assert (X : match (if la then CoreModel.do_reset W1 init (CoreModel.mkR e a1 l o p st la ds log) else Some (CoreModel.mkR e a1 l o p st la ds log)),
                    (if la then CoreModel.do_reset W2 init (CoreModel.mkR e a2 l o p st la ds log) else Some (CoreModel.mkR e a2 l o p st la ds log)) with
              | Some r1, Some r2 => seen r1 = seen r2 /\ Q (CoreModel.r_ag r1) (CoreModel.r_ag r2) /\ CoreModel.r_logic r1 = l
              | None, None => True | _, _ => False end).
  { destruct la.
    - unfold CoreModel.do_reset. cbn [CoreModel.r_logic CoreModel.r_env CoreModel.r_ag CoreModel.r_ds CoreModel.r_log CoreModel.r_last].
      destruct (CoreModel.get_initial_state l init) as [i0|]; [|exact Logic.I].
      rewrite <- (sim_env_reset _ S). destruct (CoreModel.env_reset W1 e i0) as [e' raw].
      pose proof (sim_start _ S a1 a2 raw) as SS. rewrite <- (sim_episodic _ S).
      destruct (CoreModel.ep_start W1 a1 raw) as [[b1 p1] t1]. destruct (CoreModel.ep_start W2 a2 raw) as [[b2 p2] t2].
      destruct (CoreModel.prep W1 b1 raw) as [c1 o1]. destruct (CoreModel.prep W2 b2 raw) as [c2 o2].
      destruct SS as (-> & -> & -> & HQ); [destruct R as [[_ R]|R]; auto|].
      cbn. repeat split. exact HQ.
    - destruct R as [[R _]|R]; [discriminate|]. cbn. repeat split. exact R. }
  destruct (if la then CoreModel.do_reset W1 _ _ else _) as [r1|]; destruct (if la then CoreModel.do_reset W2 _ _ else _) as [r2|]; try contradiction; [|exact Logic.I].
  destruct X as (E & HQ & HL). clear R. unfold obind. cbn beta iota.
  destruct r1 as [e1 a1' l1 o1 p1 st1 la1 ds1 log1], r2 as [e2 a2' l2 o2 p2 st2 la2 ds2 log2].
  unfold seen in E. cbn in E. injection E as <- <- <- <- <- <- <- <-. cbn in HQ, HL. subst l1.
  unfold CoreModel.do_step. cbn [CoreModel.r_obs CoreModel.r_ps CoreModel.r_ag CoreModel.r_env CoreModel.r_steps CoreModel.r_logic CoreModel.r_last CoreModel.r_ds CoreModel.r_log].
  destruct o1 as [o1|]; [|exact Logic.I]. destruct p1 as [p1|]; [|exact Logic.I].
  pose proof (sim_draw _ S a1' a2' o1 p1 HQ) as SD.
  destruct (CoreModel.draw W1 a1' o1 p1) as [[b1 u1] q1]. destruct (CoreModel.draw W2 a2' o1 p1) as [[b2 u2] q2]. destruct SD as (-> & -> & HB).
  rewrite <- (sim_env_step _ S). destruct (CoreModel.env_step W1 e1 u2) as [[[e' raw] rw] ab]. rewrite <- (sim_horizon _ S).
  pose proof (sim_prep _ S b1 b2 raw HB) as SP. destruct (CoreModel.prep W1 b1 raw) as [c1 n1]. destruct (CoreModel.prep W2 b2 raw) as [c2 n2]. destruct SP as (-> & HC).
  cbn [CoreModel.r_obs CoreModel.r_ps CoreModel.r_ag CoreModel.r_env CoreModel.r_steps CoreModel.r_logic CoreModel.r_last CoreModel.r_ds CoreModel.r_log].
  destruct (_ <? cap); [|exact Logic.I].
  match goal with |- context [CoreModel.fit_required ?x] => destruct (CoreModel.fit_required x) as [[|]|] eqn:FR end; [| |exact Logic.I].
  - cbn. split; [reflexivity|]. split; [|reflexivity]. apply (sim_fit _ S); [|exact HC].
    destruct fits; [reflexivity|]. specialize (NF eq_refl). unfold CoreModel.fit_required in FR. cbn in FR. rewrite NF in FR. discriminate.
  - cbn. split; [reflexivity|]. split; [exact HC|reflexivity].
Qed.

Lemma loop_alike : forall fits cap init, similar fits -> forall fuel r1 r2,
  (fits = false -> CoreModel.fit_req (CoreModel.r_logic r1) = CoreModel.FitNever) -> run_alike r1 r2 ->
  match CoreModel.loop W1 fuel cap init r1, CoreModel.loop W2 fuel cap init r2 with
  | CoreModel.Done r1', CoreModel.Done r2' => seen r1' = seen r2' /\ (Q (CoreModel.r_ag r1') (CoreModel.r_ag r2') \/ r1' = r1 /\ r2' = r2)
  | CoreModel.Crash, CoreModel.Crash => True
  | CoreModel.OutOfFuel, CoreModel.OutOfFuel => True
  | _, _ => False
  end.
Proof.
  intros fits cap init S. induction fuel as [|f IH]; intros r1 r2 NF RA.
  - assert (EL : CoreModel.r_logic r1 = CoreModel.r_logic r2) by (destruct RA as [E _]; unfold seen in E; congruence).
    cbn [CoreModel.loop]. rewrite <- EL. destruct (CoreModel.move_required _) as [[|]|]; auto. destruct RA. auto.
  - assert (EL : CoreModel.r_logic r1 = CoreModel.r_logic r2) by (destruct RA as [E _]; unfold seen in E; congruence).
    cbn [CoreModel.loop]. rewrite <- EL. destruct (CoreModel.move_required _) as [[|]|]; [| |exact Logic.I].
    + pose proof (iterate_alike fits cap init r1 r2 S NF RA) as IA.
      destruct (CoreModel.iterate W1 cap init r1) as [r1'|], (CoreModel.iterate W2 cap init r2) as [r2'|]; try contradiction; [|exact Logic.I].
      destruct IA as (E & HQ & FR).
      assert (NF' : fits = false -> CoreModel.fit_req (CoreModel.r_logic r1') = CoreModel.FitNever) by (intros F; rewrite FR; auto).
      specialize (IH r1' r2' NF' (conj E (or_intror HQ))).
      destruct (CoreModel.loop W1 f cap init r1'), (CoreModel.loop W2 f cap init r2'); auto.
      destruct IH as (E' & [H|[-> ->]]); auto.
    + destruct RA. auto.
Qed.

(** In the same environment, learning with related agents looks the same and leaves related
    agents: as soon as one step is made, [Q] holds. *)
Theorem core_learn_alike : forall fuel e a1 a2 l ns ne spf epf, similar true -> Pre a1 a2 ->
  alike (fun b1 b2 => Q b1 b2 \/ b1 = a1 /\ b2 = a2) (CoreModel.learn W1 fuel e a1 l ns ne spf epf) (CoreModel.learn W2 fuel e a2 l ns ne spf epf).
Proof.
  intros fuel e a1 a2 l ns ne spf epf S HP. unfold CoreModel.learn.
  destruct (CoreModel.initialize_learn l spf epf) as [l1|]; [|exact Logic.I].
  unfold CoreModel.capacity. rewrite <- (sim_horizon _ S).
  match goal with |- context [match ?c with Some _ => _ | None => _ end] => destruct c as [cap|] end; [|exact Logic.I].
  destruct (CoreModel.initialize_run l1 ns ne None) as [l2|]; [|exact Logic.I].
  pose proof (loop_alike true cap None S fuel (CoreModel.start e a1 l2) (CoreModel.start e a2 l2)) as L.
  unfold alike. destruct (CoreModel.loop W1 fuel cap None _), (CoreModel.loop W2 fuel cap None _);
  destruct L; try discriminate; try contradiction; auto;
  try (split; [reflexivity|left; split; [reflexivity|exact HP]]).
  split; [assumption|]. destruct H0 as [H0|[-> ->]]; auto.
Qed.

(** Evaluation does not even look at [fit]. *)
Theorem core_evaluate_alike : forall fuel e a1 a2 l init ns ne, similar false -> Pre a1 a2 ->
  alike (fun b1 b2 => Q b1 b2 \/ b1 = a1 /\ b2 = a2) (CoreModel.evaluate W1 fuel e a1 l init ns ne) (CoreModel.evaluate W2 fuel e a2 l init ns ne).
Proof.
  intros fuel e a1 a2 l init ns ne S HP. unfold CoreModel.evaluate, CoreModel.capacity. rewrite <- (sim_horizon _ S).
  match goal with |- context [match ?c with Some _ => _ | None => _ end] => destruct c as [cap|] end; [|exact Logic.I].
  destruct (CoreModel.initialize_run (CoreModel.initialize_evaluate l) ns ne init) as [l2|] eqn:EI; [|exact Logic.I].
  pose proof (loop_alike false cap init S fuel (CoreModel.start e a1 l2) (CoreModel.start e a2 l2)) as L.
  assert (FN : CoreModel.fit_req l2 = CoreModel.FitNever).
  { unfold CoreModel.initialize_run in EI. destruct ne, ns, init; inversion EI; reflexivity. }
  unfold alike. destruct (CoreModel.loop W1 fuel cap init _), (CoreModel.loop W2 fuel cap init _);
  destruct L; try discriminate; try contradiction; auto;
  try (split; [reflexivity|left; split; [reflexivity|exact HP]]).
  split; [assumption|]. destruct H0 as [H0|[-> ->]]; auto.
Qed.
End Bisim.

(** Experiments (C104) with related agents correspond. *)
Lemma experiment_alike : forall {En Ag1 Ag2 Ob Ac Rw Ps Th : Type} (W1 : CoreModel.world En Ag1 Ob Ac Rw Ps Th) (W2 : CoreModel.world En Ag2 Ob Ac Rw Ps Th)
    (Q : Ag1 -> Ag2 -> Prop) e0 a1 a2 ds xs e b1, similar W1 W2 Q Q true -> Q a1 a2 ->
  CoreReplayProps.experiment W1 e0 a1 ds xs e b1 -> exists b2, CoreReplayProps.experiment W2 e0 a2 ds xs e b2 /\ Q b1 b2.
Proof.
  intros En Ag1 Ag2 Ob Ac Rw Ps Th W1 W2 Q e0 a1 a2 ds xs e b1 S HQ X.
  assert (S' : similar W1 W2 Q Q false) by (destruct S; constructor; auto; discriminate).
  induction X.
  - exists a2. split; [constructor|exact HQ].
  - destruct IHX as (b2 & X2 & Q2). pose proof (core_learn_alike W1 W2 Q Q fuel e a b2 l ns ne spf epf S Q2) as L.
    unfold alike in L. rewrite H1 in L. destruct (CoreModel.learn W2 fuel e b2 l ns ne spf epf) as [r2| |] eqn:E2; [|contradiction|contradiction].
    destruct L as [SE QQ]. exists (CoreModel.r_ag r2). split; [|destruct QQ as [QQ|[-> ->]]; auto].
    unfold seen in SE. replace (CoreModel.r_env r) with (CoreModel.r_env r2) by congruence.
    replace (CoreModel.r_log r) with (CoreModel.r_log r2) by congruence.
    refine (CoreReplayProps.ex_learn W2 e0 a2 ds xs e b2 fuel l ns ne spf epf r2 X2 _ _ E2); assumption.
  - destruct IHX as (b2 & X2 & Q2). pose proof (core_evaluate_alike W1 W2 Q Q fuel e a b2 l init ns ne S' Q2) as L.
    unfold alike in L. rewrite H in L. destruct (CoreModel.evaluate W2 fuel e b2 l init ns ne) as [r2| |] eqn:E2; [|contradiction|contradiction].
    destruct L as [SE QQ]. exists (CoreModel.r_ag r2). split; [|destruct QQ as [QQ|[-> ->]]; auto].
    unfold seen in SE. replace (CoreModel.r_env r) with (CoreModel.r_env r2) by congruence.
    exact (CoreReplayProps.ex_evaluate W2 e0 a2 ds xs e b2 fuel l init ns ne r2 X2 E2).
Qed.

(** ** SARSA agents: the lost next action makes no difference *)
Section Sarsa.
Context {En Ob Ac L : Type}.
Variable (pol : L -> nat -> Ob -> Ac) (upd : L -> CoreModel.sample Ob Ac R unit -> Ac -> L) (begin : L -> L).
Variable (ereset : En -> option Ob -> En * Ob) (estep : En -> Ac -> En * Ob * R * bool) (hor : option nat).
Notation W := (CoreSarsaModel.s_world pol upd begin ereset estep hor).

Lemma sarsa_similar : forall fits, similar W W (fun a1 a2 => reload_sarsa a1 = a2) eq fits.
Proof.
  intros fits. constructor; try reflexivity.
  - intros a1 a2 o [<-| ->]; cbn; repeat split.
  - intros a1 a2 o p ->. destruct (CoreModel.draw W a2 o p) as [[b u] q]. auto.
  - intros a1 a2 o ->. destruct (CoreModel.prep W a2 o). auto.
  - intros _ a1 a2 d ->. reflexivity.
Qed.

(** Learning or evaluating with the loaded agent is learning or evaluating with the agent that was
    saved: the same outcome, and the same agent afterwards once a step was made. *)
Theorem sarsa_resumes : forall fuel e a l ns ne spf epf,
  alike (fun a1 a2 => a1 = a2 \/ a1 = a /\ a2 = reload_sarsa a)
    (CoreModel.learn W fuel e a l ns ne spf epf) (CoreModel.learn W fuel e (reload_sarsa a) l ns ne spf epf).
Proof. intros. apply (core_learn_alike W W (fun a1 a2 => reload_sarsa a1 = a2) eq); [apply sarsa_similar|reflexivity]. Qed.

Theorem sarsa_loaded_evaluates : forall fuel e a l init ns ne,
  alike (fun a1 a2 => a1 = a2 \/ a1 = a /\ a2 = reload_sarsa a)
    (CoreModel.evaluate W fuel e a l init ns ne) (CoreModel.evaluate W fuel e (reload_sarsa a) l init ns ne).
Proof. intros. apply (core_evaluate_alike W W (fun a1 a2 => reload_sarsa a1 = a2) eq); [apply sarsa_similar|reflexivity]. Qed.
End Sarsa.

(** ** Agents with a replay memory, saved without data *)
Section Replay.
Context {En Ob Ac L P : Type}.
Variable (learn : L -> nat -> nat -> list (sample Ob Ac unit) -> L).
Variable (tick : L -> L).
Variable (pol : L -> P -> Ob -> P * Ac).
Variable (pstart : L -> P -> Ob -> P).
Variable (drawn : nat -> nat -> list nat).
Variable (ereset : En -> option Ob -> En * Ob) (estep : En -> Ac -> En * Ob * R * bool) (hor : option nat).
Notation ragent := (CoreReplayModel.ragent (Ob:=Ob) (Ac:=Ac) (L:=L) (P:=P)).
Notation W := (CoreReplayModel.replay_world learn tick pol pstart drawn ereset estep hor).

(** The same learner and policy; the memories may differ. *)
Definition same_learner (a1 a2 : ragent) : Prop :=
  CoreReplayModel.r_learner a1 = CoreReplayModel.r_learner a2 /\ CoreReplayModel.r_pol a1 = CoreReplayModel.r_pol a2.

(** The loaded agent acts like the saved one: an evaluation gives the same dataset. *)
Theorem replay_loaded_evaluates : forall fuel e a l init ns ne,
  alike same_learner (CoreModel.evaluate W fuel e a l init ns ne) (CoreModel.evaluate W fuel e (reload_replay a) l init ns ne).
Proof.
  intros. pose proof (core_evaluate_alike W W same_learner same_learner fuel e a (reload_replay a) l init ns ne) as H.
  unfold alike in *. destruct (CoreModel.evaluate W fuel e a l init ns ne), (CoreModel.evaluate W fuel e (reload_replay a) l init ns ne);
  destruct H as [];
  try (split; [assumption|]);
  try (constructor; try reflexivity; try discriminate;
    [intros a1 a2 o [[H1 H2]|[H1 H2]]; cbn; rewrite H1, H2; repeat split
    |intros a1 a2 o p [H1 H2]; cbn; unfold CoreReplayModel.replay_draw; rewrite H1, H2;
     destruct (pol (CoreReplayModel.r_learner a2) (CoreReplayModel.r_pol a2) o); repeat split; cbn; auto
    |intros a1 a2 o H; cbn; auto]); try (split; reflexivity); try exact Logic.I.
  destruct H0 as [H0|[-> ->]]; [exact H0|split; reflexivity].
Qed.

Variable (bs : nat).
Hypothesis DR : forall i len, 1 <= len -> length (drawn i len) = bs /\ Forall (fun j => j < len) (drawn i len).
Hypothesis Hhor : hor <> Some 0.

(** Whatever happened before the save, every experiment with the loaded agent goes on from its
    learner: fit number i after the load (number k + i in all) does what it must do with the
    transitions fitted since the load, and nothing is learnt from before more than the initial
    number of them has been fitted again. *)
Theorem replay_resumes : forall a0 e0 ds xs e a,
  1 <= m_max (CoreReplayModel.r_mem a0) -> CoreReplayModel.r_ok a0 = true ->
  CoreReplayProps.experiment W e0 (reload_replay a0) ds xs e a ->
  let k := CoreReplayModel.r_fits a0 in
  let s0 := CoreReplayModel.r_learner a0 in
  CoreReplayModel.r_ok a = true /\ CoreReplayProps.subseq (concat (map CoreModel.rows ds)) xs /\
  exists hist, length hist = S (length ds) /\ nth 0 hist s0 = s0 /\ CoreReplayModel.r_learner a = nth (length ds) hist s0 /\
    forall i, i < length ds ->
      CoreReplayProps.fit_ok (fun s j => learn s (k + j)) tick (fun j => drawn (k + j)) (m_initial (CoreReplayModel.r_mem a0))
        (m_max (CoreReplayModel.r_mem a0)) s0 ds hist i.
Proof.
  intros a0 e0 ds xs e a M1 OK X k s0.
  set (W2 := CoreReplayModel.replay_world (fun s j => learn s (k + j)) tick pol pstart (fun j => drawn (k + j)) ereset estep hor).
  set (Q := fun a1 a2 : ragent => CoreReplayModel.r_mem a1 = CoreReplayModel.r_mem a2 /\ CoreReplayModel.r_learner a1 = CoreReplayModel.r_learner a2 /\
     CoreReplayModel.r_pol a1 = CoreReplayModel.r_pol a2 /\ CoreReplayModel.r_fits a1 = k + CoreReplayModel.r_fits a2 /\ CoreReplayModel.r_ok a1 = CoreReplayModel.r_ok a2).
  assert (S : similar W W2 Q Q true).
  { constructor; try reflexivity.
    - intros [m1 l1 p1 f1 k1 h1] [m2 l2 p2 f2 k2 h2] o [H|H]; unfold Q in *; cbn in *; intuition congruence.
    - intros [m1 l1 p1 f1 k1 h1] [m2 l2 p2 f2 k2 h2] o ps H. unfold Q in *. cbn in *. unfold CoreReplayModel.replay_draw. cbn.
      destruct H as (-> & -> & -> & -> & ->). destruct (pol l2 p2 o). cbn. auto 10.
    - intros a1 a2 o H. cbn. auto.
    - intros _ [m1 l1 p1 f1 k1 h1] [m2 l2 p2 f2 k2 h2] d H. unfold Q in H. cbn in H. destruct H as (-> & -> & -> & -> & ->).
      cbn [CoreModel.fit CoreReplayModel.replay_world W2]. unfold CoreReplayModel.replay_fit. cbn [CoreReplayModel.r_mem CoreReplayModel.r_fits CoreReplayModel.r_learner].
      destruct (add m2 _ 1 1) as [[m rw]|]; [|unfold Q; cbn; auto 10].
      destruct (initialized m); [|unfold Q; cbn; repeat split; auto; lia].
      destruct (get m _); unfold Q; cbn; repeat split; auto; lia. }
  set (a2 := CoreReplayModel.replay_init (Ob:=Ob) (Ac:=Ac) (m_initial (CoreReplayModel.r_mem a0)) (m_max (CoreReplayModel.r_mem a0)) s0 (CoreReplayModel.r_pol a0)).
  assert (Q0 : Q (reload_replay a0) a2) by (unfold Q; cbn; repeat split; auto; lia).
  destruct (experiment_alike W W2 Q e0 (reload_replay a0) a2 ds xs e a S Q0 X) as (b & XB & QB).
  assert (DR' : forall i len, 1 <= len -> length (drawn (k + i) len) = bs /\ Forall (fun j => j < len) (drawn (k + i) len)) by auto.
  destruct (CoreReplayProps.replay_agent_experiment (fun s j => learn s (k + j)) tick pol pstart (fun j => drawn (k + j))
    (m_initial (CoreReplayModel.r_mem a0)) (m_max (CoreReplayModel.r_mem a0)) bs s0 (CoreReplayModel.r_pol a0) DR' M1 ereset estep hor e0 ds xs e b Hhor XB)
    as (B1 & B2 & B3 & B4 & B5 & B6).
  destruct QB as (_ & QL & _ & _ & QO). split; [congruence|]. split; [exact B2|].
  exists (CoreReplayModel.r_hist b). rewrite QL. auto.
Qed.
End Replay.

(** ** Training in several calls *)
Section Split.
Context {En Ag Ob Ac Rw Ps Th : Type}.
Variable W : CoreModel.world En Ag Ob Ac Rw Ps Th.
Notation run := (@CoreModel.run En Ag Ob Ac Rw Ps Th).
Notation event := (CoreModel.event Ob Ac Rw Ps Th).

(** What a call of learn leaves: environment, agent, dataset not yet fitted, events. *)
Definition left_by (r : run) := (CoreModel.r_env r, CoreModel.r_ag r, CoreModel.r_last r, CoreModel.r_ds r, CoreModel.r_log r).

(** The sum of two budgets of the same kind. *)
Definition both (x y : option nat) : option nat := match x, y with Some n, Some m => Some (n + m) | _, _ => None end.

Definition shift_logic (ns ne : option nat) (ts te : nat) (l : CoreModel.logic) : CoreModel.logic :=
  CoreModel.mkL (CoreModel.fit_req l) (CoreModel.move_req l) ns ne (CoreModel.n_steps_per_fit l) (CoreModel.n_episodes_per_fit l)
    (CoreModel.tot_ep l + te) (CoreModel.tot_st l + ts) (CoreModel.cur_ep l) (CoreModel.cur_st l).
Definition shift (ns ne : option nat) (ts te : nat) (pre : list event) (r : run) : run :=
  CoreModel.mkR (CoreModel.r_env r) (CoreModel.r_ag r) (shift_logic ns ne ts te (CoreModel.r_logic r)) (CoreModel.r_obs r) (CoreModel.r_ps r)
    (CoreModel.r_steps r) (CoreModel.r_last r) (CoreModel.r_ds r) (pre ++ CoreModel.r_log r).
Definition norm (r : run) : run :=
  CoreModel.mkR (CoreModel.r_env r) (CoreModel.r_ag r) (CoreModel.r_logic r) None None 0 (CoreModel.r_last r) (CoreModel.r_ds r) (CoreModel.r_log r).

Local Arguments CoreModel.after_step : simpl never.
Local Arguments CoreModel.after_fit : simpl never.
Local Arguments CoreModel.fit_required : simpl never.
Local Arguments shift_logic : simpl never.
Local Arguments Nat.ltb : simpl never.
Local Arguments Nat.leb : simpl never.

Lemma iterate_shift : forall cap ns ne ts te pre r,
  CoreModel.iterate W cap None (shift ns ne ts te pre r) = option_map (shift ns ne ts te pre) (CoreModel.iterate W cap None r).
Proof.
  intros cap ns ne ts te pre [e a l o p st la ds log].
  unfold CoreModel.iterate, CoreModel.do_reset, CoreModel.do_step, obind. cbn.
  assert (FR : forall b, CoreModel.fit_required (CoreModel.after_step (shift_logic ns ne ts te l) b) = CoreModel.fit_required (CoreModel.after_step l b)) by reflexivity.
  assert (AS : forall b, CoreModel.after_step (shift_logic ns ne ts te l) b = shift_logic ns ne ts te (CoreModel.after_step l b)).
  { intros b. unfold CoreModel.after_step, shift_logic. cbn. f_equal; lia. }
  assert (AF : forall b, CoreModel.after_fit (CoreModel.after_step (shift_logic ns ne ts te l) b) = shift_logic ns ne ts te (CoreModel.after_fit (CoreModel.after_step l b))).
  { intros b. rewrite AS. reflexivity. }
  destruct la; cbn.
  - destruct (CoreModel.env_reset W e None) as [e' raw]. destruct (CoreModel.ep_start W a raw) as [[a1 ps] th].
    destruct (CoreModel.prep W a1 raw) as [a2 o']. cbn.
    destruct (CoreModel.draw W (CoreModel.clear_next W a2) o' ps) as [[a3 u] q]. destruct (CoreModel.env_step W e' u) as [[[e2 raw2] rw] ab].
    destruct (CoreModel.prep W a3 raw2) as [a4 o2]. cbn [CoreModel.r_ds CoreModel.r_logic CoreModel.last CoreModel.r_env CoreModel.r_ag CoreModel.r_obs CoreModel.r_ps CoreModel.r_steps CoreModel.r_log CoreModel.r_last].
    rewrite FR. destruct (_ <? cap); [|reflexivity]. destruct (CoreModel.fit_required _) as [[|]|]; [| |reflexivity].
    + cbn. unfold shift. cbn. f_equal. f_equal; [apply AF|]. rewrite !app_assoc. reflexivity.
    + cbn. unfold shift. cbn. f_equal. f_equal; [apply AS|]. rewrite !app_assoc. reflexivity.
  - destruct o as [o|]; [|reflexivity]. destruct p as [p|]; [|reflexivity].
    destruct (CoreModel.draw W a o p) as [[a3 u] q]. destruct (CoreModel.env_step W e u) as [[[e2 raw2] rw] ab].
    destruct (CoreModel.prep W a3 raw2) as [a4 o2]. cbn [CoreModel.r_ds CoreModel.r_logic CoreModel.last CoreModel.r_env CoreModel.r_ag CoreModel.r_obs CoreModel.r_ps CoreModel.r_steps CoreModel.r_log CoreModel.r_last].
    rewrite FR. destruct (_ <? cap); [|reflexivity]. destruct (CoreModel.fit_required _) as [[|]|]; [| |reflexivity].
    + cbn. unfold shift. cbn. f_equal. f_equal; [apply AF|]. rewrite !app_assoc. reflexivity.
    + cbn. unfold shift. cbn. f_equal. f_equal; [apply AS|]. rewrite !app_assoc. reflexivity.
Qed.

(** What stays the same along the loop. *)
Definition setup (l : CoreModel.logic) := (CoreModel.fit_req l, CoreModel.move_req l, CoreModel.n_steps l, CoreModel.n_episodes l, CoreModel.n_steps_per_fit l, CoreModel.n_episodes_per_fit l).
(** An empty dataset has no counters and no parameters. *)
Definition clean (r : run) : Prop :=
  CoreModel.rows (CoreModel.r_ds r) = [] -> CoreModel.r_ds r = CoreModel.mkD [] [] /\ CoreModel.cur_ep (CoreModel.r_logic r) = 0 /\ CoreModel.cur_st (CoreModel.r_logic r) = 0.

Lemma iterate_keeps : forall cap r r', CoreModel.iterate W cap None r = Some r' ->
  setup (CoreModel.r_logic r') = setup (CoreModel.r_logic r) /\ clean r' /\
  CoreModel.tot_st (CoreModel.r_logic r') = CoreModel.tot_st (CoreModel.r_logic r) + 1 /\
  CoreModel.tot_ep (CoreModel.r_logic r') <= CoreModel.tot_ep (CoreModel.r_logic r) + 1.
Proof.
  intros cap [e a l o p st la ds log] r'. unfold CoreModel.iterate, CoreModel.do_reset, CoreModel.do_step, obind.
  assert (G : forall e a ds log o p st o' p' (a' : Ag) (e' : En) x la' (lst : bool),
    (if length (CoreModel.rows ds) <? cap
     then match CoreModel.fit_required (CoreModel.after_step l lst) with
          | Some true => Some (CoreModel.mkR e (CoreModel.fit W a (CoreModel.mkD (CoreModel.rows ds ++ [x]) (CoreModel.thetas ds))) (CoreModel.after_fit (CoreModel.after_step l lst))
                 o p st la' (CoreModel.mkD [] []) (log ++ [CoreModel.EvFit (CoreModel.mkD (CoreModel.rows ds ++ [x]) (CoreModel.thetas ds))]))
          | Some false => Some (CoreModel.mkR e' a' (CoreModel.after_step l lst) o' p' st la' (CoreModel.mkD (CoreModel.rows ds ++ [x]) (CoreModel.thetas ds)) log)
          | None => None end
     else None) = Some r' ->
    setup (CoreModel.r_logic r') = setup l /\ clean r' /\
    CoreModel.tot_st (CoreModel.r_logic r') = CoreModel.tot_st l + 1 /\ CoreModel.tot_ep (CoreModel.r_logic r') <= CoreModel.tot_ep l + 1).
  { intros e0 a0 ds0 log0 o0 p0 st0 o' p' a' e' x la' lst. destruct (_ <? cap); [|discriminate].
    destruct (CoreModel.fit_required _) as [[|]|]; [| |discriminate]; intros E; injection E as <-; cbn.
    - split; [reflexivity|]. split; [intros _; repeat split|]. unfold CoreModel.after_fit, CoreModel.after_step; cbn. destruct lst; split; lia.
    - split; [reflexivity|]. split; [|unfold CoreModel.after_step; cbn; destruct lst; split; lia].
      intros H. cbn in H. destruct (CoreModel.rows ds0); discriminate. }
  destruct la; cbn.
  - destruct (CoreModel.env_reset W e None) as [e' raw]. destruct (CoreModel.ep_start W a raw) as [[a1 ps] th].
    destruct (CoreModel.prep W a1 raw) as [a2 o']. cbn.
    destruct (CoreModel.draw W (CoreModel.clear_next W a2) o' ps) as [[a3 u] q]. destruct (CoreModel.env_step W e' u) as [[[e2 raw2] rw] ab].
    destruct (CoreModel.prep W a3 raw2) as [a4 o2].
    cbn [CoreModel.r_ds CoreModel.r_logic CoreModel.last CoreModel.r_env CoreModel.r_ag CoreModel.r_obs CoreModel.r_ps CoreModel.r_steps CoreModel.r_log CoreModel.r_last].
    intros H. eapply G. exact H.
  - destruct o as [o|]; [|discriminate]. destruct p as [p|]; [|discriminate].
    destruct (CoreModel.draw W a o p) as [[a3 u] q]. destruct (CoreModel.env_step W e u) as [[[e2 raw2] rw] ab].
    destruct (CoreModel.prep W a3 raw2) as [a4 o2].
    cbn [CoreModel.r_ds CoreModel.r_logic CoreModel.last CoreModel.r_env CoreModel.r_ag CoreModel.r_obs CoreModel.r_ps CoreModel.r_steps CoreModel.r_log CoreModel.r_last].
    intros H. eapply G. exact H.
Qed.

Definition in_budget (l : CoreModel.logic) : Prop :=
  match CoreModel.move_req l with
  | CoreModel.MoveSteps => exists n, CoreModel.n_steps l = Some n /\ CoreModel.tot_st l <= n
  | CoreModel.MoveEpisodes => exists n, CoreModel.n_episodes l = Some n /\ CoreModel.tot_ep l <= n
  end.

Lemma loop_done : forall cap fuel r r', CoreModel.loop W fuel cap None r = CoreModel.Done r' -> clean r -> in_budget (CoreModel.r_logic r) ->
  setup (CoreModel.r_logic r') = setup (CoreModel.r_logic r) /\ clean r' /\ CoreModel.move_required (CoreModel.r_logic r') = Some false /\ in_budget (CoreModel.r_logic r').
Proof.
  intros cap. induction fuel as [|f IH]; intros r r' H C B; cbn [CoreModel.loop] in H; destruct (CoreModel.move_required (CoreModel.r_logic r)) as [[|]|] eqn:M; try discriminate.
  - injection H as <-. auto.
  - destruct (CoreModel.iterate W cap None r) as [r1|] eqn:I; [|discriminate].
    destruct (iterate_keeps _ _ _ I) as (S & C1 & TS & TE).
    destruct (IH r1 r' H C1) as (S' & R'); [|split; [congruence|exact R']].
    unfold setup in S. injection S as S1 S2 S3 S4 S5 S6. unfold in_budget in *. unfold CoreModel.move_required in M. rewrite S2. rewrite S3, S4.
    destruct (CoreModel.move_req (CoreModel.r_logic r)); destruct B as (n & B1 & B2); rewrite B1 in M; exists n; split; auto; injection M as M; apply Nat.ltb_lt in M; lia.
  - injection H as <-. auto.
Qed.

(** A larger budget: the loop goes through the state where the smaller one stops. *)
Lemma loop_longer : forall cap ns ne k fuel r r',
  (forall n, CoreModel.n_steps (CoreModel.r_logic r) = Some n -> exists m, ns = Some m /\ n <= m) ->
  (forall n, CoreModel.n_episodes (CoreModel.r_logic r) = Some n -> exists m, ne = Some m /\ n <= m) ->
  CoreModel.loop W fuel cap None r = CoreModel.Done r' ->
  exists j, CoreModel.loop W (fuel + k) cap None (shift ns ne 0 0 [] r) = CoreModel.loop W (j + k) cap None (shift ns ne 0 0 [] r').
Proof.
  intros cap ns ne k. induction fuel as [|f IH]; intros r r' N1 N2 H; cbn [CoreModel.loop] in H; destruct (CoreModel.move_required (CoreModel.r_logic r)) as [[|]|] eqn:M; try discriminate.
  - injection H as <-. exists 0. reflexivity.
  - destruct (CoreModel.iterate W cap None r) as [r1|] eqn:I; [|discriminate].
    destruct (iterate_keeps _ _ _ I) as (S & _). unfold setup in S. injection S as S1 S2 S3 S4 S5 S6.
    destruct (IH r1 r') as (j & E); auto; [rewrite S3; exact N1|rewrite S4; exact N2|].
    exists j. cbn [Nat.add CoreModel.loop]. rewrite iterate_shift, I. cbn [option_map].
    replace (CoreModel.move_required (CoreModel.r_logic (shift ns ne 0 0 [] r))) with (Some true); [exact E|].
    unfold CoreModel.move_required in *. cbn. unfold shift_logic. cbn. destruct (CoreModel.move_req (CoreModel.r_logic r)).
    + destruct (CoreModel.n_steps (CoreModel.r_logic r)) as [n|]; [|discriminate]. destruct (N1 n eq_refl) as (m & -> & L). injection M as M. apply Nat.ltb_lt in M.
      f_equal. symmetry. apply Nat.ltb_lt. lia.
    + destruct (CoreModel.n_episodes (CoreModel.r_logic r)) as [n|]; [|discriminate]. destruct (N2 n eq_refl) as (m & -> & L). injection M as M. apply Nat.ltb_lt in M.
      f_equal. symmetry. apply Nat.ltb_lt. lia.
  - injection H as <-. exists (S f). reflexivity.
Qed.

Definition map_out (f : run -> run) (o : @CoreModel.outcome En Ag Ob Ac Rw Ps Th) : @CoreModel.outcome En Ag Ob Ac Rw Ps Th :=
  match o with CoreModel.Done r => CoreModel.Done (f r) | CoreModel.Crash => CoreModel.Crash | CoreModel.OutOfFuel => CoreModel.OutOfFuel end.

Lemma loop_shift : forall cap ns ne ts te pre, forall fuel r,
  match CoreModel.move_req (CoreModel.r_logic r) with
  | CoreModel.MoveSteps => ns = option_map (fun n => n + ts) (CoreModel.n_steps (CoreModel.r_logic r))
  | CoreModel.MoveEpisodes => ne = option_map (fun n => n + te) (CoreModel.n_episodes (CoreModel.r_logic r))
  end ->
  CoreModel.loop W fuel cap None (shift ns ne ts te pre r) = map_out (shift ns ne ts te pre) (CoreModel.loop W fuel cap None r).
Proof.
  intros cap ns ne ts te pre.
  assert (MR : forall r : run, match CoreModel.move_req (CoreModel.r_logic r) with
    | CoreModel.MoveSteps => ns = option_map (fun n => n + ts) (CoreModel.n_steps (CoreModel.r_logic r))
    | CoreModel.MoveEpisodes => ne = option_map (fun n => n + te) (CoreModel.n_episodes (CoreModel.r_logic r)) end ->
    CoreModel.move_required (CoreModel.r_logic (shift ns ne ts te pre r)) = CoreModel.move_required (CoreModel.r_logic r)).
  { intros r H. unfold CoreModel.move_required. cbn. unfold shift_logic. cbn. destruct (CoreModel.move_req (CoreModel.r_logic r)); rewrite H.
    - destruct (CoreModel.n_steps (CoreModel.r_logic r)); [|reflexivity]. cbn. f_equal. apply eq_true_iff_eq. rewrite !Nat.ltb_lt. lia.
    - destruct (CoreModel.n_episodes (CoreModel.r_logic r)); [|reflexivity]. cbn. f_equal. apply eq_true_iff_eq. rewrite !Nat.ltb_lt. lia. }
  induction fuel as [|f IH]; intros r H; cbn [CoreModel.loop]; rewrite (MR r H); destruct (CoreModel.move_required (CoreModel.r_logic r)) as [[|]|]; try reflexivity.
  rewrite iterate_shift. destruct (CoreModel.iterate W cap None r) as [r1|] eqn:I; [|reflexivity]. cbn [option_map].
  destruct (iterate_keeps _ _ _ I) as (S & _). unfold setup in S. injection S as S1 S2 S3 S4 S5 S6.
  apply IH. rewrite S2, S3, S4. exact H.
Qed.

(** Before a reset the last observation does not matter. *)
Lemma loop_norm : forall cap fuel r r', CoreModel.r_last r = true -> CoreModel.loop W fuel cap None (norm r) = CoreModel.Done r' ->
  exists r'', CoreModel.loop W fuel cap None r = CoreModel.Done r'' /\ left_by r'' = left_by r'.
Proof.
  intros cap fuel r r' L H. destruct fuel as [|f]; cbn [CoreModel.loop] in *; change (CoreModel.r_logic (norm r)) with (CoreModel.r_logic r) in H;
  destruct (CoreModel.move_required (CoreModel.r_logic r)) as [[|]|]; try discriminate.
  - injection H as <-. eexists. split; [reflexivity|]. reflexivity.
  - replace (CoreModel.iterate W cap None (norm r)) with (CoreModel.iterate W cap None r) in H.
    + exists r'. split; [exact H|reflexivity].
    + destruct r as [e a l o p st la ds log]. cbn in L. subst la. reflexivity.
  - injection H as <-. eexists. split; reflexivity.
Qed.

Lemma loop_more : forall cap fuel k r r', CoreModel.loop W fuel cap None r = CoreModel.Done r' -> CoreModel.loop W (k + fuel) cap None r = CoreModel.Done r'.
Proof.
  intros cap. induction fuel as [|f IH]; intros k r r' H.
  - cbn [CoreModel.loop] in H. rewrite Nat.add_0_r. destruct k; cbn [CoreModel.loop]; destruct (CoreModel.move_required (CoreModel.r_logic r)) as [[|]|]; try discriminate; exact H.
  - cbn [CoreModel.loop] in H. rewrite Nat.add_succ_r. cbn [CoreModel.loop]. destruct (CoreModel.move_required (CoreModel.r_logic r)) as [[|]|]; try discriminate; [|exact H].
    destruct (CoreModel.iterate W cap None r); [|discriminate]. apply IH. exact H.
Qed.

(** A call of learn that ends with an episode and with nothing left to fit, followed by another
    call (of the same or of a new Core) with the same fit schedule, is one call with the sum of
    the budgets: same events, same environment and same agent. *)
Theorem learn_continues : forall fuel1 fuel2 e a l l' ns1 ne1 ns2 ne2 spf epf r1 r2,
  (ns1 = None <-> ns2 = None) ->
  CoreModel.learn W fuel1 e a l ns1 ne1 spf epf = CoreModel.Done r1 ->
  CoreModel.r_last r1 = true -> CoreModel.rows (CoreModel.r_ds r1) = [] ->
  CoreModel.learn W fuel2 (CoreModel.r_env r1) (CoreModel.r_ag r1) l' ns2 ne2 spf epf = CoreModel.Done r2 ->
  exists r, CoreModel.learn W (fuel1 + fuel2) e a l (both ns1 ns2) (both ne1 ne2) spf epf = CoreModel.Done r /\
    left_by r = (CoreModel.r_env r2, CoreModel.r_ag r2, CoreModel.r_last r2, CoreModel.r_ds r2, CoreModel.r_log r1 ++ CoreModel.r_log r2).
Proof.
  intros fuel1 fuel2 e a l l' ns1 ne1 ns2 ne2 spf epf r1 r2 NN H1 RL RD H2.
  unfold CoreModel.learn in H1, H2 |- *.
  destruct (CoreModel.initialize_learn l spf epf) as [li|] eqn:IL; [|discriminate].
  destruct (CoreModel.initialize_learn l' spf epf) as [li'|] eqn:IL'; [|discriminate].
  destruct (CoreModel.capacity W spf epf) as [cap|]; [|discriminate].
  destruct (CoreModel.initialize_run li ns1 ne1 None) as [l1|] eqn:IR1; [|discriminate].
  destruct (CoreModel.initialize_run li' ns2 ne2 None) as [l2|] eqn:IR2; [|discriminate].
  assert (FF : CoreModel.fit_req li = CoreModel.fit_req li' /\ CoreModel.n_steps_per_fit li = CoreModel.n_steps_per_fit li' /\ CoreModel.n_episodes_per_fit li = CoreModel.n_episodes_per_fit li').
  { unfold CoreModel.initialize_learn in IL, IL'. destruct spf, epf; inversion IL; inversion IL'; subst; cbn; auto. }
  destruct FF as (F1 & F2 & F3).
  set (R0 := CoreModel.start e a l1) in *.
  assert (C0 : clean R0) by (intros _; cbn; unfold CoreModel.initialize_run in IR1; destruct ne1, ns1; inversion IR1; repeat split).
  assert (B0 : in_budget (CoreModel.r_logic R0)).
  { cbn. unfold CoreModel.initialize_run in IR1. unfold in_budget. destruct ne1, ns1; inversion IR1; subst; cbn; eexists; (split; [reflexivity|lia]). }
  destruct (loop_done cap fuel1 R0 r1 H1 C0 B0) as (S & C1 & M1 & B1).
  destruct (C1 RD) as (D1 & D2 & D3).
  assert (EX : exists l3, CoreModel.initialize_run li (both ns1 ns2) (both ne1 ne2) (@None (list Ob)) = Some l3 /\
     shift_logic (both ns1 ns2) (both ne1 ne2) 0 0 l1 = l3 /\
     (forall n, CoreModel.n_steps l1 = Some n -> exists m, both ns1 ns2 = Some m /\ n <= m) /\
     (forall n, CoreModel.n_episodes l1 = Some n -> exists m, both ne1 ne2 = Some m /\ n <= m)).
  { unfold CoreModel.initialize_run in *. destruct ne1 as [n1|], ns1 as [m1|]; try discriminate; destruct ne2 as [n2|], ns2 as [m2|]; try discriminate;
    try (destruct NN as [NA NB]; (discriminate (NA eq_refl) || discriminate (NB eq_refl)));
    inversion IR1; subst; eexists; (split; [reflexivity|]); (split; [reflexivity|]); cbn; split; intros n E; inversion E; subst; eexists; (split; [reflexivity|lia]). }
  destruct EX as (l3 & IR3 & L3 & N1 & N2). rewrite IR3.
  destruct (loop_longer cap (both ns1 ns2) (both ne1 ne2) fuel2 fuel1 R0 r1 N1 N2 H1) as (j & LL).
  assert (ST : shift (both ns1 ns2) (both ne1 ne2) 0 0 [] R0 = CoreModel.start e a l3).
  { unfold shift, R0, CoreModel.start. cbn. rewrite L3. reflexivity. }
  rewrite ST in LL. rewrite LL.
  apply loop_more with (k := j) in H2.
  set (ts := CoreModel.tot_st (CoreModel.r_logic r1)) in *. set (te := CoreModel.tot_ep (CoreModel.r_logic r1)) in *.
  unfold setup in S. injection S as S1 S2 S3 S4 S5 S6.
  assert (NS : norm (shift (both ns1 ns2) (both ne1 ne2) 0 0 [] r1) = shift (both ns1 ns2) (both ne1 ne2) ts te (CoreModel.r_log r1) (CoreModel.start (CoreModel.r_env r1) (CoreModel.r_ag r1) l2)).
  { unfold norm, shift. cbn. rewrite RL, D1, app_nil_r. f_equal. unfold shift_logic. cbn in S1, S2, S5, S6. rewrite S1, S2, S5, S6, D2, D3, !Nat.add_0_r. fold ts te.
    unfold CoreModel.initialize_run in IR1, IR2. destruct ne1, ns1; try discriminate; destruct ne2, ns2; try discriminate;
    try (destruct NN as [NA NB]; (discriminate (NA eq_refl) || discriminate (NB eq_refl)));
    inversion IR1; inversion IR2; subst; cbn; rewrite F1, F2, F3; reflexivity. }
  assert (LS : CoreModel.loop W (j + fuel2) cap None (norm (shift (both ns1 ns2) (both ne1 ne2) 0 0 [] r1)) =
     CoreModel.Done (shift (both ns1 ns2) (both ne1 ne2) ts te (CoreModel.r_log r1) r2)).
  { rewrite NS, loop_shift, H2; [reflexivity|]. cbn.
    assert (TT : match CoreModel.move_req l1 with CoreModel.MoveSteps => CoreModel.n_steps l1 = Some ts | CoreModel.MoveEpisodes => CoreModel.n_episodes l1 = Some te end).
    { unfold in_budget in B1. unfold CoreModel.move_required in M1. cbn in S2, S3, S4. rewrite S2, S3, S4 in *. destruct (CoreModel.move_req l1); destruct B1 as (n & E & L);
      rewrite E in M1 |- *; injection M1 as M1; apply Nat.ltb_ge in M1; f_equal; unfold ts, te; lia. }
    unfold CoreModel.initialize_run in IR1, IR2. destruct ne1, ns1; try discriminate; destruct ne2, ns2; try discriminate;
    try (destruct NN as [NA NB]; (discriminate (NA eq_refl) || discriminate (NB eq_refl)));
    inversion IR1; inversion IR2; subst; cbn in TT |- *; injection TT as TT; rewrite TT; f_equal; lia. }
  destruct (loop_norm cap (j + fuel2) (shift (both ns1 ns2) (both ne1 ne2) 0 0 [] r1) _ RL LS) as (r & E & LB).
  exists r. split; [exact E|]. rewrite LB. reflexivity.
Qed.
End Split.

(** ** Epochs of whole episodes *)
Section Epochs.
Context {En Ag Ob Ac Rw Ps Th : Type}.
Variable W : CoreModel.world En Ag Ob Ac Rw Ps Th.
Hypothesis Hhor : CoreModel.horizon W <> Some 0.

Lemma episodes_clean : forall fuel e a l N k r, 1 <= k -> CoreModel.horizon W <> None ->
  CoreModel.learn W fuel e a l None (Some (k * N)) None (Some k) = CoreModel.Done r ->
  CoreModel.r_last r = true /\ CoreModel.rows (CoreModel.r_ds r) = [].
Proof.
  intros fuel e a l N k r Hk HN HD.
  destruct (CoreProofs.learn_unfold W Hhor e a l None (Some (k * N)) None (Some k) (CoreProofs.SEps k) (CoreProofs.BEps (k * N))) as (cap & l2 & C & I & T & T2 & U); auto.
  rewrite U in HD.
  pose proof (CoreProofs.loop_inv W Hhor fuel cap (CoreProofs.SEps k) (CoreProofs.BEps (k * N)) None (CoreSpec.Between e a) _ Hk C I) as Q. rewrite HD in Q. destruct Q as [Q _].
  destruct (CoreProofs.loop_tot_ep W Hhor fuel cap (CoreProofs.SEps k) (k * N) None (CoreSpec.Between e a) (CoreModel.start e a l2) r) as [TE RL]; auto; cbn; try lia.
  split; [exact RL|].
  pose proof (CoreProofs.i_fits _ _ _ _ _ _ Q) as F. cbn in F.
  pose proof (CoreProofs.i_last _ _ _ _ _ _ Q) as HL. rewrite RL in HL.
  pose proof (CoreProofs.i_rows_unf _ _ _ _ _ _ Q) as RU. cbn in RU. rewrite HL in RU.
  pose proof (CoreProofs.i_tot_ep _ _ _ _ _ _ Q) as X.
  assert (SC : forall L : list (CoreModel.dataset Ob Ac Rw Ps Th), Forall (fun d => EpisodeSpec.count_last CoreModel.last (CoreModel.rows d) = k) L ->
     EpisodeSpec.count_last CoreModel.last (concat (map CoreModel.rows L)) = k * length L).
  { induction L as [|d L IH]; intros HF; [cbn; lia|]. inversion HF; subst. cbn [map concat length]. rewrite EpisodeSpec.count_last_app, IH by assumption. lia. }
  rewrite TE, (CoreProofs.i_samples _ _ _ _ _ _ Q), EpisodeSpec.count_last_app, SC in X by (eapply Forall_impl; [|exact F]; cbn; tauto).
  pose proof (CoreProofs.i_notdue _ _ _ _ _ _ Q) as ND. cbn in ND. rewrite (CoreProofs.i_cur_ep _ _ _ _ _ _ Q) in ND.
  assert (Z : EpisodeSpec.count_last CoreModel.last (CoreModel.rows (CoreModel.r_ds r)) = 0).
  { set (c := EpisodeSpec.count_last CoreModel.last (CoreModel.rows (CoreModel.r_ds r))) in *. set (m := length (CoreModel.fits_of (CoreModel.r_log r))) in *.
    assert (m = N) by nia. subst. lia. }
  rewrite <- EpisodeSpec.count_complete in Z. pose proof (EpisodeSpec.split_concat CoreModel.last (CoreModel.rows (CoreModel.r_ds r))) as SPL.
  destruct (EpisodeSpec.complete CoreModel.last (CoreModel.rows (CoreModel.r_ds r))); [|discriminate]. rewrite RU in SPL. cbn in SPL. auto.
Qed.

(** Several calls of learn, one after the other, each for k times the given number of episodes. *)
Fixpoint epochs (fuel k : nat) (l : CoreModel.logic) (ns : list nat) (e : En) (a : Ag) : option (En * Ag * list (CoreModel.event Ob Ac Rw Ps Th)) :=
  match ns with
  | [] => Some (e, a, [])
  | n :: ns' =>
      match CoreModel.learn W fuel e a l None (Some (k * n)) None (Some k) with
      | CoreModel.Done r => match epochs fuel k l ns' (CoreModel.r_env r) (CoreModel.r_ag r) with
                            | Some (e', a', lg) => Some (e', a', CoreModel.r_log r ++ lg) | None => None end
      | _ => None
      end
  end.

(** An experiment in epochs of whole numbers of fits is one call of learn for all its episodes. *)
Theorem learn_in_epochs : forall k fuel l ns e a e' a' lg, 1 <= k -> CoreModel.horizon W <> None ->
  epochs fuel k l ns e a = Some (e', a', lg) ->
  exists r, CoreModel.learn W (fuel * length ns) e a l None (Some (k * list_sum ns)) None (Some k) = CoreModel.Done r /\
    CoreModel.r_env r = e' /\ CoreModel.r_ag r = a' /\ CoreModel.r_log r = lg.
Proof.
  intros k fuel l ns e a e' a' lg Hk HN. revert e a e' a' lg.
  induction ns as [|n ns IH]; intros e a e' a' lg H; cbn [epochs] in H.
  - injection H as <- <- <-. unfold CoreModel.learn. cbn [list_sum fold_right length]. rewrite !Nat.mul_0_r.
    unfold CoreModel.initialize_learn, CoreModel.capacity. destruct (CoreModel.horizon W) as [h|]; [|congruence].
    cbn. eexists. split; [reflexivity|]. repeat split.
  - destruct (CoreModel.learn W fuel e a l None (Some (k * n)) None (Some k)) as [r1| |] eqn:H1; try discriminate.
    destruct (epochs fuel k l ns (CoreModel.r_env r1) (CoreModel.r_ag r1)) as [[[e2 a2] lg2]|] eqn:H2; [|discriminate]. injection H as <- <- <-.
    destruct (IH _ _ _ _ _ H2) as (r2 & L2 & <- & <- & <-).
    destruct (episodes_clean _ _ _ _ _ _ _ Hk HN H1) as [RL RD].
    destruct (learn_continues W fuel (fuel * length ns) e a l l None (Some (k * n)) None (Some (k * list_sum ns)) None (Some k) r1 r2) as (r & L & LB); auto; [tauto|].
    exists r. cbn [length list_sum fold_right]. rewrite Nat.mul_succ_r, Nat.add_comm.
    replace (k * (n + fold_right Nat.add 0 ns)) with (k * n + k * list_sum ns) by (unfold list_sum; lia).
    split; [exact L|]. unfold left_by in LB. injection LB as -> -> _ _ ->. auto.
Qed.
End Epochs.

(** Cutting an episode is different: the second call starts a new episode. *)
Definition cut_world : CoreModel.world nat unit nat unit nat unit unit :=
  CoreModel.mkW nat unit nat unit nat unit unit (fun e _ => (0, 0)) (fun e _ => (S e, S e, 1, false)) (fun a _ => (tt, tt, tt))
    (fun a o p => (tt, tt, tt)) (fun a o => (a, o)) (fun a => a) false (Some 3) (fun a d => a).
Theorem learn_continues_mid_episode_refuted : exists r1 r2 r,
  CoreModel.learn cut_world 9 0 tt CoreProps.any_logic (Some 2) None (Some 1) None = CoreModel.Done r1 /\
  CoreModel.learn cut_world 9 (CoreModel.r_env r1) (CoreModel.r_ag r1) CoreProps.any_logic (Some 2) None (Some 1) None = CoreModel.Done r2 /\
  CoreModel.learn cut_world 9 0 tt CoreProps.any_logic (Some 4) None (Some 1) None = CoreModel.Done r /\
  CoreModel.rows (CoreModel.r_ds r1) = [] /\
  map CoreModel.state (CoreModel.samples_of (CoreModel.r_log r1 ++ CoreModel.r_log r2)) = [0; 1; 0; 1] /\
  map CoreModel.state (CoreModel.samples_of (CoreModel.r_log r)) = [0; 1; 2; 0].
Proof. do 3 eexists. split; [vm_compute; reflexivity|]. split; [vm_compute; reflexivity|]. split; [vm_compute; reflexivity|]. repeat split. Qed.

(** Three epochs of one, two and one episodes: four episodes of three steps. *)
Example epochs_ex : exists lg, epochs cut_world 9 1 CoreProps.any_logic [1; 2; 1] 0 tt = Some (3, tt, lg) /\
  map CoreModel.state (CoreModel.samples_of lg) = [0; 1; 2; 0; 1; 2; 0; 1; 2; 0; 1; 2] /\ length (CoreModel.fits_of lg) = 4.
Proof. eexists. split; [vm_compute; reflexivity|]. split; reflexivity. Qed.

(** ** DQN saved without data *)
Section Dqn.
Context {En Ob Ac Wt P : Type}.
Variable (predict : Wt -> Ob -> list R) (train : Wt -> list (Ob * Ac * R) -> Wt).
Variable (gamma : R) (clip_reward : bool) (freq bs : nat).
Variable (pol : dqn_state Wt -> P -> Ob -> P * Ac) (pstart : dqn_state Wt -> P -> Ob -> P) (drawn : nat -> nat -> list nat).
Variable (ereset : En -> option Ob -> En * Ob) (estep : En -> Ac -> En * Ob * R * bool) (hor : option nat).
Hypothesis PN : forall w o, predict w o <> [].
Hypothesis DR : forall i len, 1 <= len -> length (drawn i len) = bs /\ Forall (fun j => j < len) (drawn i len).
Hypothesis Hhor : hor <> Some 0.
Notation W := (CoreReplayModel.replay_world (dqn_learn predict train gamma clip_reward) (dqn_tick freq) pol pstart drawn ereset estep hor).

(** The loaded agent trains on: every fit is a DQN update with transitions fitted since the load,
    once there are more than the initial number of them; the target network is copied at the
    multiples of the update frequency of all fits, those before the save included. *)
Theorem dqn_resumes : forall a0 e0 ds xs e a,
  let ini := m_initial (CoreReplayModel.r_mem a0) in let mx := m_max (CoreReplayModel.r_mem a0) in let s0 := CoreReplayModel.r_learner a0 in
  1 <= mx -> CoreReplayModel.r_ok a0 = true ->
  CoreReplayProps.experiment W e0 (reload_replay a0) ds xs e a ->
  CoreReplayModel.r_ok a = true /\ CoreReplayProps.subseq (concat (map CoreModel.rows ds)) xs /\
  exists hist, length hist = S (length ds) /\ nth 0 hist s0 = s0 /\ CoreReplayModel.r_learner a = nth (length ds) hist s0 /\
    forall i, i < length ds ->
      let s := nth i hist s0 in let s' := nth (i + 1) hist s0 in
      let seen := lastn mx (concat (map CoreModel.rows (firstn (i + 1) ds))) in
      q_updates s' = q_updates s0 + i + 1 /\
      q_target s' = (if (q_updates s0 + i + 1) mod freq =? 0 then q_w s' else q_target s) /\
      (length seen <= ini -> q_w s' = q_w s) /\
      (ini < length seen -> exists b, length b = bs /\ q_w s' = train (q_w s) b /\
         Forall (fun row => exists x, In x seen /\ CoreDqnProps.learns predict gamma clip_reward (q_target s) row x) b).
Proof.
  intros a0 e0 ds xs e a ini mx s0 M1 OK X.
  destruct (replay_resumes _ _ pol pstart drawn ereset estep hor bs DR Hhor a0 e0 ds xs e a M1 OK X) as (R1 & R2 & hist & R3 & R4 & R5 & R6).
  split; [exact R1|]. split; [exact R2|]. exists hist. fold s0 in R3, R4, R5, R6. repeat (split; [assumption|]).
  assert (QU : forall i, i <= length ds -> q_updates (nth i hist s0) = q_updates s0 + i).
  { induction i as [|i IH]; intros Hi; [rewrite R4; lia|]. specialize (R6 i ltac:(lia)). unfold CoreReplayProps.fit_ok in R6. cbv zeta in R6.
    replace (i + 1) with (S i) in R6 by lia.
    destruct (_ <? _) in R6; [destruct R6 as (held & rows & _ & _ & ->)|rewrite R6]; cbn; rewrite IH by lia; lia. }
  intros i Hi s s' seen. pose proof (QU i ltac:(lia)) as QI. specialize (R6 i Hi). unfold CoreReplayProps.fit_ok, CoreReplayProps.recent in R6. cbv zeta in R6.
  fold ini mx seen s s' in R6. fold s in QI.
  destruct (ini <? length seen) eqn:INI.
  - apply Nat.ltb_lt in INI. destruct R6 as (held & rows & HP & HR & E).
    assert (DL := DR (CoreReplayModel.r_fits a0 + i) (length seen) ltac:(lia)). destruct DL as [DL DF].
    set (b := make_batch predict gamma clip_reward (q_target s) (map CoreReplayModel.row_of rows)).
    assert (EW : q_w s' = train (q_w s) b) by (rewrite E; reflexivity).
    split; [rewrite E; cbn; lia|]. split; [rewrite E; cbn [dqn_tick dqn_learn q_target q_w q_updates]; rewrite QI; reflexivity|].
    split; [lia|]. intros _. exists b.
    destruct (CoreDqnProps.make_batch_rows predict gamma clip_reward 1 1 PN (le_n 1) (le_n 1) (q_target s) (map CoreReplayModel.row_of rows) b eq_refl) as [BL BF].
    split; [rewrite BL, map_length, <- (map_length Some), HR, map_length; exact DL|]. split; [exact EW|].
    eapply Forall_impl; [|exact BF]. intros row (y & Hy & Y1 & Y2 & Y3). apply in_map_iff in Hy as (x & <- & Hx).
    exists x. split.
    + apply (Permutation_in _ HP). assert (In (Some x) (map Some rows)) by (apply in_map; exact Hx). rewrite HR in H. apply in_map_iff in H as (j & N & _).
      eapply nth_error_In. exact N.
    + unfold CoreDqnProps.learns. cbn in Y1, Y2, Y3. split; [exact Y1|]. split; [exact Y2|]. eexists. split; [exact Y3|].
      destruct (CoreModel.absorbing x); split; try discriminate; [reflexivity|]. intros _. apply CoreDqnProps.rowmax_spec. apply PN.
  - apply Nat.ltb_ge in INI. split; [rewrite R6; cbn; lia|]. split; [rewrite R6; cbn [dqn_tick dqn_learn q_target q_w q_updates]; rewrite QI; reflexivity|].
    split; [intros _; rewrite R6; reflexivity|lia].
Qed.
End Dqn.

(** ** Prioritised DQN: training cannot go on after a load *)
Section Per.
Context {En Ob Ac Wt : Type}.
Variable (predict : Wt -> Ob -> list R) (qa : Wt -> Ob -> Ac -> R) (train : Wt -> list (Ob * Ac * R) -> list R -> Wt) (pol : Wt -> nat -> Ob -> Ac).
Variable (unif : nat -> nat -> R) (coin : nat -> nat -> nat -> bool) (beta : nat -> R) (gamma : R) (clip_reward : bool) (freq bs ini : nat) (eps alpha : R).
Hypothesis PN : forall w o, predict w o <> [].
Hypothesis B1 : 1 <= bs.
Variable (ereset : En -> option Ob -> En * Ob) (estep : En -> Ac -> En * Ob * R * bool) (hor : option nat).
Hypothesis Hhor : hor <> Some 0.
Notation pfit := (CorePerModel.per_fit predict qa train unif coin beta gamma clip_reward freq bs ini eps alpha).
Notation W := (CorePerModel.per_world predict qa train pol unif coin beta gamma clip_reward freq bs ini eps alpha ereset estep hor).
Notation pagent := (CorePerModel.pagent (Ob:=Ob) (Ac:=Ac) (Wt:=Wt)).

(** The loaded agent acts like the saved one. *)
Theorem per_loaded_evaluates : forall fuel e a l init ns ne,
  alike (fun a1 a2 => CorePerModel.d_w a1 = CorePerModel.d_w a2 /\ CorePerModel.d_drawn a1 = CorePerModel.d_drawn a2)
    (CoreModel.evaluate W fuel e a l init ns ne) (CoreModel.evaluate W fuel e (reload_per a) l init ns ne).
Proof.
  intros. set (Q := fun a1 a2 : pagent => CorePerModel.d_w a1 = CorePerModel.d_w a2 /\ CorePerModel.d_drawn a1 = CorePerModel.d_drawn a2).
  assert (S : similar W W Q Q false).
  { constructor; try reflexivity; try discriminate.
    - intros a1 a2 o [[H1 H2]|[H1 H2]]; cbn; repeat split; assumption.
    - intros a1 a2 o p [H1 H2]. cbn. unfold Q. cbn. rewrite H1, H2. auto.
    - intros a1 a2 o H. cbn. auto. }
  pose proof (core_evaluate_alike W W Q Q fuel e a (reload_per a) l init ns ne S (conj eq_refl eq_refl)) as H.
  unfold alike in *. destruct (CoreModel.evaluate W fuel e a l init ns ne), (CoreModel.evaluate W fuel e (reload_per a) l init ns ne); auto.
  destruct H as [H [H0|[-> ->]]]; split; auto. split; reflexivity.
Qed.

Lemma ok_kept : forall a d, CorePerModel.d_ok a = false -> CorePerModel.d_ok (pfit a d) = false.
Proof.
  intros a d H. unfold CorePerModel.per_fit, CorePerModel.fit_prioritized. cbv zeta. cbn [CorePerModel.d_ok].
  destruct (st_add _ _ _ 1 1) as [[t r]|]; [|reflexivity]. destruct (ini <? st_size t); [|exact H].
  destruct (CorePerModel.per_get _ _ _ _ _); [|reflexivity]. destruct (update _ _ _); [exact H|reflexivity].
Qed.

Lemma get_nothing : forall f (t : stree Ob Ac unit), m_data (t_mem t) = [] -> CorePerModel.per_get unif coin bs f t = None.
Proof.
  intros f t H. unfold CorePerModel.per_get. destruct bs as [|m]; [lia|]. cbn [seq fold_right]. rewrite H.
  unfold obind. destruct (CorePerModel.per_draw _ _ _ f t 0) as [[[i p] j]|]; [|reflexivity]. cbn. destruct j; reflexivity.
Qed.

(** A full memory: the first fit after the load that gets a transition fails, since the rows that
    it would overwrite do not exist. *)
Theorem per_full_memory_resume_refuted : forall a0 e0 ds xs e a,
  m_full (t_mem (CorePerModel.d_tree a0)) = true ->
  CoreReplayProps.experiment W e0 (reload_per a0) ds xs e a -> concat (map CoreModel.rows ds) <> [] ->
  CorePerModel.d_ok a = false.
Proof.
  intros a0 e0 ds xs e a FU X NE.
  set (P := fun (ds : list (CoreModel.dataset Ob Ac R unit unit)) (a : pagent) =>
     concat (map CoreModel.rows ds) = [] /\ m_full (t_mem (CorePerModel.d_tree a)) = true /\ m_data (t_mem (CorePerModel.d_tree a)) = [] \/ CorePerModel.d_ok a = false).
  assert (H : P ds a).
  { apply (CoreReplayProps.experiment_inv W) with (e0 := e0) (a0 := reload_per a0) (xs := xs) (e := e); auto.
    - left. cbn. auto.
    - intros ds' a' d HP. unfold P. destruct HP as [(H1 & H2 & H3)|H]; [|right; apply ok_kept; exact H].
      rewrite map_app, concat_app, H1. cbn [map concat app]. rewrite app_nil_r.
      cbn [CoreModel.fit CorePerModel.per_world]. unfold CorePerModel.per_fit, CorePerModel.fit_prioritized. cbv zeta.
      cbn [CorePerModel.d_ok CorePerModel.d_tree]. destruct (CorePerModel.d_tree a') as [[mi mm mid mf md] arr]. cbn in H2, H3. subst mf md.
      set (p := max_priority ini _). clearbody p. set (lt := Nat.ltb ini). clearbody lt. unfold st_add. destruct (forallb _ _); [|right; reflexivity].
      destruct (CoreModel.rows d) as [|x rs]; cbn.
      + destruct (lt _); [|left; cbn; auto].
        rewrite get_nothing by reflexivity. right. reflexivity.
      + right. unfold st_store, store. cbn. unfold upd. cbn.
        rewrite (Nat.add_1_r (length (map row_of rs))). destruct mid; reflexivity. }
  destruct H as [(H & _)|H]; [congruence|exact H].
Qed.

(** A memory that is not yet full: a training fit on one transition after the load reads rows that
    were never written, or its batch is that one transition over and over. *)
Theorem per_resume_refuted : forall a d x, m_full (t_mem (CorePerModel.d_tree a)) = false -> CoreModel.rows d = [x] ->
  ini <= m_idx (t_mem (CorePerModel.d_tree a)) ->
  CorePerModel.d_ok (pfit (reload_per a) d) = true ->
  exists q ws, CorePerProps.aims predict gamma clip_reward (CorePerModel.d_target a) q (row_of x) /\
    CorePerModel.d_w (pfit (reload_per a) d) = train (CorePerModel.d_w a) (repeat q bs) ws.
Proof.
  intros a d x NF RD LI. unfold CorePerModel.per_fit, CorePerModel.fit_prioritized. cbv zeta. cbn [CorePerModel.d_ok CorePerModel.d_w reload_per CorePerModel.d_tree CorePerModel.d_updates CorePerModel.d_target].
  destruct (CorePerModel.d_tree a) as [[mi mm mid mf md] arr]. cbn in NF, LI. subst mf. rewrite RD. cbn [map length repeat reload_tree t_mem t_arr m_initial m_max m_idx m_full].
  set (p := max_priority ini _).
  assert (AD : forall t r, st_add (mkST (mkMem mi mm mid false []) arr) [row_of x] [p] 1 1 = Some (t, r) ->
     m_data (t_mem t) = [row_of x] /\ (mid < st_size t)).
  { intros t r. unfold st_add. destruct (forallb _ _); [|discriminate]. cbn. unfold st_store, store. cbn. unfold ds_append. cbn.
    destruct mm as [|mm']; cbn; [discriminate|]. change (match mid with 0 => 1 | S _ => _ end) with (mid + 1).
    destruct (update1 arr _ p) as [arr'|]; [|destruct (mid + 1 =? S mm'); discriminate].
    unfold obind. cbn. destruct (mid + 1 =? S mm') eqn:E; intros H; injection H as <- <-; cbn; split; try reflexivity; unfold st_size, size; cbn; [apply Nat.eqb_eq in E|]; lia. }
  destruct (st_add _ _ _ 1 1) as [[t r]|]; [|discriminate]. destruct (AD t r eq_refl) as [DT SZ].
  replace (ini <? st_size t) with true by (symmetry; apply Nat.ltb_lt; lia).
  destruct (CorePerModel.per_get unif coin bs (CorePerModel.d_updates a) t) as [g|] eqn:G; [|discriminate].
  assert (GB : map snd g = repeat (row_of x) bs).
  { revert g G. unfold CorePerModel.per_get. rewrite DT. generalize 0 at 1 as s. generalize bs at 2 3 as m.
    induction m as [|m IH]; intros s g G; cbn [seq fold_right] in G; [injection G as <-; reflexivity|].
    unfold obind in G. destruct (CorePerModel.per_draw unif coin bs (CorePerModel.d_updates a) t s) as [[[i pr] j]|]; [|discriminate].
    cbn [snd fst] in G. destruct j as [|j]; [|destruct j; discriminate]. cbn [nth_error] in G.
    destruct (fold_right _ _ (seq (S s) m)) as [l|] eqn:EL; [|discriminate]. injection G as <-. cbn [map snd repeat]. f_equal. exact (IH _ _ EL). }
  destruct (update _ _ _); [|discriminate]. intros _. cbn [CorePerModel.d_w].
  exists (CorePerProps.ex_of predict gamma clip_reward (CorePerModel.d_target a) (row_of x)).
  rewrite GB, (CorePerProps.batch_map predict gamma clip_reward PN).
  eexists. split; [apply CorePerProps.ex_aims; exact PN|]. f_equal. clear. induction bs as [|n IH]; [reflexivity|]. cbn. f_equal. exact IH.
Qed.
End Per.

(** The DDPG agent of C104 after four fits (three of them with training), saved, loaded and trained
    for two more: the first of them only fills the memory again, the second trains. *)
Definition rs_agent := reload_replay (CoreModel.r_ag CoreReplayProps.ex_r1).
Definition rs_r := CoreReplayProps.done (CoreModel.learn CoreReplayProps.ex_world 2 0 rs_agent CoreProps.any_logic (Some 2) None (Some 1) None) 0 rs_agent.
Example replay_resumes_ex :
  CoreModel.learn CoreReplayProps.ex_world 2 0 rs_agent CoreProps.any_logic (Some 2) None (Some 1) None = CoreModel.Done rs_r /\
  length (m_data (CoreReplayModel.r_mem (CoreModel.r_ag CoreReplayProps.ex_r1))) = 2 /\
  SacModel.d_count (CoreReplayModel.r_learner rs_agent) = 3 /\ m_data (CoreReplayModel.r_mem rs_agent) = [] /\
  SacModel.d_count (CoreReplayModel.r_learner (CoreModel.r_ag rs_r)) = 4 /\ map s_state (m_data (CoreReplayModel.r_mem (CoreModel.r_ag rs_r))) = [0; 1].
Proof. vm_compute. repeat split. Qed.

(** A SARSA agent saved with a next action chosen: the loaded agent has none, the training that
    follows is the same. The values count the updates; the policy plays the number of draws. *)
Definition sr_world := CoreSarsaModel.s_world (fun (l : list nat) n (o : nat) => n) (fun l x b => l ++ [b]) (fun l => l)
  (fun (e : nat) _ => (0, 0)) (fun e u => (S e, u, 1%R, S e =? 3)) (Some 5).
Example sarsa_resumes_ex : exists r1 r2 r2',
  CoreModel.learn sr_world 2 0 (CoreSarsaModel.mkSA [] None 0 true) CoreProps.any_logic (Some 2) None (Some 1) None = CoreModel.Done r1 /\
  CoreSarsaModel.s_next (CoreModel.r_ag r1) = Some 2 /\ CoreSarsaModel.s_next (reload_sarsa (CoreModel.r_ag r1)) = None /\
  CoreModel.learn sr_world 4 (CoreModel.r_env r1) (CoreModel.r_ag r1) CoreProps.any_logic (Some 4) None (Some 1) None = CoreModel.Done r2 /\
  CoreModel.learn sr_world 4 (CoreModel.r_env r1) (reload_sarsa (CoreModel.r_ag r1)) CoreProps.any_logic (Some 4) None (Some 1) None = CoreModel.Done r2' /\
  CoreSarsaModel.s_l (CoreModel.r_ag r2) = [1; 2; 4; 5; 6; 8] /\ CoreModel.r_ag r2 = CoreModel.r_ag r2'.
Proof. do 3 eexists. split; [vm_compute; reflexivity|]. split; [reflexivity|]. split; [reflexivity|]. split; [vm_compute; reflexivity|]. split; [vm_compute; reflexivity|]. split; reflexivity. Qed.

(** A prioritised memory of two rows, filled, saved and loaded: the next transition is refused. *)
Definition pr_tree : option (stree nat unit unit * list R) :=
  st_add (st_init 2) [mkSample 0 tt 1%R 1 false false tt tt; mkSample 1 tt 1%R 2 false false tt tt] [1%R; 1%R] 1 1.
Example per_resume_ex : exists t rw, pr_tree = Some (t, rw) /\ m_full (t_mem t) = true /\ st_size (reload_tree t) = 2 /\
  m_data (t_mem (reload_tree t)) = [] /\ st_add (reload_tree t) [mkSample 2 tt 1%R 3 false false tt tt] [1%R] 1 1 = None.
Proof.
  unfold pr_tree, st_add. replace (forallb _ [1%R; 1%R]) with true by (cbn; destruct (Rlt_dec 0 1); [reflexivity|lra]).
  do 2 eexists. split; [lazy -[Rplus Rmult Rminus IZR]; reflexivity|]. split; [reflexivity|]. split; [reflexivity|]. split; [reflexivity|].
  destruct (forallb _ _); [|reflexivity]. lazy -[Rplus Rmult Rminus IZR]. reflexivity.
Qed.

Print Assumptions core_learn_alike.
Print Assumptions core_evaluate_alike.
Print Assumptions sarsa_resumes.
Print Assumptions sarsa_loaded_evaluates.
Print Assumptions replay_loaded_evaluates.
Print Assumptions replay_resumes.
Print Assumptions learn_continues.
Print Assumptions learn_in_epochs.
Print Assumptions learn_continues_mid_episode_refuted.
Print Assumptions dqn_resumes.
Print Assumptions per_loaded_evaluates.
Print Assumptions per_full_memory_resume_refuted.
Print Assumptions per_resume_refuted.

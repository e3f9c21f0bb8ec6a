(** C67: black-box optimisation receives the parameters, returns and contexts of its episodes. *)
From Coq Require Import List Arith Lia Bool Reals Lra.
From Verif Require Import Common EpisodeSpec CoreModel DatasetModel DatasetSpec DatasetProofs DatasetProps BbAgentModel.
Import ListNotations.

Section Props.
Context {En D Th P G Cx Ob A Ps Q : Type}.
Variable dmean : D -> Cx -> Th.
Variable dsample : D -> Cx -> G -> G * Th.
Variable build : Ob -> Cx.
Variable preset : P -> P * Ps.
Variable pdraw : Th -> P -> G -> Ob -> Ps -> P * G * A * Ps.
Variable upd : D -> list R -> list Th -> list Cx -> D.
Variable gamma : R.
Variable ereset : En -> option Ob -> En * Ob.
Variable estep : En -> A -> En * Ob * R * bool.
Variable pre : Q -> Ob -> Q * Ob.
Variable hor : option nat.
Notation W := (bbo_world dmean dsample build preset pdraw upd gamma ereset estep pre hor).
Notation smp := (sample Ob (A * (Th * Cx)) R Ps).
Notation agent := (@bagent D Th P G Cx Q).

(** All the actions of the episode were drawn with these weights *)
Definition run_with (ep : list smp) (th : Th) : Prop := Forall (fun x => fst (snd (action x)) = th) ep.
(** The weights of the episode were drawn in the context of its first state *)
Definition drawn_in_context (ep : list smp) : Prop :=
  match ep with [] => False | x0 :: _ => Forall (fun x => snd (snd (action x)) = build (state x0)) ep end.

Record PInv (k : nat) (r : run (En := En) (Ag := agent) (Ob := Ob) (Ac := A * (Th * Cx)) (Rw := R) (Ps := Ps) (Th := Th)) : Prop := {
  p_mode : fit_req (r_logic r) = FitEpisodes /\ n_episodes_per_fit (r_logic r) = Some k;
  p_due : cur_ep (r_logic r) < k;
  p_pair : if CoreModel.r_last r then unfinished last (CoreModel.rows (r_ds r)) = [] /\ Forall2 run_with (complete last (CoreModel.rows (r_ds r))) (thetas (r_ds r))
           else exists ths, thetas (r_ds r) = ths ++ [b_w (r_ag r)] /\ Forall2 run_with (complete last (CoreModel.rows (r_ds r))) ths /\
                run_with (unfinished last (CoreModel.rows (r_ds r))) (b_w (r_ag r));
  p_fits : Forall (fun d => unfinished last (CoreModel.rows d) = [] /\ Forall2 run_with (complete last (CoreModel.rows d)) (thetas d)) (fits_of (r_log r)) }.
(** Contexts, when the preprocessors leave the observations unchanged *)
Record CInv (r : run (En := En) (Ag := agent) (Ob := Ob) (Ac := A * (Th * Cx)) (Rw := R) (Ps := Ps) (Th := Th)) : Prop := {
  c_rows : Forall drawn_in_context (complete last (CoreModel.rows (r_ds r)));
  c_cur : if CoreModel.r_last r then unfinished last (CoreModel.rows (r_ds r)) = []
          else unfinished last (CoreModel.rows (r_ds r)) <> [] /\ drawn_in_context (unfinished last (CoreModel.rows (r_ds r))) /\
               forall x, In x (unfinished last (CoreModel.rows (r_ds r))) -> snd (snd (action x)) = b_cx (r_ag r);
  c_fits : Forall (fun d => Forall drawn_in_context (complete last (CoreModel.rows d))) (fits_of (r_log r)) }.

Lemma fits_of_app : forall (a b : list (event Ob (A * (Th * Cx)) R Ps Th)), fits_of (a ++ b) = fits_of a ++ fits_of b.
Proof. intros. unfold fits_of. apply flat_map_app. Qed.

Lemma as_row_episodes : forall l : list smp,
  complete r_last (map as_row l) = map (map as_row) (complete last l) /\ unfinished r_last (map as_row l) = map as_row (unfinished last l).
Proof.
  unfold complete, unfinished. induction l as [|y t [IH1 IH2]]; [auto|]. cbn [map split_episodes]. destruct (split_episodes last t) as [c u]. destruct (split_episodes r_last (map as_row t)) as [c' u'].
  cbn [fst snd] in *. subst. change (r_last (as_row y)) with (last y). destruct (last y); [auto|]. destruct c; auto.
Qed.

Lemma iterate_pinv : forall k cap init r r', PInv k r -> iterate W cap init r = Some r' -> PInv k r'.
Proof.
  intros k cap init r r' [MO DU PA FI] E. unfold iterate, obind in E.
  assert (RM : exists r1, (if CoreModel.r_last r then do_reset W init r else Some r) = Some r1 /\
    r_logic r1 = r_logic r /\ fits_of (r_log r1) = fits_of (r_log r) /\ CoreModel.rows (r_ds r1) = CoreModel.rows (r_ds r) /\
    exists ths, thetas (r_ds r1) = ths ++ [b_w (r_ag r1)] /\ Forall2 run_with (complete last (CoreModel.rows (r_ds r1))) ths /\ run_with (unfinished last (CoreModel.rows (r_ds r1))) (b_w (r_ag r1))).
  { destruct (CoreModel.r_last r) eqn:L.
    - destruct (do_reset W init r) as [r1|] eqn:ER; [|rewrite ?L, ?ER in E; discriminate]. exists r1. split; auto. unfold do_reset in ER.
      destruct (get_initial_state (r_logic r) init) as [i0|]; [|discriminate]. destruct (env_reset W (r_env r) i0) as [e raw].
      cbn [ep_start bbo_world] in ER. unfold bbo_start in ER.
      destruct (if b_det (r_ag r) then _ else _) as [g th]. destruct (preset (b_pol (r_ag r))) as [p ps].
      cbn [prep bbo_world] in ER. unfold bbo_pre in ER. cbn [b_pre] in ER. destruct (pre (b_pre (r_ag r)) raw) as [q o].
      cbn [clear_next is_episodic bbo_world] in ER. inversion ER; subst; clear ER. cbn [r_logic r_log r_ds CoreModel.rows thetas r_ag b_w].
      split; auto. split; [rewrite fits_of_app; simpl; apply app_nil_r|]. split; auto.
      destruct PA as [U F]. exists (thetas (r_ds r)). split; auto. split; auto. rewrite U. constructor.
    - exists r. auto. }
  destruct RM as (r1 & E1 & RL & RF & RR & ths & TH & F2 & UN). rewrite E1 in E. cbv beta iota in E.
  destruct (do_step W r1) as [[r2 x]|] eqn:ES; [|discriminate]. cbv beta iota in E.
  unfold do_step in ES. destruct (r_obs r1) as [o|]; [|discriminate]. destruct (r_ps r1) as [ps|]; [|discriminate].
  cbn [draw bbo_world] in ES. unfold bbo_draw in ES. destruct (pdraw (b_w (r_ag r1)) (b_pol (r_ag r1)) (b_gen (r_ag r1)) o ps) as [[[p g] act] ps'].
  cbn [env_step bbo_world fst] in ES. destruct (estep (r_env r1) act) as [[[e raw] rw] ab].
  cbn [prep bbo_world] in ES. unfold bbo_pre in ES. cbn [b_pre] in ES. destruct (pre (b_pre (r_ag r1)) raw) as [q o'].
  inversion ES; subst r2 x; clear ES. cbn [r_ds r_logic r_log r_ag r_env r_obs r_ps r_steps] in E.
  set (x := mkS o (act, (b_w (r_ag r1), b_cx (r_ag r1))) rw o' ab (match hor with Some h => h <=? r_steps r1 + 1 | None => false end || ab) ps ps') in *.
  destruct (length (CoreModel.rows (r_ds r1)) <? cap); [|discriminate].
  assert (XT : fst (snd (action x)) = b_w (r_ag r1)) by reflexivity.
  unfold fit_required in E. cbn [fit_req n_episodes_per_fit after_step cur_ep] in E. rewrite RL in E. destruct MO as [M1 M2]. rewrite M1, M2 in E.
  destruct (last x) eqn:LX.
  - destruct (split_snoc_last last (CoreModel.rows (r_ds r1)) x LX) as [C1 C2].
    assert (F2' : Forall2 run_with (complete last (CoreModel.rows (r_ds r1) ++ [x])) (thetas (r_ds r1))).
    { rewrite C1, TH. apply Forall2_app; auto. constructor; [|constructor]. apply Forall_app. split; auto. }
    destruct (k <=? cur_ep (r_logic r) + 1) eqn:DK; inversion E; subst r'; clear E.
    + constructor; cbn [r_logic after_fit after_step fit_req n_episodes_per_fit cur_ep CoreModel.r_last r_ds CoreModel.rows thetas r_log r_ag]; [rewrite ?RL; split; assumption|lia|split; [reflexivity|constructor]|].
      rewrite !fits_of_app. apply Forall_app. split; [apply Forall_app; split; [rewrite RF; auto|constructor]|]. constructor; [|constructor]. cbn [CoreModel.rows thetas]. auto.
    + apply Nat.leb_gt in DK. constructor; cbn [r_logic after_step fit_req n_episodes_per_fit cur_ep CoreModel.r_last r_ds CoreModel.rows thetas r_log r_ag]; auto; rewrite ?RL; auto.
      rewrite fits_of_app. apply Forall_app. split; [rewrite RF; auto|constructor].
  - destruct (split_snoc_notlast last (CoreModel.rows (r_ds r1)) x LX) as [C1 C2].
    destruct (k <=? cur_ep (r_logic r) + 0) eqn:DK; [apply Nat.leb_le in DK; lia|]. inversion E; subst r'; clear E.
    constructor; cbn [r_logic after_step fit_req n_episodes_per_fit cur_ep CoreModel.r_last r_ds CoreModel.rows thetas r_log r_ag b_w]; rewrite ?RL; auto; [lia| |].
    + rewrite C1, C2. exists ths. split; auto. split; auto. apply Forall_app. split; auto.
    + rewrite fits_of_app. apply Forall_app. split; [rewrite RF; auto|constructor].
Qed.

Lemma loop_pinv : forall k fuel cap init r r', PInv k r -> loop W fuel cap init r = Done r' -> PInv k r'.
Proof.
  induction fuel as [|f IH]; intros cap init r r' I E; simpl in E.
  - destruct (move_required (r_logic r)) as [[]|]; try discriminate. inversion E; subst; auto.
  - destruct (move_required (r_logic r)) as [[]|]; try discriminate; [|inversion E; subst; auto].
    destruct (iterate W cap init r) eqn:EI; [|discriminate]. eapply IH; [|eauto]. eapply iterate_pinv; eauto.
Qed.

(** Every fit of a run with fits every k episodes receives, for each of its episodes in order,
    the parameters all its actions were drawn with, and its discounted return *)
Theorem bbo_fit_pairs : forall fuel e a l ns ne k r, 1 <= k -> learn W fuel e a l ns ne None (Some k) = Done r ->
  Forall (fun d => Forall2 run_with (complete last (CoreModel.rows d)) (thetas d) /\
                   (CoreModel.rows d <> [] -> fit_returns gamma d = map (fun ep => disc gamma (map reward ep)) (complete last (CoreModel.rows d))))
         (fits_of (r_log r)).
Proof.
  intros fuel e a l ns ne k r K E. unfold learn in E. simpl initialize_learn in E. cbn iota in E.
  destruct (capacity W None (Some k)) as [cap|]; [|discriminate]. destruct (initialize_run _ ns ne None) as [l2|] eqn:EI; [|discriminate].
  assert (I : PInv k (start e a l2)).
  { unfold initialize_run in EI. destruct ne, ns; try discriminate; inversion EI; subst; constructor; cbn; auto; try (split; [reflexivity|constructor]). }
  apply (loop_pinv k) in E; auto. destruct E as [_ _ _ F]. eapply Forall_impl; [|exact F]. cbv beta. intros d [U F2]. split; auto. intros NE.
  unfold fit_returns. rewrite dataset_compute_J. destruct (CoreModel.rows d) as [|x0 xs] eqn:ER; [congruence|]. rewrite <- ER in *.
  destruct (as_row_episodes (CoreModel.rows d)) as [E1 E2]. destruct (map as_row (CoreModel.rows d)) as [|y ys] eqn:EM; [destruct (CoreModel.rows d); [congruence|discriminate]|]. rewrite <- EM in *.
  unfold episodes. rewrite E1, E2, U. simpl. rewrite app_nil_r, map_map. apply map_ext. intros ep. unfold ret. rewrite map_map. reflexivity.
Qed.

(** The update rule receives, episode by episode, the discounted return and the parameters of
    this episode. *)
Theorem bbo_fit_update : forall fuel e a l ns ne k r, 1 <= k -> learn W fuel e a l ns ne None (Some k) = Done r ->
  forall d, In d (fits_of (r_log r)) -> CoreModel.rows d <> [] -> forall a' : agent,
  exists Js ths cxs, b_dist (bbo_fit build upd gamma a' d) = upd (b_dist a') Js ths cxs /\
    Js = map (fun ep => disc gamma (map reward ep)) (complete last (CoreModel.rows d)) /\
    Forall2 run_with (complete last (CoreModel.rows d)) ths.
Proof.
  intros fuel e a l ns ne k r K E d Hd NE a'. pose proof (bbo_fit_pairs fuel e a l ns ne k r K E) as F.
  rewrite Forall_forall in F. destruct (F d Hd) as [F2 FR]. eexists _, _, _. split; [reflexivity|]. split; [apply FR; auto|exact F2].
Qed.

Hypothesis pre_id : forall q o, snd (pre q o) = o.
Lemma iterate_cinv : forall k cap init r r', PInv k r -> CInv r -> iterate W cap init r = Some r' -> CInv r'.
Proof.
  intros k cap init r r' [[M1 M2] DU PA FI] [CR CC CF] E. unfold iterate, obind in E.
  assert (RM : exists r1, (if CoreModel.r_last r then do_reset W init r else Some r) = Some r1 /\
    r_logic r1 = r_logic r /\ fits_of (r_log r1) = fits_of (r_log r) /\ CoreModel.rows (r_ds r1) = CoreModel.rows (r_ds r) /\
    ((unfinished last (CoreModel.rows (r_ds r1)) = [] /\ exists raw, r_obs r1 = Some raw /\ b_cx (r_ag r1) = build raw) \/
     (unfinished last (CoreModel.rows (r_ds r1)) <> [] /\ drawn_in_context (unfinished last (CoreModel.rows (r_ds r1))) /\
               forall x, In x (unfinished last (CoreModel.rows (r_ds r1))) -> snd (snd (action x)) = b_cx (r_ag r1)))).
  { destruct (CoreModel.r_last r) eqn:L.
    - destruct (do_reset W init r) as [r1|] eqn:ER; [|rewrite ?L, ?ER in E; discriminate]. exists r1. split; auto. unfold do_reset in ER.
      destruct (get_initial_state (r_logic r) init) as [i0|]; [|discriminate]. destruct (env_reset W (r_env r) i0) as [e raw].
      cbn [ep_start bbo_world] in ER. unfold bbo_start in ER.
      destruct (if b_det (r_ag r) then _ else _) as [g th]. destruct (preset (b_pol (r_ag r))) as [p ps].
      cbn [prep bbo_world] in ER. unfold bbo_pre in ER. cbn [b_pre] in ER. pose proof (pre_id (b_pre (r_ag r)) raw) as PI. destruct (pre (b_pre (r_ag r)) raw) as [q o]. simpl in PI. subst o.
      cbn [clear_next is_episodic bbo_world] in ER. inversion ER; subst; clear ER. cbn [r_logic r_log r_ds CoreModel.rows thetas r_ag b_w r_obs b_cx].
      split; auto. split; [rewrite fits_of_app; simpl; apply app_nil_r|]. split; auto. left. split; auto. exists raw. auto.
    - exists r. auto 10. }
  destruct RM as (r1 & E1 & RL & RF & RR & CUR). rewrite E1 in E. cbv beta iota in E.
  destruct (do_step W r1) as [[r2 x]|] eqn:ES; [|discriminate]. cbv beta iota in E.
  unfold do_step in ES. destruct (r_obs r1) as [o|] eqn:EO; [|discriminate]. destruct (r_ps r1) as [ps|]; [|discriminate].
  cbn [draw bbo_world] in ES. unfold bbo_draw in ES. destruct (pdraw (b_w (r_ag r1)) (b_pol (r_ag r1)) (b_gen (r_ag r1)) o ps) as [[[p g] act] ps'].
  cbn [env_step bbo_world fst] in ES. destruct (estep (r_env r1) act) as [[[e raw] rw] ab].
  cbn [prep bbo_world] in ES. unfold bbo_pre in ES. cbn [b_pre] in ES. destruct (pre (b_pre (r_ag r1)) raw) as [q o'].
  inversion ES; subst r2 x; clear ES. cbn [r_ds r_logic r_log r_ag r_env r_obs r_ps r_steps] in E.
  set (x := mkS o (act, (b_w (r_ag r1), b_cx (r_ag r1))) rw o' ab (match hor with Some h => h <=? r_steps r1 + 1 | None => false end || ab) ps ps') in *.
  destruct (length (CoreModel.rows (r_ds r1)) <? cap); [|discriminate].
  assert (DU' : unfinished last (CoreModel.rows (r_ds r1)) ++ [x] <> [] /\ drawn_in_context (unfinished last (CoreModel.rows (r_ds r1)) ++ [x]) /\
    forall y, In y (unfinished last (CoreModel.rows (r_ds r1)) ++ [x]) -> snd (snd (action y)) = b_cx (r_ag r1)).
  { split; [destruct (unfinished last (CoreModel.rows (r_ds r1))); discriminate|]. destruct CUR as [[U (raw0 & RO & CX)]|(NE & DC & AL)].
    - rewrite U. inversion RO; subst. cbn [app]. split; [constructor; [exact CX|constructor]|]. intros y [<-|[]]. reflexivity.
    - destruct (unfinished last (CoreModel.rows (r_ds r1))) as [|x0 u]; [congruence|]. cbn [app]. split.
      + simpl in DC. simpl. inversion DC; subst. constructor; auto. apply Forall_app. split; auto. constructor; [|constructor].
        rewrite <- H1. rewrite (AL x0) by (simpl; auto). reflexivity.
      + intros y I. rewrite app_comm_cons in I. apply in_app_iff in I. destruct I as [I|[<-|[]]]; [auto|reflexivity]. }
  unfold fit_required in E. cbn [fit_req n_episodes_per_fit after_step cur_ep] in E. rewrite RL, M1, M2 in E. rewrite <- RR in CR.
  destruct (last x) eqn:LX.
  - destruct (split_snoc_last last (CoreModel.rows (r_ds r1)) x LX) as [C1 C2].
    assert (F2' : Forall drawn_in_context (complete last (CoreModel.rows (r_ds r1) ++ [x]))).
    { rewrite C1. apply Forall_app. split; auto. constructor; [apply DU'|constructor]. }
    destruct (k <=? cur_ep (r_logic r) + 1) eqn:DK; inversion E; subst r'; clear E.
    + constructor; cbn [CoreModel.r_last r_ds CoreModel.rows r_log r_ag]; [constructor|reflexivity|].
      rewrite !fits_of_app. apply Forall_app. split; [apply Forall_app; split; [rewrite RF; auto|constructor]|]. constructor; [|constructor]. auto.
    + constructor; cbn [CoreModel.r_last r_ds CoreModel.rows r_log r_ag]; auto.
      rewrite fits_of_app. apply Forall_app. split; [rewrite RF; auto|constructor].
  - destruct (split_snoc_notlast last (CoreModel.rows (r_ds r1)) x LX) as [C1 C2].
    destruct (k <=? cur_ep (r_logic r) + 0) eqn:DK; [apply Nat.leb_le in DK; lia|]. inversion E; subst r'; clear E.
    constructor; cbn [CoreModel.r_last r_ds CoreModel.rows r_log r_ag b_cx].
    + rewrite C1. auto.
    + rewrite C2. exact DU'.
    + rewrite fits_of_app. apply Forall_app. split; [rewrite RF; auto|constructor].
Qed.
Lemma loop_cinv : forall k fuel cap init r r', PInv k r -> CInv r -> loop W fuel cap init r = Done r' -> CInv r'.
Proof.
  induction fuel as [|f IH]; intros cap init r r' I J E; simpl in E.
  - destruct (move_required (r_logic r)) as [[]|]; try discriminate. inversion E; subst; auto.
  - destruct (move_required (r_logic r)) as [[]|]; try discriminate; [|inversion E; subst; auto].
    destruct (iterate W cap init r) eqn:EI; [|discriminate]. eapply IH; [| |eauto]; [eapply iterate_pinv|eapply iterate_cinv]; eauto.
Qed.

(** The contexts handed to the update are those the parameters were sampled with, when the core
    preprocessors leave the observations unchanged *)
Theorem bbo_fit_contexts : forall fuel e a l ns ne k r, 1 <= k -> learn W fuel e a l ns ne None (Some k) = Done r ->
  Forall (fun d => Forall2 (fun ep c => ep <> [] /\ Forall (fun x => snd (snd (action x)) = c) ep) (complete last (CoreModel.rows d)) (fit_contexts build d))
         (fits_of (r_log r)).
Proof.
  intros fuel e a l ns ne k r K E. unfold learn in E. simpl initialize_learn in E. cbn iota in E.
  destruct (capacity W None (Some k)) as [cap|]; [|discriminate]. destruct (initialize_run _ ns ne None) as [l2|] eqn:EI; [|discriminate].
  assert (I : PInv k (start e a l2)).
  { unfold initialize_run in EI. destruct ne, ns; try discriminate; inversion EI; subst; constructor; cbn; auto; try (split; [reflexivity|constructor]). }
  assert (J : CInv (start e a l2)) by (constructor; cbn; auto).
  pose proof (loop_pinv _ _ _ _ _ _ I E) as [_ _ _ FU]. pose proof (loop_cinv _ _ _ _ _ _ I J E) as [_ _ F].
  apply Forall_forall. intros d Hd. rewrite Forall_forall in F, FU. specialize (F d Hd). destruct (FU d Hd) as [U _].
  unfold fit_contexts. pose proof (dataset_init_states (map as_row (CoreModel.rows d))) as IS. destruct (as_row_episodes (CoreModel.rows d)) as [E1 E2].
  unfold episodes in IS. rewrite E1, E2, U in IS. cbn [map] in IS. rewrite app_nil_r, map_map in IS.
  revert IS F. generalize (get_init_states (map as_row (CoreModel.rows d))) as sts. generalize (complete last (CoreModel.rows d)) as eps. clear.
  induction eps as [|ep eps IH]; intros [|st sts] IS F; cbn [map] in IS; try discriminate; constructor.
  - inversion F; subst. destruct ep as [|x0 ep]; [destruct H1|]. split; [discriminate|]. inversion IS; subst. exact H1.
  - inversion F; subst. apply IH; auto. inversion IS; auto.
Qed.
End Props.

(** * Witnesses *)
(** With a preprocessor that changes the observations, the update gets another context: here the
    context is the observation itself and the preprocessor adds 10. *)
Definition w_world (pre : unit -> nat -> unit * nat) : world nat (@bagent unit nat unit nat nat unit) nat (nat * (nat * nat)) R unit nat :=
  bbo_world (fun _ c => c) (fun _ c g => (g + 1, 100 + g)) (fun o => o) (fun p => (p, tt)) (fun th p g o ps => (p, g, th, ps)) (fun d _ _ _ => d) (1/2)
    (fun e _ => (0, 7)) (fun e a => (e + 1, 7 + e, INR a, 1 <=? e)) pre (Some 5).
Definition w_agent : @bagent unit nat unit nat nat unit := {| b_dist := tt; b_det := false; b_w := 0; b_pol := tt; b_gen := 0; b_pre := tt; b_cx := 0 |}.
Definition w_logic : logic := mkL FitNever MoveSteps None None None None 0 0 0 0.
Definition run_fits (o : @outcome nat (@bagent unit nat unit nat nat unit) nat (nat * (nat * nat)) R unit nat) :=
  match o with Done r => fits_of (r_log r) | _ => [] end.
(** Two episodes of two steps, parameters 100 and 101 *)
Example bbo_demo : map (fun d => (map (fun x => snd (action x)) (CoreModel.rows d), thetas d, fit_contexts (fun o => o) d))
    (run_fits (learn (w_world (fun q o => (q, o))) 20 0 w_agent w_logic None (Some 2) None (Some 2))) =
  [([(100, 7); (100, 7); (101, 7); (101, 7)], [100; 101], [7; 7])].
Proof. vm_compute. reflexivity. Qed.
Theorem bbo_context_preprocessed_refuted : exists pre d, run_fits (learn (w_world pre) 20 0 w_agent w_logic None (Some 1) None (Some 1)) = [d] /\
  Forall (fun x => snd (snd (action x)) = 7) (CoreModel.rows d) /\ CoreModel.rows d <> [] /\ fit_contexts (fun o => o) d = [17].
Proof.
  exists (fun q o => (q, 10 + o)). eexists. split; [vm_compute; reflexivity|]. split; [repeat constructor|]. split; [discriminate|]. vm_compute. reflexivity.
Qed.
(** Fits every n steps break the pairing: the second dataset holds the rest of an episode but not
    its parameters *)
Theorem bbo_step_fits_refuted : exists d1 d2 x, run_fits (learn (w_world (fun q o => (q, o))) 20 0 w_agent w_logic (Some 2) None (Some 1) None) = [d1; d2] /\
  CoreModel.rows d2 = [x] /\ last x = true /\ thetas d2 = [].
Proof. do 3 eexists. split; [vm_compute; reflexivity|]. cbn. auto. Qed.

(** ** Vectorised runs *)
(** Without context, starting an episode in a vectorised environment always fails *)
Lemma bbo_vectorized_start : forall Ob Cx (obs : list Ob) start, In true start ->
  start_vectorized_context (Cx := Cx) None obs start = None.
Proof.
  intros Ob Cx obs start I. unfold start_vectorized_context. replace (existsb (fun b => b) start) with true; auto. symmetry. apply existsb_exists. eauto.
Qed.
Lemma filter_all : forall A (l : list (A * bool)), Forall (fun e => snd e = true) l -> filter snd l = l.
Proof. induction l as [|e l IH]; intros F; [auto|]. inversion F; subst. simpl. rewrite H1, IH; auto. Qed.
Lemma filter_lt : forall A (l : list (A * bool)), length (filter snd l) = length l -> Forall (fun e => snd e = true) l.
Proof.
  induction l as [|[a b] l IH]; intros H; [constructor|]. simpl in H. assert (L : length (filter snd l) <= length l) by (clear; induction l as [|[c d] l IH]; simpl; [lia|]; destruct d; simpl; lia).
  destruct b; simpl in H; [constructor; auto; apply IH; lia|lia].
Qed.
(** A contextual deterministic agent starts only when all the environments start together *)
Theorem bbo_vectorized_mean_refuted : forall D Th Cx Ob (dmean : D -> Cx -> Th) dist f (obs : list Ob) start, In true start -> length (f obs) = length start ->
  start_vectorized_mean dmean dist (Some f) obs start = if forallb (fun b => b) start then Some (map (dmean dist) (f obs)) else None.
Proof.
  intros D Th Cx Ob dmean dist f obs start I L. unfold start_vectorized_mean, start_vectorized_context.
  replace (existsb (fun b => b) start) with true by (symmetry; apply existsb_exists; eauto). rewrite L, Nat.eqb_refl.
  assert (CL : length (combine (f obs) start) = length start) by (rewrite combine_length; lia).
  destruct (forallb (fun b => b) start) eqn:FA.
  - assert (AL : Forall (fun e : Cx * bool => snd e = true) (combine (f obs) start)).
    { apply Forall_forall. intros [c b] Hc. apply in_combine_r in Hc. rewrite forallb_forall in FA. apply FA. auto. }
    rewrite (filter_all _ _ AL), map_length, CL, Nat.eqb_refl. 
    assert (MF : map fst (combine (f obs) start) = f obs).
    { clear - L. revert L. generalize (f obs) as a. revert start. induction start as [|s st IH]; intros [|c a] H; simpl in *; try lia; auto. f_equal. apply IH. lia. }
    rewrite MF, (filter_all _ _ AL), MF. reflexivity.
  - destruct (_ =? _) eqn:EQ; auto. exfalso. apply Nat.eqb_eq in EQ. rewrite map_length in EQ. rewrite <- CL in EQ. apply filter_lt in EQ.
    assert (FT : forallb (fun b => b) start = true); [|congruence]. apply forallb_forall. intros b Hb. apply In_nth_error in Hb. destruct Hb as (i & Hi).
    assert (LI : i < length start) by (apply nth_error_Some; congruence). destruct (nth_error (f obs) i) as [c|] eqn:HC; [|apply nth_error_None in HC; lia].
    assert (IN : In (c, b) (combine (f obs) start)).
    { clear - Hi HC. revert i Hi HC. generalize (f obs) as a. induction start as [|s st IH]; intros a [|i] Hi HC; destruct a as [|c0 a]; simpl in *; try discriminate; [inversion Hi; inversion HC; auto|right; eapply IH; eauto]. }
    rewrite Forall_forall in EQ. apply (EQ _ IN).
Qed.

Print Assumptions bbo_fit_pairs.
Print Assumptions bbo_fit_update.
Print Assumptions bbo_fit_contexts.
Print Assumptions bbo_context_preprocessed_refuted.
Print Assumptions bbo_step_fits_refuted.
Print Assumptions bbo_vectorized_start.
Print Assumptions bbo_vectorized_mean_refuted.

(** C132: black-box optimisation agents trained by [Core] with n_episodes_per_fit. *)
From Coq Require Import List Arith Lia Bool Reals Lra FunctionalExtensionality.
From Verif Require Import Common EpisodeSpec CoreModel DatasetSpec BbAgentModel BbAgentProps CoreBbModel GaussModel Mat CoreDqnProps OnPolicyProps CorePgProps.
From Verif Require CoreSpec OptModel EnacProofs BboProps.
Import ListNotations.

Lemma Forall2_len : forall {X Y} (R : X -> Y -> Prop) l m, Forall2 R l m -> length l = length m.
Proof. intros X Y R l m F. induction F; cbn; congruence. Qed.

Section Props.
Context {En D Th P G Cx Ob A Ps Q : Type}.
Variable dmean : D -> Cx -> Th.
Variable dsample : D -> Cx -> G -> G * Th.
Variable build : Ob -> Cx.
Variable preset : P -> P * Ps.
Variable pdraw : Th -> P -> G -> Ob -> Ps -> P * G * A * Ps.
Variable upd : D -> list R -> list Th -> list Cx -> D.
Variable gamma : R.
Variable ereset : En -> option Ob -> En * Ob.
Variable estep : En -> A -> En * Ob * R * bool.
Variable pre : Q -> Ob -> Q * Ob.
Variable hor : option nat.
Hypothesis Hhor : hor <> Some 0.
Notation W := (bbo_world dmean dsample build preset pdraw upd gamma ereset estep pre hor).
Notation agent := (@bagent D Th P G Cx Q).

(** The parameters come from the distribution [dist]: its mean if the agent is deterministic,
    a sample otherwise *)
Definition from_dist (dist : D) (det : bool) (th : Th) (cx : Cx) : Prop :=
  if det then th = dmean dist cx else exists g, th = snd (dsample dist cx g).
Definition dd (a : agent) := (b_dist a, b_det a).

Lemma dd_start : forall (a : agent) o, dd (fst (fst (ep_start W a o))) = dd a.
Proof. intros. cbn. unfold bbo_start. destruct (if b_det a then _ else _), (preset (b_pol a)). reflexivity. Qed.
Lemma dd_draw : forall (a : agent) o ps, dd (fst (fst (draw W a o ps))) = dd a.
Proof. intros. cbn. unfold bbo_draw. destruct (pdraw (b_w a) (b_pol a) (b_gen a) o ps) as [[[? ?] ?] ?]. reflexivity. Qed.
Lemma dd_prep : forall (a : agent) o, dd (fst (prep W a o)) = dd a.
Proof. intros. cbn. unfold bbo_pre. destruct (pre (b_pre a) o). reflexivity. Qed.
Lemma dd_kept : forall q w q', CoreSpec.trace W q w q' -> fits_of w = [] -> dd (agent_of q') = dd (agent_of q).
Proof. apply (weights_kept W dd dd_draw dd_start dd_prep). reflexivity. Qed.

(** Without a fit in between, every action is drawn with parameters of the same distribution. *)
Lemma trace_from : forall q w q', CoreSpec.trace W q w q' -> fits_of w = [] -> (exists e a, q = CoreSpec.Between e a) ->
  let from := from_dist (b_dist (agent_of q)) (b_det (agent_of q)) in
  match q' with CoreSpec.Inside _ a _ _ _ => from (b_w a) (b_cx a) | _ => True end /\
  Forall (fun x => from (fst (snd (action x))) (snd (snd (action x)))) (samples_of w).
Proof.
  intros q w q' T. induction T as [|l q1 ev q2 T IH ES]; intros F B from.
  - destruct B as (e & a & ->). split; [exact I|constructor].
  - rewrite OnPolicyProps.fits_app in F. apply app_eq_nil in F as [F1 F2]. destruct (IH F1 B) as [IH1 IH2].
    pose proof (dd_kept _ _ _ T F1) as K. unfold dd in K. rewrite samples_app.
    inversion ES; subst; cbn [agent_of] in *; try discriminate.
    + split; [|cbn; rewrite app_nil_r; exact IH2]. cbn [clear_next bbo_world].
      match goal with HE : ep_start W _ _ = _, HP : prep W _ _ = _ |- _ => cbn in HE, HP; unfold bbo_start in HE; unfold bbo_pre in HP; rename HE into HE0; rename HP into HP0 end.
      injection K as K1 K2. unfold from, from_dist. rewrite <- K1, <- K2.
      destruct (b_det a) eqn:ED.
      * destruct (preset (b_pol a)) as [p ps0]. injection HE0 as <- _ _. cbn in HP0. destruct (pre _ raw). injection HP0 as <- _. reflexivity.
      * destruct (dsample (b_dist a) (build raw) (b_gen a)) as [g th0] eqn:EG. destruct (preset (b_pol a)) as [p ps0]. injection HE0 as <- _ _.
        cbn in HP0. destruct (pre _ raw). injection HP0 as <- _. cbn. exists (b_gen a). rewrite EG. reflexivity.
    + match goal with HE : draw W _ _ _ = _, HP : prep W _ _ = _ |- _ => cbn in HE, HP; unfold bbo_draw in HE; unfold bbo_pre in HP; rename HE into HE0; rename HP into HP0 end.
      destruct (pdraw _ _ _ _ _) as [[[p g] act] ps'] in HE0. injection HE0 as E1 E2 _. subst a1. cbn in HP0. destruct (pre _ raw). injection HP0 as E3 _. subst a2.
      split.
      * destruct (last x); [exact I|exact IH1].
      * apply Forall_app. split; [exact IH2|]. constructor; [|constructor]. rewrite <- E2. exact IH1.
Qed.

(** Each fit is made on k whole episodes begun after the fit before; all their parameters come
    from the distribution the agent had after that fit and still has now; and the new
    distribution is the update of that distribution with the returns of these episodes and the
    parameters they were run with. *)
Theorem core_bbo_updates : forall fuel e a l ns ne k r, 1 <= k -> learn W fuel e a l ns ne None (Some k) = Done r ->
  forall u d v, r_log r = u ++ EvFit d :: v ->
  exists u0 w e1 a1 e2 a2 ths cxs,
    u = u0 ++ w /\ (u0 = [] \/ exists u1 d1, u0 = u1 ++ [EvFit d1]) /\ fits_of w = [] /\
    CoreSpec.trace W (CoreSpec.Between e a) u0 (CoreSpec.Between e1 a1) /\ CoreSpec.trace W (CoreSpec.Between e1 a1) w (CoreSpec.Between e2 a2) /\
    CoreModel.rows d = samples_of w /\ unfinished last (samples_of w) = [] /\ length (complete last (samples_of w)) = k /\
    b_dist a2 = b_dist a1 /\
    b_dist (fit W a2 d) = upd (b_dist a1) (map (fun ep => disc gamma (map reward ep)) (complete last (samples_of w))) ths cxs /\
    Forall2 run_with (complete last (samples_of w)) ths /\
    Forall (fun th => exists cx, from_dist (b_dist a1) (b_det a1) th cx) ths.
Proof.
  intros fuel e a l ns ne k r K HD u d v E.
  destruct (whole_episode_fits W Hhor fuel e a l ns ne k r K HD u d v E) as (u0 & w & e1 & a1 & e2 & a2 & EU & C & F & RD & T0 & T1 & LK & UN).
  pose proof (bbo_fit_pairs dmean dsample build preset pdraw upd gamma ereset estep pre hor fuel e a l ns ne k r K HD) as FP.
  rewrite Forall_forall in FP. destruct (FP d) as [F2 FR]. { rewrite E, OnPolicyProps.fits_app. apply in_or_app. right. left. reflexivity. }
  pose proof (dd_kept _ _ _ T1 F) as KD. unfold dd in KD. cbn [agent_of] in KD. injection KD as KD _.
  destruct (trace_from _ _ _ T1 F) as [_ FD]; [eauto|]. cbn [agent_of] in FD.
  exists u0, w, e1, a1, e2, a2, (thetas d), (fit_contexts build d). rewrite RD in F2, FR, LK, UN. do 9 (split; [assumption|]).
  split; [|split; [exact F2|]].
  - cbn. rewrite KD. rewrite FR; [reflexivity|]. intros Z. rewrite Z in LK. cbn in LK. lia.
  - assert (NE : Forall (fun ep : list (sample Ob (A * (Th * Cx)) R Ps) => ep <> [] /\ incl ep (samples_of w)) (complete last (samples_of w))).
    { clear. unfold complete. induction (samples_of w) as [|x s IH]; [constructor|]. cbn [split_episodes].
      assert (IC : forall eps, Forall (fun ep => ep <> [] /\ incl ep s) eps -> Forall (fun ep => ep <> [] /\ incl ep (x :: s)) eps).
      { intros eps. apply Forall_impl. intros ep [N I]. split; [exact N|]. intros y Hy. right. auto. }
      destruct (split_episodes last s) as [c t]. cbn [fst] in *. destruct (last x); cbn [fst].
      - constructor; [split; [discriminate|intros y [->|[]]; left; reflexivity]|apply IC; exact IH].
      - destruct c as [|ep c]; cbn [fst]; [constructor|]. inversion IH as [|? ? [N I] IH']; subst.
        constructor; [split; [discriminate|intros y [->|Hy]; [left; reflexivity|right; auto]]|apply IC; exact IH']. }
    clear - F2 NE FD. induction F2 as [|ep th eps ths R F2 IH]; [constructor|]. inversion NE as [|? ? [N I] NE']; subst.
    constructor; [|apply IH; exact NE']. destruct ep as [|x ep]; [congruence|]. unfold run_with in R. inversion R; subst.
    rewrite Forall_forall in FD. exists (snd (snd (action x))). apply FD. apply I. left. reflexivity.
Qed.

(** What every update on k episodes preserves holds of the distribution at the end of learn. *)
Theorem core_bbo_keeps : forall (I : D -> Prop) fuel e a l ns ne k r, 1 <= k -> learn W fuel e a l ns ne None (Some k) = Done r ->
  (forall dist Js ths cxs, I dist -> length Js = k -> length ths = k -> I (upd dist Js ths cxs)) ->
  I (b_dist a) -> I (b_dist (r_ag r)).
Proof.
  intros I fuel e a l ns ne k r K HD HU HI.
  destruct (learn_agent W Hhor fuel e a l ns ne None (Some k) r) as (p & TR & <-); [auto|right; eauto|exact HD|].
  assert (GG : forall u p, CoreSpec.trace W (CoreSpec.Between e a) u p -> (exists v, r_log r = u ++ v) -> I (b_dist (agent_of p))).
  { intros u q T. induction T as [|u q1 ev q2 T IH ES]; intros [v E]; [exact HI|].
    rewrite <- app_assoc in E. assert (J : I (b_dist (agent_of q1))) by (apply IH; eauto). cbn [app] in E.
    assert (FT : forall d a0, ev = EvFit d -> I (b_dist a0) -> I (b_dist (fit W a0 d))).
    { intros d a0 -> J0. destruct (core_bbo_updates _ _ _ _ _ _ _ _ K HD _ _ _ E) as (u0 & w & e1 & a1 & e2 & a2 & ths & cxs & _ & _ & _ & _ & _ & RD & _ & LK & _).
      pose proof (bbo_fit_pairs dmean dsample build preset pdraw upd gamma ereset estep pre hor fuel e a l ns ne k r K HD) as FP.
      rewrite Forall_forall in FP. destruct (FP d) as [F2 FR]. { rewrite E, OnPolicyProps.fits_app. apply in_or_app. right. left. reflexivity. }
      rewrite RD in F2, FR. cbn. apply HU; [exact J0| |rewrite <- (Forall2_len _ _ _ F2); exact LK].
      rewrite FR; [rewrite map_length; exact LK|]. intros Z. rewrite Z in LK. cbn in LK. lia. }
    destruct ev as [i o ps th|x|d].
    - assert (KD : dd (agent_of q2) = dd (agent_of q1)) by (apply (dd_kept q1 [EvReset i o ps th] q2); [apply (CoreSpec.tr_snoc W q1 [] q1); [constructor|exact ES]|reflexivity]).
      unfold dd in KD. injection KD as KD _. rewrite KD. exact J.
    - assert (KD : dd (agent_of q2) = dd (agent_of q1)) by (apply (dd_kept q1 [EvSample x] q2); [apply (CoreSpec.tr_snoc W q1 [] q1); [constructor|exact ES]|reflexivity]).
      unfold dd in KD. injection KD as KD _. rewrite KD. exact J.
    - inversion ES; subst; cbn [agent_of] in *; apply FT; auto. }
  apply (GG _ _ TR). exists []. symmetry. apply app_nil_r.
Qed.
End Props.

(** * PGPE *)
Local Open Scope R_scope.

(** With equal returns the baseline cancels everything. *)
Lemma pgpe_flat : forall N D J c k, (1 <= N)%nat -> (forall i, (i < N)%nat -> J i = c) -> pgpe_grad N D J k = 0.
Proof.
  intros N D J c k HN HJ. assert (HI : 0 < INR N) by (apply lt_0_INR; lia). unfold pgpe_grad, pgpe_baseline. cbv zeta.
  assert (EJ : forall f : nat -> R, sm N (fun i => J i * f i) = c * sm N f).
  { intros f. rewrite <- sm_scal. apply sm_ext. intros i Hi. rewrite HJ; auto. }
  destruct (Req_EM_T (vmean N (fun i => D i k ^ 2)) 0) as [Z|NZ].
  - assert (S0 : sm N (fun i => D i k ^ 2) = 0).
    { unfold vmean in Z. apply (Rmult_eq_reg_r (/ INR N)); [|apply Rinv_neq_0_compat; lra]. rewrite Rmult_0_l. exact Z. }
    unfold vmean. rewrite sm_zero; [unfold Rdiv; ring|].
    intros i Hi. rewrite (EnacProofs.sm_sq_zero N (fun i => D i k) S0 i Hi). ring.
  - assert (EB : vmean N (fun i => J i * D i k ^ 2) / vmean N (fun i => D i k ^ 2) = c).
    { unfold vmean in *. rewrite EJ. field. split; [lra|]. intros Z. apply NZ. rewrite Z. unfold Rdiv. ring. }
    rewrite EB. unfold vmean. rewrite sm_zero; [unfold Rdiv; ring|].
    intros i Hi. rewrite HJ; auto. ring.
Qed.

(** A zero gradient leaves the parameters where they are: always for Adaptive and SGD, and for
    Adam as long as it has seen no other gradient. *)
Definition still (o : optimizer) : Prop :=
  match o with Adam _ _ _ _ _ _ (Some s) => forall i, OptModel.ad_m s i = 0 | _ => True end.
Lemma opt_still : forall o p, still o -> still (fst (opt_call o p (fun _ => 0))) /\ snd (opt_call o p (fun _ => 0)) = p.
Proof.
  intros [d eps mx|lr n mx|lr b1 b2 eps n mx st] p S; cbn.
  - split; [exact I|]. extensionality i. destruct mx; ring.
  - split; [exact I|]. extensionality i. destruct mx; ring.
  - assert (M : forall i, b1 * OptModel.ad_m match st with Some s => s | None => {| OptModel.ad_m := fun _ => 0; OptModel.ad_v := fun _ => 0; OptModel.ad_t := 0 |} end i
                          + (1 - b1) * (if mx then fun _ : nat => 0 else fun _ => 0 * -1) i = 0).
    { intros i. destruct st as [s|]; cbn in *; [rewrite S|]; destruct mx; ring. }
    split; [exact M|]. extensionality i. rewrite M. unfold Rdiv. ring.
Qed.

Section Pgpe.
Context {En Th P G Cx Ob A Ps Q : Type}.
Notation D := ((nat -> R) * optimizer)%type.
Variable diff : (nat -> R) -> Th -> nat -> R.
Variable dmean : D -> Cx -> Th.
Variable dsample : D -> Cx -> G -> G * Th.
Variable build : Ob -> Cx.
Variable preset : P -> P * Ps.
Variable pdraw : Th -> P -> G -> Ob -> Ps -> P * G * A * Ps.
Variable gamma : R.
Variable ereset : En -> option Ob -> En * Ob.
Variable estep : En -> A -> En * Ob * R * bool.
Variable pre : Q -> Ob -> Q * Ob.
Variable hor : option nat.
Hypothesis Hhor : hor <> Some 0%nat.
Notation W := (bbo_world dmean dsample build preset pdraw (pgpe_update diff) gamma ereset estep pre hor).
Notation agent := (@bagent D Th P G Cx Q).

(** The parameter step of PGPE in words: the optimizer is called once per fit, with the mean over
    the k episodes of (return - baseline) * gradient of the log-density at the parameters the
    episode was run with, the density being that of the distribution they came from. *)
Theorem core_pgpe_updates : forall fuel e a l ns ne k r, (1 <= k)%nat -> learn W fuel e a l ns ne None (Some k) = Done r ->
  forall u d v, r_log r = u ++ EvFit d :: v ->
  exists u0 w e1 a1 e2 a2 ths,
    u = u0 ++ w /\ (u0 = [] \/ exists u1 d1, u0 = u1 ++ [EvFit d1]) /\ fits_of w = [] /\
    CoreSpec.trace W (CoreSpec.Between e a) u0 (CoreSpec.Between e1 a1) /\ CoreSpec.trace W (CoreSpec.Between e1 a1) w (CoreSpec.Between e2 a2) /\
    Forall2 run_with (complete last (samples_of w)) ths /\ length ths = k /\
    Forall (fun th => exists cx, from_dist dmean dsample (b_dist a1) (b_det a1) th cx) ths /\
    let om := fst (b_dist a1) in
    let J i := nth i (map (fun ep => disc gamma (map reward ep)) (complete last (samples_of w))) 0 in
    let S i c := nth i (map (diff om) ths) (fun _ => 0) c in
    exists (g b : nat -> R),
      opt_call (snd (b_dist a1)) om g = (snd (b_dist (fit W a2 d)), fst (b_dist (fit W a2 d))) /\
      (forall c, INR k * g c = sm k (fun i => S i c * (J i - b c))) /\
      (forall c, sm k (fun i => S i c ^ 2) * b c = sm k (fun i => J i * S i c ^ 2)).
Proof.
  intros fuel e a l ns ne k r K HD u d v E.
  destruct (core_bbo_updates _ _ _ _ _ _ _ _ _ _ _ Hhor _ _ _ _ _ _ _ _ K HD _ _ _ E) as
    (u0 & w & e1 & a1 & e2 & a2 & ths & cxs & EU & C & F & T0 & T1 & RD & UN & LK & KD & EQ & F2 & FD).
  exists u0, w, e1, a1, e2, a2, ths. do 6 (split; [assumption|]). split; [rewrite <- (Forall2_len _ _ _ F2); exact LK|]. split; [exact FD|]. cbv zeta.
  rewrite EQ. unfold pgpe_update. destruct (b_dist a1) as [om o]. cbn [fst snd]. rewrite map_length, LK.
  set (J := fun i => nth i (map _ (complete last (samples_of w))) 0). set (S := fun i => nth i (map (diff om) ths) (fun _ => 0)).
  destruct (opt_call o om _) as [o' om'] eqn:EO. cbn [fst snd]. exists (pgpe_grad k S J), (pgpe_baseline k S J). split; [exact EO|].
  assert (HI : 0 < INR k) by (apply lt_0_INR; lia). split; intros c.
  - change (INR k * pgpe_grad k S J c = sm k (fun i => S i c * (J i - pgpe_baseline k S J c))). unfold pgpe_grad, vmean. field. lra.
  - change (sm k (fun i => S i c ^ 2) * pgpe_baseline k S J c = sm k (fun i => J i * S i c ^ 2)). unfold pgpe_baseline. cbv zeta.
    destruct (Req_EM_T (vmean k (fun i => S i c ^ 2)) 0) as [Z|NZ].
    + assert (S0 : sm k (fun i => S i c ^ 2) = 0).
      { unfold vmean in Z. apply (Rmult_eq_reg_r (/ INR k)); [|apply Rinv_neq_0_compat; lra]. rewrite Rmult_0_l. exact Z. }
      symmetry. rewrite Rmult_0_r. apply sm_zero. intros i Hi. rewrite (EnacProofs.sm_sq_zero k (fun i => S i c) S0 i Hi). ring.
    + unfold vmean in *. set (X := sm k (fun i => S i c ^ 2)) in *. set (Y := sm k (fun i => J i * S i c ^ 2)). field. split; [lra|]. intros Z. apply NZ. rewrite Z. unfold Rdiv. ring.
Qed.

(** With one episode per fit the baseline is the return itself: the distribution never changes,
    whatever the environment pays and however long learn runs. *)
Theorem core_pgpe_one_episode_refuted : forall fuel e (a : agent) l ns ne r, learn W fuel e a l ns ne None (Some 1%nat) = Done r ->
  still (snd (b_dist a)) -> fst (b_dist (r_ag r)) = fst (b_dist a).
Proof.
  intros fuel e a l ns ne r HD S.
  apply (core_bbo_keeps dmean dsample build preset pdraw (pgpe_update diff) gamma ereset estep pre hor Hhor
    (fun dist => fst dist = fst (b_dist a) /\ still (snd dist)) fuel e a l ns ne 1%nat r); auto.
  intros [om o] Js ths cxs [EM ST] LJ LT. cbn [fst snd] in *. unfold pgpe_update. rewrite LJ.
  replace (pgpe_grad 1 _ _) with (fun _ : nat => 0).
  - destruct (opt_still o om ST) as [S1 S2]. destruct (opt_call o om (fun _ => 0)) as [o' om']. cbn [fst snd] in *. split; congruence.
  - extensionality c. symmetry. apply (pgpe_flat 1 _ _ (nth 0 Js 0)); [lia|]. intros i Hi. assert (i = 0)%nat as -> by lia. reflexivity.
Qed.
End Pgpe.

(** * RWR and REPS *)
Section Wmle.
Context {En P G Cx Ob A Ps Q : Type}.
Notation Th := (nat -> R).
Notation D := ((nat -> R) * option (nat -> R))%type.
Variable wt : weighting.
Variable dmean : D -> Cx -> Th.
Variable dsample : D -> Cx -> G -> G * Th.
Variable build : Ob -> Cx.
Variable preset : P -> P * Ps.
Variable pdraw : Th -> P -> G -> Ob -> Ps -> P * G * A * Ps.
Variable gamma : R.
Variable ereset : En -> option Ob -> En * Ob.
Variable estep : En -> A -> En * Ob * R * bool.
Variable pre : Q -> Ob -> Q * Ob.
Variable hor : option nat.
Hypothesis Hhor : hor <> Some 0%nat.
Notation W := (bbo_world dmean dsample build preset pdraw (wmle_update wt) gamma ereset estep pre hor).

(** Every fit with one episode makes the standard deviation NaN; no fit with more does. *)
Theorem core_wmle_one_episode : forall fuel e a l ns ne k r, (1 <= k)%nat -> learn W fuel e a l ns ne None (Some k) = Done r ->
  forall u d v, r_log r = u ++ EvFit d :: v ->
  exists e2 a2, CoreSpec.trace W (CoreSpec.Between e a) u (CoreSpec.Between e2 a2) /\
    (snd (b_dist (fit W a2 d)) = None <-> k = 1%nat).
Proof.
  intros fuel e a l ns ne k r K HD u d v E.
  destruct (core_bbo_updates _ _ _ _ _ _ _ _ _ _ _ Hhor _ _ _ _ _ _ _ _ K HD _ _ _ E) as
    (u0 & w & e1 & a1 & e2 & a2 & ths & cxs & -> & C & F & T0 & T1 & RD & UN & LK & KD & EQ & F2 & FD).
  exists e2, a2. split.
  - clear - T0 T1. induction T1 as [|w q1 ev q2 T1 IH ES]; [rewrite app_nil_r; exact T0|]. rewrite app_assoc. econstructor; eauto.
  - rewrite EQ. unfold wmle_update. rewrite map_length, LK. cbn [snd].
    set (Js := map _ (complete last (samples_of w))).
    destruct (BboProps.mle_Z_spec k (weights_of wt Js) K) as [_ Z]. { intros i _. destruct wt; apply exp_pos. }
    destruct (Req_EM_T (mle_Z k (weights_of wt Js)) 0) as [Y|N]; split; intros H; try discriminate; auto.
    + apply Z. exact Y.
    + destruct N. apply Z. exact H.
Qed.

(** With two episodes per fit or more, a distribution with a finite deviation keeps one. *)
Theorem core_wmle_finite : forall fuel e a l ns ne k r, (2 <= k)%nat -> learn W fuel e a l ns ne None (Some k) = Done r ->
  snd (b_dist a) <> None -> snd (b_dist (r_ag r)) <> None.
Proof.
  intros fuel e a l ns ne k r K HD HI.
  apply (core_bbo_keeps dmean dsample build preset pdraw (wmle_update wt) gamma ereset estep pre hor Hhor
    (fun dist => snd dist <> None) fuel e a l ns ne k r); auto; [lia|].
  intros dist Js ths cxs _ LJ _. unfold wmle_update. rewrite LJ. cbn [snd].
  destruct (BboProps.mle_Z_spec k (weights_of wt Js)) as [_ Z]; [lia|intros i _; destruct wt; apply exp_pos|].
  destruct (Req_EM_T (mle_Z k (weights_of wt Js)) 0) as [Y|N]; [apply Z in Y; lia|discriminate].
Qed.
End Wmle.

(** * Witnesses *)
(** One parameter, density with score th - om, episodes of one step that pay their parameter;
    the samples are 1, 2, 3, ... *)
Definition x_world : world unit (@bagent ((nat -> R) * optimizer) R unit nat unit unit) unit (R * (R * unit)) R unit R :=
  bbo_world (fun D _ => fst D 0%nat) (fun _ _ g => (S g, INR (S g))) (fun _ => tt) (fun p => (p, tt)) (fun th p g o ps => (p, g, th, ps))
    (pgpe_update (fun om th _ => th - om 0%nat)) 1 (fun e _ => (e, tt)) (fun e a => (e, tt, a, true)) (fun q o => (q, o)) (Some 1%nat).
Definition x_agent : @bagent ((nat -> R) * optimizer) R unit nat unit unit :=
  {| b_dist := ((fun _ => 0), Sgd (fun _ => 1) 0 true); b_det := false; b_w := 0; b_pol := tt; b_gen := 0%nat; b_pre := tt; b_cx := tt |}.
Definition x_logic : logic := mkL FitNever MoveSteps None None None None 0 0 0 0.
Definition x_learn (n k : nat) := learn x_world 20 tt x_agent x_logic None (Some n) None (Some k).

(** Two fits with one episode each, one fit with two *)
Definition x_fits (n k : nat) := match x_learn n k with Done r => map (fun d => (length (CoreModel.rows d), thetas d)) (fits_of (r_log r)) | _ => [] end.
Example pgpe_one_ex : x_fits 2 1 = [(1%nat, [INR 1]); (1%nat, [INR 2])].
Proof. vm_compute. reflexivity. Qed.
Example pgpe_two_ex : x_fits 2 2 = [(2%nat, [INR 1; INR 2])].
Proof. vm_compute. reflexivity. Qed.
(** The update on the two episodes together moves the mean to -1/5; the two updates on one
    episode leave it at 0 *)
Definition x_upd (Js ths : list R) : R := fst (pgpe_update (fun om th _ => th - om 0%nat) (b_dist x_agent) Js ths (map (fun _ => tt) ths)) 0%nat.
Example pgpe_update_ex : x_upd [1; 2] [1; 2] = - (1 / 5) /\ x_upd [1] [1] = 0 /\ x_upd [2] [2] = 0.
Proof.
  unfold x_upd, pgpe_update, x_agent. cbn [b_dist opt_call fst snd length map]. unfold OptModel.sgd. cbn [fst].
  repeat split; unfold pgpe_grad, pgpe_baseline, vmean, sm; cbn; (destruct (Req_EM_T _ 0) as [Z|_]; [exfalso; lra|]); lra.
Qed.

(** RWR on one and on two episodes *)
Example wmle_ex : snd (wmle_update (Rwr 1) ((fun _ => 0), Some (fun _ => 1)) [5] [fun _ => 3] [tt]) = None /\
  exists s, snd (wmle_update (Rwr 0) ((fun _ => 0), Some (fun _ => 1)) [5; 5] [(fun _ => 1); (fun _ => 3)] [tt; tt]) = Some s /\ s 0%nat = sqrt 2.
Proof.
  unfold wmle_update. cbn [snd length]. split.
  - destruct (Req_EM_T _ 0) as [_|N]; [reflexivity|]. destruct N. unfold mle_Z, weights_of, rwr_weights, sm. cbn. rewrite Rminus_eq_0, Rmult_0_r, exp_0. lra.
  - assert (EW : weights_of (Rwr 0) [5; 5] = fun _ => 1) by (extensionality i; unfold weights_of, rwr_weights; rewrite Rmult_0_l; apply exp_0).
    rewrite EW. destruct (Req_EM_T _ 0) as [Y|_]; [exfalso; revert Y; unfold mle_Z, sm; cbn; lra|]. eexists. split; [reflexivity|].
    unfold diag_mle_std. f_equal. unfold mle_mu, mle_Z, sm. cbn. lra.
Qed.

Print Assumptions core_wmle_one_episode.
Print Assumptions core_wmle_finite.
Print Assumptions core_bbo_updates.
Print Assumptions core_bbo_keeps.
Print Assumptions core_pgpe_updates.
Print Assumptions core_pgpe_one_episode_refuted.

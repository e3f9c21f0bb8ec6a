(** C110: PPO and A2C trained by [Core]. *)
From Coq Require Import List Arith Lia Bool Reals Lra Permutation.
From Verif Require Import Common EpisodeSpec PpoModel CorePpoModel CoreDqnProps OnPolicyProps CorePgProps.
From Verif Require CoreModel CoreSpec CoreProofs CoreProps VecCoreModel AdvModel AdvSpec AdvProps PpoProps.
Import ListNotations.
Local Open Scope R_scope.

(** How fit is scheduled in a learn call: every [k] steps or every [k] episodes. *)
Definition every (k : nat) (spf epf : option nat) : Prop := (spf = Some k /\ epf = None) \/ (spf = None /\ epf = Some k).

Lemma every_ok : forall k spf epf, (1 <= k)%nat -> every k spf epf ->
  (spf = None \/ exists k, spf = Some k /\ (1 <= k)%nat) /\ (epf = None \/ exists k, epf = Some k /\ (1 <= k)%nat).
Proof. intros k spf epf K [[-> ->]|[-> ->]]; split; eauto. Qed.

Lemma count_last_le : forall {A} (f : A -> bool) l, (count_last f l <= length l)%nat.
Proof. intros A f l. unfold count_last. induction l as [|x l IH]; simpl; [lia|]. destruct (f x); simpl; lia. Qed.

Section Size.
Context {En Ag Ob Ac Rw Ps Th : Type}.
Variable W : CoreModel.world En Ag Ob Ac Rw Ps Th.
Hypothesis Hhor : CoreModel.horizon W <> Some 0%nat.

(** Every fit gets at least [k] rows. *)
Lemma fit_size : forall fuel e a l ns ne k spf epf r, (1 <= k)%nat -> every k spf epf ->
  CoreModel.learn W fuel e a l ns ne spf epf = CoreModel.Done r ->
  Forall (fun d => (k <= length (CoreModel.rows d))%nat) (CoreModel.fits_of (CoreModel.r_log r)).
Proof.
  intros fuel e a l ns ne k spf epf r K HE HD.
  assert (exists b, CoreProofs.budget_of ns ne (@None (list Ob)) = Some b) as (b & B).
  { unfold CoreModel.learn in HD. destruct (CoreModel.initialize_learn l spf epf); [|discriminate]. destruct (CoreModel.capacity W spf epf); [|discriminate].
    destruct ns as [n'|], ne as [n''|]; simpl in HD; try discriminate; eexists; reflexivity. }
  destruct HE as [[-> ->]|[-> ->]].
  - destruct (CoreProofs.learn_unfold W Hhor e a l ns ne (Some k) None (CoreProofs.SSteps k) b) as (cap & l2 & C & I & _ & _ & U); auto.
    rewrite U in HD. pose proof (CoreProofs.loop_inv W Hhor fuel cap (CoreProofs.SSteps k) b None (CoreSpec.Between e a) _ K C I) as Q. rewrite HD in Q. destruct Q as [Q _].
    eapply Forall_impl; [|apply (CoreProofs.i_fits _ _ _ _ _ _ Q)]. cbn. intros d0 ->. lia.
  - assert (HH : CoreModel.horizon W <> None).
    { unfold CoreModel.learn in HD. cbn [CoreModel.initialize_learn CoreModel.capacity] in HD. destruct (CoreModel.horizon W) eqn:EH; [|discriminate]. discriminate. }
    destruct (CoreProofs.learn_unfold W Hhor e a l ns ne None (Some k) (CoreProofs.SEps k) b) as (cap & l2 & C & I & _ & _ & U); auto.
    rewrite U in HD. pose proof (CoreProofs.loop_inv W Hhor fuel cap (CoreProofs.SEps k) b None (CoreSpec.Between e a) _ K C I) as Q. rewrite HD in Q. destruct Q as [Q _].
    eapply Forall_impl; [|apply (CoreProofs.i_fits _ _ _ _ _ _ Q)]. intros d0 (C1 & _). pose proof (count_last_le CoreModel.last (CoreModel.rows d0)). lia.
Qed.

(** In an execution the absorbing steps end their episode; with no horizon only they do. *)
Lemma trace_flags : forall p l q, CoreSpec.trace W p l q ->
  Forall (fun x => (CoreModel.absorbing x = true -> CoreModel.last x = true) /\
                   (CoreModel.horizon W = None -> CoreModel.last x = true -> CoreModel.absorbing x = true)) (CoreModel.samples_of l).
Proof.
  intros p l q T. induction T as [|l q1 ev q2 T IH ES]; [constructor|]. rewrite samples_app. apply Forall_app. split; [exact IH|].
  inversion ES; subst; cbn [CoreModel.samples_of flat_map app]; try constructor; [|constructor].
  match goal with H : CoreModel.last x = true <-> _ |- _ => destruct H as [L1 L2] end. split; [auto|].
  intros HN HL. destruct (L1 HL) as [A|(h & A & _)]; [exact A|]. rewrite HN in A. discriminate.
Qed.
End Size.

Section Props.
Context {En X Ac W Pp Cr : Type}.
Variable call : Pp -> X -> X.
Variable pol : W -> nat -> X -> Ac.
Variable upd : nat -> @agent W Pp Cr -> list (@trans X Ac) -> option (@agent W Pp Cr).
Variable env_reset : En -> option X -> En * X.
Variable env_step : En -> Ac -> En * X * R * bool.
Variable hor : option nat.
Hypothesis Hhor : hor <> Some 0%nat.
Notation Wo := (c_world call pol upd env_reset env_step hor).
Notation cag := (@cagent W Pp Cr).
Notation dataset := (CoreModel.dataset X Ac R unit unit).
Hypothesis DEF : forall f ag ds, (2 <= length ds)%nat -> upd f ag ds <> None.

(** What every fit of a learn call must have worked with: the transitions made since the fit
    before, at least [k] of them, whose actions were drawn by the policy with the weights and
    through the preprocessors that the agent still has at the fit; the agent that goes on is
    the result of the update. *)
Definition fits_fresh (e : En) (a : cag) (k : nat) (l : list (CoreModel.event X Ac R unit unit))
    (step : nat -> @agent W Pp Cr -> list (CoreModel.sample X Ac R unit) -> @agent W Pp Cr -> Prop) : Prop :=
  forall u d v, l = u ++ CoreModel.EvFit d :: v ->
  exists u0 w p p',
    u = u0 ++ w /\ (u0 = [] \/ exists u1 d1, u0 = u1 ++ [CoreModel.EvFit d1]) /\ CoreModel.fits_of w = [] /\
    CoreModel.rows d = CoreModel.samples_of w /\ (k <= length (CoreModel.rows d))%nat /\
    CoreSpec.trace Wo (CoreSpec.Between e a) u p /\ CoreSpec.trace Wo (CoreSpec.Between e a) (u ++ [CoreModel.EvFit d]) p' /\
    Forall (fun x => exists n, CoreModel.action x =
        pol (a_w (c_ag (agent_of p))) n (prep_all call (a_ps (c_ag (agent_of p))) (CoreModel.state x))) (CoreModel.rows d) /\
    Forall (fun x => (CoreModel.absorbing x = true -> CoreModel.last x = true) /\
                     (hor = None -> CoreModel.last x = true -> CoreModel.absorbing x = true)) (CoreModel.rows d) /\
    step (c_fits (agent_of p)) (c_ag (agent_of p)) (CoreModel.rows d) (c_ag (agent_of p')).

Lemma fresh_fits : forall fuel e a l ns ne k spf epf r, (2 <= k)%nat -> every k spf epf ->
  CoreModel.learn Wo fuel e a l ns ne spf epf = CoreModel.Done r ->
  fits_fresh e a k (CoreModel.r_log r) (fun f g xs g' => upd f g (map c_read xs) = Some g').
Proof.
  intros fuel e a l ns ne k spf epf r K HE HD u d v E.
  assert (K1 : (1 <= k)%nat) by lia.
  pose proof (fit_size Wo Hhor fuel e a l ns ne k spf epf r K1 HE HD) as FS.
  destruct (every_ok k spf epf K1 HE) as [Hs He].
  destruct (core_fits_on_policy_data Wo Hhor (@c_ag W Pp Cr) (fun _ _ _ => eq_refl) (fun _ _ => eq_refl) (fun _ _ => eq_refl) (fun _ => eq_refl)
     fuel e a l ns ne spf epf r Hs He HD u d v E) as (u0 & w & p & p' & ag & EU & C & F & RD & TU & EA & TF & EF & DR).
  assert (FK : (k <= length (CoreModel.rows d))%nat).
  { rewrite Forall_forall in FS. apply FS. rewrite E, fits_app. apply in_or_app. right. left. reflexivity. }
  exists u0, w, p, p'. subst ag. do 7 (split; [assumption|]). split.
  { eapply Forall_impl; [|exact DR]. cbn beta. intros x (a1 & a2 & EW & ED). cbn in ED. injection ED as _ ED _.
    exists (c_draws a1). rewrite <- ED. unfold acting_state. rewrite EW. reflexivity. }
  split.
  { pose proof (trace_flags Wo _ _ _ TU) as FL. rewrite EU, samples_app in FL. apply Forall_app in FL as [_ FL]. rewrite RD. exact FL. }
  rewrite EF. cbn [CoreModel.fit c_world]. unfold c_fit.
  destruct (upd (c_fits (agent_of p)) (c_ag (agent_of p)) (map c_read (CoreModel.rows d))) as [g|] eqn:EE; [reflexivity|].
  exfalso. revert EE. apply DEF. rewrite map_length. lia.
Qed.

Lemma fits_fresh_impl : forall e a k l (s1 s2 : nat -> @agent W Pp Cr -> list (CoreModel.sample X Ac R unit) -> @agent W Pp Cr -> Prop),
  (forall f g xs g', (k <= length xs)%nat -> Forall (fun x => (CoreModel.absorbing x = true -> CoreModel.last x = true) /\
                     (hor = None -> CoreModel.last x = true -> CoreModel.absorbing x = true)) xs -> s1 f g xs g' -> s2 f g xs g') ->
  fits_fresh e a k l s1 -> fits_fresh e a k l s2.
Proof.
  intros e a k l s1 s2 H F u d v E. destruct (F u d v E) as (u0 & w & p & p' & H1 & H2 & H3 & H4 & H5 & H6 & H7 & H8 & H9 & H10).
  exists u0, w, p, p'. do 9 (split; [assumption|]). apply H; assumption.
Qed.

(** No fit ever fails. *)
Lemma never_fails : forall fuel e a l ns ne k spf epf r, (2 <= k)%nat -> every k spf epf ->
  CoreModel.learn Wo fuel e a l ns ne spf epf = CoreModel.Done r -> c_ok (CoreModel.r_ag r) = c_ok a.
Proof.
  intros fuel e a l ns ne k spf epf r K HE HD.
  assert (K1 : (1 <= k)%nat) by lia.
  pose proof (fit_size Wo Hhor fuel e a l ns ne k spf epf r K1 HE HD) as FS.
  destruct (every_ok k spf epf K1 HE) as [Hs He].
  destruct (learn_agent Wo Hhor fuel e a l ns ne spf epf r Hs He HD) as (pe & TR & EA). rewrite <- EA. clear EA.
  revert TR FS. generalize (CoreModel.r_log r). intros lg TR. clear HD.
  remember (CoreSpec.Between e a) as p0 eqn:EP0. replace (c_ok a) with (c_ok (agent_of p0)) by (rewrite EP0; reflexivity). clear EP0.
  induction TR as [|lg q1 ev q2 T IH ES]; intros FS; [reflexivity|].
  rewrite fits_app in FS. apply Forall_app in FS as [F1 F2]. rewrite <- (IH F1).
  assert (FD : forall b d, ev = CoreModel.EvFit d -> c_ok (CoreModel.fit Wo b d) = c_ok b).
  { intros b d ->. cbn [CoreModel.fits_of flat_map app] in F2. inversion F2; subst. cbn [CoreModel.fit c_world]. unfold c_fit.
    destruct (upd (c_fits b) (c_ag b) (map c_read (CoreModel.rows d))) as [g|] eqn:EE; [reflexivity|].
    exfalso. revert EE. apply DEF. rewrite map_length. lia. }
  inversion ES; subst; cbn [agent_of] in *; try (apply FD; reflexivity).
  - repeat match goal with H : CoreModel.prep _ _ _ = _ |- _ => cbn in H; injection H as <- <- | H : CoreModel.ep_start _ _ _ = _ |- _ => cbn in H; injection H as <- <- <- end. reflexivity.
  - match goal with HP : CoreModel.prep _ _ _ = _, HD : CoreModel.draw _ _ _ _ = _ |- _ => cbn in HP; injection HP as <- HP; cbn in HD; injection HD as <- HD1 HD2 end.
    destruct (CoreModel.last x); reflexivity.
Qed.

(** An update that fails on a single row, as those of PPO and A2C do, fails at every fit of a run
    told to fit at every step; the agent never learns. *)
Lemma one_step_fails : (forall f ag t, upd f ag [t] = None) -> forall fuel e a l ns ne r,
  CoreModel.learn Wo fuel e a l ns ne (Some 1%nat) None = CoreModel.Done r ->
  c_ag (CoreModel.r_ag r) = c_ag a /\ (CoreModel.fits_of (CoreModel.r_log r) <> [] -> c_ok (CoreModel.r_ag r) = false).
Proof.
  intros ONE fuel e a l ns ne r HD.
  assert (FS : Forall (fun d => length (CoreModel.rows d) = 1%nat) (CoreModel.fits_of (CoreModel.r_log r))).
  { assert (exists b, CoreProofs.budget_of ns ne (@None (list X)) = Some b) as (b & B).
    { unfold CoreModel.learn in HD. destruct (CoreModel.initialize_learn l (Some 1%nat) None); [|discriminate]. destruct (CoreModel.capacity Wo (Some 1%nat) None); [|discriminate].
      destruct ns as [n'|], ne as [n''|]; simpl in HD; try discriminate; eexists; reflexivity. }
    destruct (CoreProofs.learn_unfold Wo Hhor e a l ns ne (Some 1%nat) None (CoreProofs.SSteps 1) b) as (cap & l2 & C & I & _ & _ & U); auto.
    { exact (le_n 1). }
    rewrite U in HD. pose proof (CoreProofs.loop_inv Wo Hhor fuel cap (CoreProofs.SSteps 1) b None (CoreSpec.Between e a) _ (le_n 1) C I) as Q. rewrite HD in Q. destruct Q as [Q _].
    apply (CoreProofs.i_fits _ _ _ _ _ _ Q). }
  destruct (learn_agent Wo Hhor fuel e a l ns ne (Some 1%nat) None r) as (pe & TR & EA); auto. { right. eauto. }
  rewrite <- EA. clear EA HD. revert TR FS. generalize (CoreModel.r_log r). intros lg TR.
  remember (CoreSpec.Between e a) as p0 eqn:EP0. replace (c_ag a) with (c_ag (agent_of p0)) by (rewrite EP0; reflexivity). clear EP0.
  induction TR as [|lg q1 ev q2 T IH ES]; intros FS; [split; [reflexivity|intros Z; destruct (Z eq_refl)]|].
  rewrite fits_app in FS. apply Forall_app in FS as [F1 F2]. destruct (IH F1) as [IW IO]. rewrite fits_app.
  assert (FD : forall b d, ev = CoreModel.EvFit d -> c_ag (CoreModel.fit Wo b d) = c_ag b /\ c_ok (CoreModel.fit Wo b d) = false).
  { intros b d ->. cbn [CoreModel.fits_of flat_map app] in F2. inversion F2 as [|? ? L1 _]; subst. cbn [CoreModel.fit c_world]. unfold c_fit.
    destruct (CoreModel.rows d) as [|x [|y rs]]; try discriminate. cbn [map]. rewrite ONE. auto. }
  inversion ES; subst; cbn [agent_of] in *.
  - repeat match goal with H : CoreModel.prep _ _ _ = _ |- _ => cbn in H; injection H as <- <- | H : CoreModel.ep_start _ _ _ = _ |- _ => cbn in H; injection H as <- <- <- end.
    cbn [CoreModel.fits_of flat_map]. rewrite app_nil_r. auto.
  - match goal with HP : CoreModel.prep _ _ _ = _, HD : CoreModel.draw _ _ _ _ = _ |- _ => cbn in HP; injection HP as <- HP; cbn in HD; injection HD as <- HD1 HD2 end.
    cbn [CoreModel.fits_of flat_map]. rewrite app_nil_r. destruct (CoreModel.last x); auto.
  - destruct (FD a0 d eq_refl) as [A B]. split; [congruence|auto].
  - destruct (FD a0 d eq_refl) as [A B]. split; [congruence|auto].
Qed.
End Props.

(** ** PPO *)
Section Ppo.
Context {En X Ac W Pp Cr : Type}.
Variables (logp : W -> X -> Ac -> R) (ent : W -> list X -> R) (opt : W -> (W -> R) -> W).
Variables (call : Pp -> X -> X) (pupd : Pp -> list X -> Pp) (val : Cr -> X -> R) (cfit : Cr -> list X -> list R -> Cr).
Variables (gamma lam : R).
Variable pol : W -> nat -> X -> Ac.
Variable env_reset : En -> option X -> En * X.
Variable env_step : En -> Ac -> En * X * R * bool.
Variable hor : option nat.
Hypothesis Hhor : hor <> Some 0%nat.
Notation csample := (CoreModel.sample X Ac R unit).

(** What the value estimates of a row are. *)
Definition valued (cr : Cr) (ps : list Pp) (x : csample) : AdvModel.step :=
  {| AdvModel.g_v := val cr (prep_all call ps (CoreModel.state x)); AdvModel.g_vn := val cr (prep_all call ps (CoreModel.next_state x));
     AdvModel.g_r := CoreModel.reward x; AdvModel.g_abs := CoreModel.absorbing x; AdvModel.g_last := CoreModel.last x |}.

(** The update PPO should make, from agent [g] to agent [g'] on the rows [xs]: the
    preprocessors are updated with the states; the advantage of each row is the discounted sum
    of the temporal-difference errors up to the end of its episode or of the data; the critic
    is fitted on advantage + value; the weights go through one optimizer step per minibatch of
    each epoch, each epoch going through all rows, on the loss made from the advantages, brought
    to mean zero and scaled, and the ratios to the probabilities under which the actions were
    drawn; and when there are no preprocessors the gradient of the loss of any minibatch of
    these rows before the first step is the plain policy gradient with the entropy bonus. *)
Definition ppo_step (eps cs : nat -> nat -> R) (bs : nat) (epochs : nat) (f : nat) (g : @agent W Pp Cr) (xs : list csample) (g' : @agent W Pp Cr) : Prop :=
  a_ps g' = upd_all call pupd (a_ps g) (map CoreModel.state xs) /\
  exists adv s (qs : list (@prow X Ac)) (ep : list (list (list (@prow X Ac)))),
    length adv = length xs /\
    (forall i, (i < length xs)%nat ->
       nth i adv 0 = AdvSpec.dsum (gamma * lam) (AdvSpec.td_error gamma) (AdvSpec.to_end (skipn i (map (valued (a_cr g) (a_ps g')) xs)))) /\
    a_cr g' = cfit (a_cr g) (map (fun x => prep_all call (a_ps g') (CoreModel.state x)) xs)
                   (map (fun p => fst p + val (a_cr g) (prep_all call (a_ps g') (CoreModel.state (snd p)))) (combine adv xs)) /\
    0 < s /\ length qs = length xs /\
    (forall i x, nth_error xs i = Some x -> nth_error qs i =
       Some (mkP (prep_all call (a_ps g') (CoreModel.state x)) (CoreModel.action x) ((nth i adv 0 - rsum adv / INR (length adv)) / s)
                 (logp (a_w g) (prep_all call (a_ps g) (CoreModel.state x)) (CoreModel.action x)))) /\
    length ep = epochs /\
    (forall bl, In bl ep -> Permutation (concat bl) qs /\ (forall b, In b bl -> (1 <= length b <= bs)%nat)) /\
    a_w g' = fold_left (fun w kb => opt w (ppo_loss logp ent (eps f (fst kb)) (cs f (fst kb)) (snd kb))) (combine (seq 0 (length (concat ep))) (concat ep)) (a_w g) /\
    (a_ps g = [] -> forall b e c, incl b qs -> 0 < e ->
       forall (h : R -> W) t0 (score : prow -> R) dent, h t0 = a_w g ->
         (forall q, In q b -> derivable_pt_lim (fun z => logp (h z) (p_x q) (p_a q)) t0 (score q)) ->
         derivable_pt_lim (fun z => ent (h z) (map p_x b)) t0 dent ->
         derivable_pt_lim (fun z => ppo_loss logp ent e c b (h z)) t0 (- tmean (map (fun q => p_adv q * score q) b) - c * dent)).

(** What [fit_rows] computes: targets of the critic and rows for the policy update. *)
Lemma fit_rows_correct : forall (g : @agent W Pp Cr) (xs : list csample) ps' vt rows,
  Forall (fun x => CoreModel.absorbing x = true -> CoreModel.last x = true) xs ->
  fit_rows logp call pupd val gamma lam g (map c_read xs) = Some (ps', vt, rows) ->
  ps' = upd_all call pupd (a_ps g) (map CoreModel.state xs) /\
  exists adv s,
    length adv = length xs /\
    (forall i, (i < length xs)%nat ->
       nth i adv 0 = AdvSpec.dsum (gamma * lam) (AdvSpec.td_error gamma) (AdvSpec.to_end (skipn i (map (valued (a_cr g) ps') xs)))) /\
    vt = map (fun p => fst p + val (a_cr g) (prep_all call ps' (CoreModel.state (snd p)))) (combine adv xs) /\
    0 < s /\ length rows = length xs /\
    (forall i x, nth_error xs i = Some x -> nth_error rows i =
       Some (mkP (prep_all call ps' (CoreModel.state x)) (CoreModel.action x) ((nth i adv 0 - rsum adv / INR (length adv)) / s)
                 (logp (a_w g) (prep_all call (a_ps g) (CoreModel.state x)) (CoreModel.action x)))).
Proof.
  intros g xs ps' vt rows HA F.
  assert (NV : exists adv', normalise (snd (AdvModel.compute_gae gamma lam (gae_rows call val (a_cr g) ps' (map c_read xs)))) = Some adv' /\
     length adv' = length (map (@c_read X Ac) xs) /\
     rows = map (fun p => mkP (prep_all call ps' (t_s (fst p))) (t_a (fst p)) (snd p)
                          (logp (a_w g) (prep_all call (a_ps g) (t_s (fst p))) (t_a (fst p)))) (combine (map c_read xs) adv') /\
     vt = fst (AdvModel.compute_gae gamma lam (gae_rows call val (a_cr g) ps' (map c_read xs)))).
  { destruct (PpoProps.fit_rows_inv logp call pupd val _ _ _ _ _ _ _ F) as (E1 & adv' & N & L & RR). exists adv'. repeat split; auto.
    rewrite E1. unfold fit_rows in F. destruct (AdvModel.compute_gae gamma lam _) as [v0 a0]. unfold obind in F. destruct (normalise a0); [|discriminate F].
    injection F as _ F _. symmetry. exact F. }
  destruct NV as (adv' & N & LA & RR & EV).
  assert (EP : ps' = upd_all call pupd (a_ps g) (map CoreModel.state xs)).
  { destruct (PpoProps.fit_rows_inv logp call pupd val _ _ _ _ _ _ _ F) as (E1 & _). rewrite E1, map_map. reflexivity. }
  rewrite map_length in LA.
  assert (EG : gae_rows call val (a_cr g) ps' (map c_read xs) = map (valued (a_cr g) ps') xs) by (unfold gae_rows; rewrite map_map; reflexivity).
  rewrite EG in N, EV. 
  pose proof (AdvProps.gae_is_discounted_td_errors gamma lam (map (valued (a_cr g) ps') xs)) as G.
  assert (AL : AdvSpec.absorbing_is_last (map (valued (a_cr g) ps') xs)).
  { unfold AdvSpec.absorbing_is_last. rewrite Forall_map. exact HA. }
  specialize (G AL). destruct (AdvModel.compute_gae gamma lam (map (valued (a_cr g) ps') xs)) as [vt0 adv] eqn:EC. cbn [fst snd] in N, EV.
  destruct G as (GL & _ & GN). rewrite map_length in GL, GN. subst vt.
  split; [exact EP|].
  unfold normalise in N. destruct (tstd adv) as [sd|] eqn:ES; [|discriminate]. injection N as N.
  assert (SP : 0 < sd + / 10 ^ 8).
  { unfold tstd in ES. destruct (Nat.ltb (length adv) 2); [discriminate|]. injection ES as <-. 
    pose proof (sqrt_pos (rsum (map (fun x : R => (x - tmean adv) * (x - tmean adv)) adv) / (INR (length adv) - 1))).
    assert (0 < / 10 ^ 8) by (apply Rinv_0_lt_compat, pow_lt; lra). lra. }
  assert (LR : length rows = length xs) by (rewrite RR, map_length, combine_length, map_length; lia).
  exists adv, (sd + / 10 ^ 8). split; [exact GL|]. split; [intros i Hi; apply GN; exact Hi|]. split.
  { unfold AdvModel.compute_gae in EC. injection EC as EC1 EC2. rewrite EC2 in EC1. rewrite <- EC1.
    assert (Z : forall (l1 : list R) (l2 : list csample), map (fun p => fst p + AdvModel.g_v (snd p)) (combine l1 (map (valued (a_cr g) ps') l2)) =
       map (fun p => fst p + val (a_cr g) (prep_all call ps' (CoreModel.state (snd p)))) (combine l1 l2)).
    { induction l1 as [|z l1 IH]; intros [|y l2]; auto. cbn [map combine]. rewrite IH. reflexivity. }
    apply Z. }
  split; [exact SP|]. split; [exact LR|].
  { intros i x HX. rewrite RR, nth_error_map.
    assert (HL : (i < length xs)%nat) by (apply nth_error_Some; congruence).
    assert (Z : nth_error (combine (map (@c_read X Ac) xs) adv') i = Some (c_read x, (nth i adv 0 - rsum adv / INR (length adv)) / (sd + / 10 ^ 8))).
    { assert (A1 : nth_error adv' i = Some ((nth i adv 0 - rsum adv / INR (length adv)) / (sd + / 10 ^ 8))).
      { rewrite <- N, nth_error_map. rewrite (List.nth_error_nth' adv 0) by lia. reflexivity. }
      revert A1. generalize ((nth i adv 0 - rsum adv / INR (length adv)) / (sd + / 10 ^ 8)). intros z A1.
      clear -HX A1. revert i adv' HX A1. induction xs as [|y xs IH]; intros i adv' HX A1; destruct i; try discriminate; destruct adv'; try discriminate; cbn [map combine nth_error] in *.
      - congruence.
      - apply IH; auto. }
    rewrite Z. reflexivity. }
Qed.

Lemma ppo_step_correct : forall eps cs bs d perms f (g g' : @agent W Pp Cr) (xs : list csample) epochs,
  (1 <= bs)%nat -> (forall f n, length (perms f n) = epochs /\ forall perm, In perm (perms f n) -> Permutation perm (seq 0 n)) ->
  Forall (fun x => CoreModel.absorbing x = true -> CoreModel.last x = true) xs ->
  ppo_upd logp ent opt call pupd val cfit gamma lam eps cs bs d perms f g (map c_read xs) = Some g' -> ppo_step eps cs bs epochs f g xs g'.
Proof.
  intros eps cs bs d perms f g g' xs epochs HB HP HA H. unfold ppo_upd, ppo_fit in H.
  destruct (fit_rows logp call pupd val gamma lam g (map c_read xs)) as [[[ps' vt] rows]|] eqn:F; [|discriminate]. cbn [obind] in H. injection H as <-.
  destruct (fit_rows_correct g xs ps' vt rows HA F) as (EP & adv & s & GL & GN & EV & SP & LR & RR).
  unfold ppo_step. cbn [a_ps a_cr a_w]. split; [exact EP|].
  assert (PF : forall perm, In perm (perms f (length (map (@c_read X Ac) xs))) -> Permutation perm (seq 0 (length rows))).
  { intros perm Hp. rewrite LR. rewrite map_length in Hp. apply (proj2 (HP _ _) _ Hp). }
  destruct (PpoProps.ppo_epochs d bs _ rows HB PF) as (ep & E1 & E2 & E3 & _).
  exists adv, s, rows, ep. split; [exact GL|]. split; [exact GN|]. split; [rewrite EV; f_equal; rewrite map_map; reflexivity|].
  split; [exact SP|]. split; [exact LR|]. split; [exact RR|].
  split. { rewrite E2. apply HP. }
  split. { intros bl Hb. destruct (E3 bl Hb) as (A & _ & B). split; assumption. }
  split. { unfold update_policy. rewrite E1. reflexivity. }
  intros EN b e c HI He. refine (proj2 (PpoProps.ppo_first_step logp ent call pupd val gamma lam g (map c_read xs) ps' _ rows F _ b e c HI He)).
  intros t _. unfold acting_state. rewrite EP, EN. reflexivity.
Qed.

(** Whenever [learn] is told to fit every [k >= 2] steps or every [k >= 2] episodes, PPO never
    meets a NaN and every fit makes exactly that update on the transitions collected since the
    fit before, with actions drawn from the policy being updated. *)
Theorem core_ppo_updates : forall eps cs bs d perms epochs fuel e a l ns ne k spf epf r,
  let U := ppo_upd logp ent opt call pupd val cfit gamma lam eps cs bs d perms in
  (1 <= bs)%nat -> (forall f n, length (perms f n) = epochs /\ forall perm, In perm (perms f n) -> Permutation perm (seq 0 n)) ->
  (2 <= k)%nat -> every k spf epf ->
  CoreModel.learn (c_world call pol U env_reset env_step hor) fuel e a l ns ne spf epf = CoreModel.Done r ->
  c_ok (CoreModel.r_ag r) = c_ok a /\
  fits_fresh call pol U env_reset env_step hor e a k (CoreModel.r_log r) (ppo_step eps cs bs epochs).
Proof.
  intros eps cs bs d perms epochs fuel e a l ns ne k spf epf r U HB HP K HE HD.
  assert (DEF : forall f ag ds, (2 <= length ds)%nat -> U f ag ds <> None) by (intros f ag ds L; unfold U, ppo_upd; apply PpoProps.ppo_fit_defined; exact L).
  split; [apply (never_fails call pol U env_reset env_step hor Hhor DEF fuel e a l ns ne k spf epf r K HE HD)|].
  eapply fits_fresh_impl; [|apply (fresh_fits call pol U env_reset env_step hor Hhor DEF fuel e a l ns ne k spf epf r K HE HD)].
  cbn beta. intros f g xs g' L FL H. apply (ppo_step_correct eps cs bs d perms f g g' xs epochs HB HP); [|exact H].
  eapply Forall_impl; [|exact FL]. intros x [A _]. exact A.
Qed.

(** ** A2C *)

(** The update A2C should make when there are no agent preprocessors: the target of each row is
    the discounted return up to the end of its episode, or of the data, followed there by the
    value of the state reached; the advantage is target minus value; one optimizer step on a loss
    whose gradient is the policy gradient with the entropy bonus; the critic is fitted on the
    targets. *)
Definition a2c_step (cs : nat -> R) (f : nat) (g : @agent W Pp Cr) (xs : list csample) (g' : @agent W Pp Cr) : Prop :=
  a_ps g' = a_ps g /\
  exists q loss,
    length q = length xs /\
    (forall i, (i < length xs)%nat -> nth i q 0 = AdvSpec.boot_return gamma (AdvSpec.to_end (skipn i (map (valued (a_cr g) []) xs)))) /\
    a_cr g' = cfit (a_cr g) (map CoreModel.state xs) q /\
    a_w g' = opt (a_w g) loss /\
    forall (h : R -> W) t0 (score : csample -> R) dent, 
      (forall x, In x xs -> derivable_pt_lim (fun z => logp (h z) (CoreModel.state x) (CoreModel.action x)) t0 (score x)) ->
      derivable_pt_lim (fun z => ent (h z) (map CoreModel.state xs)) t0 dent ->
      derivable_pt_lim (fun z => loss (h z)) t0
        (- tmean (map (fun p => (fst p - val (a_cr g) (CoreModel.state (snd p))) * score (snd p)) (combine q xs)) - cs f * dent).

Lemma lim_combine : forall (h : R -> W) t0 (score : csample -> R) (xs : list csample) (adv : list R), length adv = length xs ->
  (forall x, In x xs -> derivable_pt_lim (fun z => logp (h z) (CoreModel.state x) (CoreModel.action x)) t0 (score x)) ->
  derivable_pt_lim (fun z => rsum (map (fun p => logp (h z) (CoreModel.state (snd p)) (CoreModel.action (snd p)) * fst p) (combine adv xs))) t0
    (rsum (map (fun p => fst p * score (snd p)) (combine adv xs))).
Proof.
  intros h t0 score xs. induction xs as [|x xs IH]; intros adv L HS; destruct adv as [|y adv]; try discriminate.
  - apply derivable_pt_lim_const.
  - cbn [combine map fst snd]. change (fun z => rsum (logp (h z) (CoreModel.state x) (CoreModel.action x) * y :: map (fun p => logp (h z) (CoreModel.state (snd p)) (CoreModel.action (snd p)) * fst p) (combine adv xs)))
      with (fun z => (logp (h z) (CoreModel.state x) (CoreModel.action x) * y + rsum (map (fun p => logp (h z) (CoreModel.state (snd p)) (CoreModel.action (snd p)) * fst p) (combine adv xs)))%R).
    apply (derivable_pt_lim_plus (fun z => logp (h z) (CoreModel.state x) (CoreModel.action x) * y)).
    + replace (y * score x) with (score x * y + logp (h t0) (CoreModel.state x) (CoreModel.action x) * 0) by ring.
      apply (derivable_pt_lim_mult (fun z => logp (h z) (CoreModel.state x) (CoreModel.action x)) (fun _ => y)); [apply HS; left; reflexivity|apply derivable_pt_lim_const].
    + apply IH; [simpl in L; lia|]. intros z Hz. apply HS. right. exact Hz.
Qed.

Lemma a2c_step_correct : forall cs f (g g' : @agent W Pp Cr) (xs : list csample), (2 <= length xs)%nat ->
  Forall (fun x => CoreModel.absorbing x = true -> CoreModel.last x = true) xs -> Forall (fun x => CoreModel.last x = true -> CoreModel.absorbing x = true) xs ->
  a2c_upd logp ent opt val cfit gamma cs f g (map c_read xs) = Some g' -> a2c_step cs f g xs g'.
Proof.
  intros cs f g g' xs HL HA HB H. unfold a2c_upd, a2c_fit, a2c_batch in H.
  set (vs := map (valued (a_cr g) []) xs).
  replace (map _ (map c_read xs)) with vs in H by (unfold vs; rewrite map_map; reflexivity).
  destruct (AdvProps.mc_advantage_partial gamma vs) as (q & adv & E & LQ & LA & V).
  { unfold vs. rewrite map_length. exact HL. }
  { unfold AdvSpec.absorbing_is_last, vs. rewrite Forall_map. exact HA. }
  { assert (Z : Forall (fun x => AdvModel.g_last x = true -> AdvModel.g_abs x = true) vs) by (unfold vs; rewrite Forall_map; exact HB).
    destruct vs as [|v0 vs0]; [constructor|]. rewrite (app_removelast_last v0) in Z by discriminate. apply Forall_app in Z. tauto. }
  rewrite E in H. unfold obind in H. cbn [fst snd] in H. injection H as <-. cbn [a_ps a_cr a_w].
  assert (LV : length vs = length xs) by (unfold vs; apply map_length).
  unfold a2c_step. cbn [a_ps a_cr a_w]. split; [reflexivity|]. exists q. eexists. split; [lia|]. split.
  { intros i Hi. destruct xs as [|x0 xs0]; [simpl in HL; lia|]. apply (V i (valued (a_cr g) [] x0)). lia. }
  split; [rewrite map_map; reflexivity|]. split; [reflexivity|].
  intros h t0 score dent HS HD. cbn beta. unfold a2c_loss.
  assert (EA : adv = map (fun p => fst p - val (a_cr g) (CoreModel.state (snd p))) (combine q xs)).
  { apply (nth_ext _ _ 0 0). { rewrite map_length, combine_length. lia. }
    intros i Hi. destruct (nth_error xs i) as [x|] eqn:EX; [|apply nth_error_None in EX; lia].
    destruct (V i (valued (a_cr g) [] x)) as [_ V2]; [lia|]. rewrite V2.
    rewrite (nth_indep (map (fun p => fst p - val (a_cr g) (CoreModel.state (snd p))) (combine q xs)) 0 ((fun p => fst p - val (a_cr g) (CoreModel.state (snd p))) (0, x))) by (rewrite map_length, combine_length; lia).
    rewrite (map_nth (fun p : R * csample => fst p - val (a_cr g) (CoreModel.state (snd p))) (combine q xs) (0, x) i), combine_nth by lia. cbn [fst snd]. f_equal. unfold vs. rewrite map_nth. reflexivity. }
  assert (LQX : length q = length xs) by lia.
  set (b := map _ (combine (map c_read xs) adv)).
  assert (MB : map (fun q0 : X * Ac * R => fst (fst q0)) b = map CoreModel.state xs).
  { unfold b. rewrite map_map. cbn [fst snd]. clear -LA LV. revert adv LA. rewrite LV. clear LV vs. induction xs as [|x xs IH]; intros [|y adv] L; try discriminate; auto. cbn [map combine fst]. rewrite IH by (simpl in L; lia). reflexivity. }
  rewrite MB.
  assert (LB : forall (ff : X -> Ac -> R), map (fun q0 : X * Ac * R => ff (fst (fst q0)) (snd (fst q0)) * snd q0) b = map (fun p => ff (CoreModel.state (snd p)) (CoreModel.action (snd p)) * fst p) (combine adv xs)).
  { intros ff. unfold b. rewrite map_map. cbn [fst snd]. clear -LA LV. revert adv LA. rewrite LV. clear LV vs. induction xs as [|x xs IH]; intros [|y adv] L; try discriminate; auto. cbn [map combine fst snd]. rewrite IH by (simpl in L; lia). reflexivity. }
  replace (- tmean (map (fun p => (fst p - val (a_cr g) (CoreModel.state (snd p))) * score (snd p)) (combine q xs)) - cs f * dent)
    with (- (rsum (map (fun p => fst p * score (snd p)) (combine adv xs)) * / INR (length xs)) + cs f * - dent).
  2:{ unfold tmean. rewrite map_length, combine_length, LQX, Nat.min_id. 
      assert (EM : map (fun p => fst p * score (snd p)) (combine adv xs) = map (fun p => (fst p - val (a_cr g) (CoreModel.state (snd p))) * score (snd p)) (combine q xs)).
      { rewrite EA. clear -LQX. revert q LQX. induction xs as [|x xs IH]; intros [|y q] L; try discriminate; auto. cbn [map combine fst snd]. rewrite IH by (simpl in L; lia). reflexivity. }
      rewrite EM. unfold Rdiv. ring. }
  apply (derivable_pt_lim_plus (fun z => - tmean (map (fun q0 => logp (h z) (fst (fst q0)) (snd (fst q0)) * snd q0) b)) (fun z => cs f * - ent (h z) (map CoreModel.state xs))).
  - apply (derivable_pt_lim_opp (fun z => tmean (map (fun q0 => logp (h z) (fst (fst q0)) (snd (fst q0)) * snd q0) b))).
    assert (LBB : length b = length xs) by (unfold b; rewrite map_length, combine_length, map_length; lia).
    apply (derivable_pt_lim_ext (fun z => / INR (length xs) * rsum (map (fun p => logp (h z) (CoreModel.state (snd p)) (CoreModel.action (snd p)) * fst p) (combine adv xs)))).
    { intros z. unfold tmean. rewrite map_length, LBB. rewrite (LB (logp (h z))). unfold Rdiv. ring. }
    rewrite Rmult_comm. apply (derivable_pt_lim_scal (fun z => rsum (map (fun p => logp (h z) (CoreModel.state (snd p)) (CoreModel.action (snd p)) * fst p) (combine adv xs)))).
    apply lim_combine; [lia|exact HS].
  - apply (derivable_pt_lim_scal (fun z => - ent (h z) (map CoreModel.state xs))).
    apply (derivable_pt_lim_opp (fun z => ent (h z) (map CoreModel.state xs))). exact HD.
Qed.

Lemma a2c_defined : forall cs f (g : @agent W Pp Cr) (ds : list (@trans X Ac)), (2 <= length ds)%nat ->
  a2c_upd logp ent opt val cfit gamma cs f g ds <> None.
Proof.
  intros cs f g ds H. unfold a2c_upd, a2c_fit, a2c_batch. destruct ds as [|x [|y ds]]; try (simpl in H; lia). discriminate.
Qed.

(** In an environment without a horizon A2C makes that update at every fit, on the transitions
    collected since the fit before. *)
Theorem core_a2c_updates_partial : forall cs fuel e a l ns ne k spf epf r,
  let U := a2c_upd logp ent opt val cfit gamma cs in
  (2 <= k)%nat -> every k spf epf -> hor = None ->
  CoreModel.learn (c_world call pol U env_reset env_step hor) fuel e a l ns ne spf epf = CoreModel.Done r ->
  c_ok (CoreModel.r_ag r) = c_ok a /\
  fits_fresh call pol U env_reset env_step hor e a k (CoreModel.r_log r) (a2c_step cs).
Proof.
  intros cs fuel e a l ns ne k spf epf r U K HE HN HD.
  assert (DEF : forall f ag ds, (2 <= length ds)%nat -> U f ag ds <> None) by (intros f ag ds L; apply a2c_defined; exact L).
  split; [apply (never_fails call pol U env_reset env_step hor Hhor DEF fuel e a l ns ne k spf epf r K HE HD)|].
  eapply fits_fresh_impl; [|apply (fresh_fits call pol U env_reset env_step hor Hhor DEF fuel e a l ns ne k spf epf r K HE HD)].
  cbn beta. intros f g xs g' L FL H. apply (a2c_step_correct cs f g g' xs); [lia| | |exact H].
  - eapply Forall_impl; [|exact FL]. intros x [A _]. exact A.
  - eapply Forall_impl; [|exact FL]. intros x [_ A]. auto.
Qed.

(** Told to fit at every step, neither agent ever learns: every fit gets one transition, which
    gives PPO a NaN and makes A2C raise. *)
Theorem core_ppo_every_step_refuted : forall eps cs bs d perms fuel e a l ns ne r,
  let U := ppo_upd logp ent opt call pupd val cfit gamma lam eps cs bs d perms in
  CoreModel.learn (c_world call pol U env_reset env_step hor) fuel e a l ns ne (Some 1%nat) None = CoreModel.Done r ->
  c_ag (CoreModel.r_ag r) = c_ag a /\ (CoreModel.fits_of (CoreModel.r_log r) <> [] -> c_ok (CoreModel.r_ag r) = false).
Proof. intros eps cs bs d perms fuel e a l ns ne r U HD. apply (one_step_fails call pol U env_reset env_step hor Hhor ltac:(reflexivity) fuel e a l ns ne r HD). Qed.

Theorem core_a2c_every_step_refuted : forall cs fuel e a l ns ne r,
  let U := a2c_upd logp ent opt val cfit gamma cs in
  CoreModel.learn (c_world call pol U env_reset env_step hor) fuel e a l ns ne (Some 1%nat) None = CoreModel.Done r ->
  c_ag (CoreModel.r_ag r) = c_ag a /\ (CoreModel.fits_of (CoreModel.r_log r) <> [] -> c_ok (CoreModel.r_ag r) = false).
Proof. intros cs fuel e a l ns ne r U HD. apply (one_step_fails call pol U env_reset env_step hor Hhor ltac:(reflexivity) fuel e a l ns ne r HD). Qed.
End Ppo.

(** With a horizon the targets of A2C run across the end of an episode: episodes of one step,
    never absorbing, rewards 1 and 100, value 0 everywhere, no discount. The critic, which here
    keeps its targets, is given 101 for the first state although the episode ended with 1. *)
Definition tr_reset (e : nat) (i : option nat) : nat * nat := (e, 0%nat).
Definition tr_step (e : nat) (a : unit) : nat * nat * R * bool := (S e, 0%nat, if (e =? 0)%nat then 1 else 100, false).
Definition tr_upd := a2c_upd (fun (w : unit) (x : nat) (a : unit) => 0) (fun _ _ => 0) (fun w _ => w) (fun (c : list R) (x : nat) => 0) (fun _ _ q => q) 1 (fun _ => 0) (Pp := unit).
Definition tr_world := c_world (fun (p : unit) x => x) (fun (w : unit) _ (x : nat) => tt) tr_upd tr_reset tr_step (Some 1%nat).
Theorem core_a2c_horizon_refuted : exists r d,
  CoreModel.learn tr_world 5 0%nat (mkCA {| a_w := tt; a_ps := []; a_cr := [] |} 0 0 true) VecCoreModel.fresh_logic (Some 2%nat) None (Some 2%nat) None = CoreModel.Done r /\
  CoreModel.fits_of (CoreModel.r_log r) = [d] /\ map CoreModel.last (CoreModel.rows d) = [true; true] /\
  a_cr (c_ag (CoreModel.r_ag r)) = [101; 100] /\
  map (fun i => AdvSpec.boot_return 1 (AdvSpec.to_end (skipn i (map (valued (fun (p : unit) x => x) (fun (c : list R) x => 0) [] []) (CoreModel.rows d))))) [0; 1]%nat = [1; 100].
Proof.
  change tr_world with (CoreModel.mkW nat (@cagent unit unit (list R)) nat unit R unit unit tr_reset tr_step
    (fun a _ => (a, tt, tt)) (fun a o _ => let (a', b) := c_draw (fun (p : unit) x => x) (fun (w : unit) _ (x : nat) => tt) a o in (a', b, tt))
    (fun a o => (a, o)) (fun a => a) false (Some 1%nat) (c_fit tr_upd)).
  eexists. eexists. split; [lazy -[c_fit IZR tr_upd]; reflexivity|]. cbn [CoreModel.r_ag CoreModel.r_log CoreModel.fits_of flat_map app].
  split; [reflexivity|]. split; [reflexivity|]. split.
  - unfold c_fit. cbn -[IZR]. f_equal; [ring|]. f_equal. ring.
  - unfold AdvSpec.boot_return, AdvSpec.dsum, valued. cbn -[IZR]. f_equal; [ring|]. f_equal. ring.
Qed.

(** PPO with a fit every two steps, one epoch, minibatches of one row: the weights count the
    optimizer steps and the policy plays its weights, so the actions of six steps are
    0 0 2 2 4 4. *)
Definition ex_upd := ppo_upd (fun (w x a : nat) => 0) (fun _ _ => 0) (fun w _ => S w) (fun (p : unit) (x : nat) => x) (fun p _ => p) (fun (c : unit) (x : nat) => 0)
  (fun c _ _ => c) 1 1 (fun _ _ => 1 / 5) (fun _ _ => 0) 1 (mkP 0%nat 0%nat 0 0) (fun _ n => [rev (seq 0 n)]).
Example core_ppo_ex : exists r,
  CoreModel.learn (c_world (fun (p : unit) x => x) (fun w _ x => w) ex_upd (fun (e : nat) _ => (0, 0)%nat) (fun e a => (S e, S e, 1, false)) (Some 4%nat)) 20 0%nat
    (mkCA {| a_w := 0%nat; a_ps := []; a_cr := tt |} 0 0 true) VecCoreModel.fresh_logic (Some 6%nat) None (Some 2%nat) None = CoreModel.Done r /\
  map (fun d => map CoreModel.action (CoreModel.rows d)) (CoreModel.fits_of (CoreModel.r_log r)) = [[0; 0]; [2; 2]; [4; 4]]%nat /\
  a_w (c_ag (CoreModel.r_ag r)) = 6%nat /\ c_ok (CoreModel.r_ag r) = true.
Proof.
  eexists. split; [lazy -[Rplus Rmult Ropp Rinv Rminus Rdiv IZR INR sqrt exp pow Rmin Rmax]; reflexivity|]. auto.
Qed.

Print Assumptions core_ppo_updates.
Print Assumptions core_a2c_updates_partial.
Print Assumptions core_ppo_every_step_refuted.
Print Assumptions core_a2c_every_step_refuted.
Print Assumptions core_a2c_horizon_refuted.

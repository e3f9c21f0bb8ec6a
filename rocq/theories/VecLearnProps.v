(** C114: training with VectorCore, and PPO and A2C trained by it. *)
From Coq Require Import List Arith Lia Bool Reals Lra Permutation.
From Verif Require Import Common EpisodeSpec PpoModel CorePpoModel VecCoreModel VecCoreProofs VecLearnModel VecLearnSpec VecLearnProofs VecPpoModel.
From Verif Require CoreModel CorePpoProps AdvModel AdvSpec AdvProps PpoProps.
Import ListNotations.
Local Open Scope list_scope.
Local Open Scope nat_scope.

Section Run.
Context {E X A Ag : Type}.
Notation vsample := (CoreModel.sample X A R unit).
Variable n : nat.
Variable hor : option nat.
Variable garb : nat -> nat -> nat -> bool.
Variable e_reset : E -> E * X.
Variable e_step : E -> A -> E * X * R * bool.
Variable draw : Ag -> list X -> Ag * list A.
Variable fitf : Ag -> list vsample -> Ag.
Hypothesis Hn : 2 <= n.
Hypothesis Hhor : hor <> Some 0.
Hypothesis Hdraw : forall a xs, length (snd (draw a xs)) = length xs.
Notation lrn := (xlearn n hor garb e_reset e_step draw fitf).

(** The calls of learn covered: a fit every [k] steps, [k] a multiple of the number of
    environments, for a number of steps; or a fit every [k] episodes, the environments having a
    horizon, for a number of steps or of episodes. *)
Definition covered (k : nat) (ns ne spf epf : option nat) : Prop :=
  (spf = Some k /\ epf = None /\ (exists q, k = n * q) /\ exists N, ns = Some N /\ ne = None) \/
  (spf = None /\ epf = Some k /\ hor <> None /\ exists N, (ns = Some N /\ ne = None) \/ (ns = None /\ ne = Some N)).

(** Iterations enough for the call to return. *)
Definition enough (fuel : nat) (ns ne : option nat) : Prop :=
  match ns, ne, hor with Some N, _, _ => N <= fuel | None, Some N, Some h => h * N <= fuel | _, _, _ => False end.

Lemma loop_inv : forall cap s0 c0 sc b fuel s, vpos sc ->
  clean (Wg n hor garb e_reset e_step draw fitf cap s0) sc b cap ->
  Inv n hor garb e_reset e_step draw fitf cap s0 c0 sc b s ->
  match vloop (Wg n hor garb e_reset e_step draw fitf cap s0) fuel cap (x_r s) with
  | VDone r out => exists s', xloop n hor garb e_reset e_step draw fitf fuel cap s = XDone s' /\ Inv n hor garb e_reset e_step draw fitf cap s0 c0 sc b s'
  | VCrash => False
  | VOutOfFuel => xloop n hor garb e_reset e_step draw fitf fuel cap s = XOutOfFuel
  end.
Proof.
  intros cap s0 c0 sc b. induction fuel as [|fuel IH]; intros s Hp Hc I; cbn [vloop xloop];
    destruct (CoreModel.move_required (vl (v_log (x_r s)))) as [[]|] eqn:EM; eauto;
    try (exact (move_total _ _ (c_b _ _ _ _ (h_cnt _ _ _ _ (i_head _ _ _ _ _ _ _ _ _ _ _ _ _ I))) EM)).
  destruct (xiterate_inv n hor garb e_reset e_step draw fitf Hn Hhor Hdraw cap s0 c0 sc b s I Hp Hc EM) as (s' & EX & I' & EV).
  rewrite EX, EV. apply IH; auto.
Qed.

(** C114.  VectorCore.learn never fails and returns.  Everything that happened is a history of
    the environments and the agent: each environment is reset and stepped on its own, with the
    action drawn for it; its life goes from reset to the end of an episode.  Every fit gets the
    transitions made since the fit before, environment by environment, the last one of each
    environment declared to end its episode: exactly k transitions, or exactly k whole
    episodes. *)
Theorem vec_learn_history : forall fuel l es a ns ne spf epf k, 1 <= k -> length es = n -> covered k ns ne spf epf ->
  lrn fuel l es a ns ne spf epf <> XCrash /\
  (enough fuel ns ne -> exists s, lrn fuel l es a ns ne spf epf = XDone s) /\
  forall s, lrn fuel l es a ns ne spf epf = XDone s ->
    history n e_reset e_step draw fitf (es, a) (x_ev s) (x_env s, x_ag s) /\
    (forall j, j < n -> exists q, lives hor j None (x_ev s) q) /\
    fits_by_env n (x_ev s) /\
    (spf = Some k -> Forall (fun d => length d = k) (xfits_of (x_ev s)) /\
                     Forall (fun row => length row = n /\ Forall (fun o => o <> None) row) (rows_of (x_ev s))) /\
    (epf = Some k -> Forall (fun d => count_last (@CoreModel.last X A R unit) d = k) (xfits_of (x_ev s)) /\
                     forall u d v, x_ev s = u ++ XFit d :: v -> forall j, j < n -> lives hor j None u None).
Proof.
  intros fuel l es a ns ne spf epf k Hk Hes HC.
  assert (Z : exists cap l2 sc b, lrn fuel l es a ns ne spf epf = xloop n hor garb e_reset e_step draw fitf fuel cap (mkX (vstart (W_of n hor garb []) cap l2) es a [] []) /\
     (match sc with VNever => False | _ => True end) /\ vpos sc /\
     (forall s0, clean (Wg n hor garb e_reset e_step draw fitf cap s0) sc b cap) /\ vhas l2 sc /\ vhasb l2 b /\
     CoreModel.tot_ep l2 = 0 /\ CoreModel.tot_st l2 = 0 /\ CoreModel.cur_ep l2 = 0 /\ CoreModel.cur_st l2 = 0 /\
     (spf = Some k -> sc = VSteps k) /\ (epf = Some k -> sc = VEps k) /\
     (enough fuel ns ne -> match b with VBSteps N => N <= fuel | VBEps N => exists h, hor = Some h /\ h * N <= fuel end)).
  { unfold xlearn. destruct HC as [(-> & -> & (q & Hq) & N & -> & ->)|(-> & -> & HH & N & HN)].
    - cbn [CoreModel.initialize_learn vcapacity CoreModel.initialize_run].
      exists k. eexists. exists (VSteps k), (VBSteps N). split; [reflexivity|]. simpl. repeat split; auto; try discriminate. exists q. exact Hq.
    - destruct hor as [h|] eqn:EH; [|congruence]. cbn [CoreModel.initialize_learn vcapacity W_of vhorizon].
      destruct HN as [[-> ->]|[-> ->]]; cbn [CoreModel.initialize_run].
      + exists (h * k). eexists. exists (VEps k), (VBSteps N). split; [reflexivity|]. simpl. repeat split; auto; try discriminate; intros; eauto.
      + exists (h * k). eexists. exists (VEps k), (VBEps N). split; [reflexivity|]. simpl. repeat split; auto; try discriminate; intros; eauto.
        exists h. split; [reflexivity|]. match goal with Q : match _ with Some _ => _ | None => False end |- _ => rewrite EH in Q; exact Q end. }
  destruct Z as (cap & l2 & sc & b & -> & NV & Hp & Hc & Hs & Hb & T1 & T2 & C1 & C2 & S1 & S2 & EN).
  set (s0 := mkX (vstart (W_of n hor garb []) cap l2) es a [] []).
  set (W := Wg n hor garb e_reset e_step draw fitf cap s0).
  assert (HD : Head W sc b (vstart W cap l2)) by (apply (vstart_head W ltac:(cbn; lia) Hhor); auto).
  assert (DD : Data W cap sc b (vstart W cap l2)) by apply vstart_data.
  assert (I0 : Inv n hor garb e_reset e_step draw fitf cap s0 (es, a) sc b s0).
  { constructor; cbn [x_r x_env x_ag x_tab x_ev s0]; try assumption; try reflexivity.
    - constructor.
    - constructor.
    - exists [], []. repeat split; auto. left. reflexivity. destruct sc; auto. intros j J. reflexivity.
    - intros u d v EQ. destruct u; discriminate.
    - destruct sc; constructor.
    - destruct sc; auto. intros u d v EQ. destruct u; discriminate.
    - destruct sc; constructor. }
  pose proof (loop_inv cap s0 (es, a) sc b fuel s0 Hp (Hc s0) I0) as LI.
  destruct (vloop_clean W ltac:(cbn; lia) Hhor ltac:(cbn; lia) fuel cap sc b _ HD DD Hp (Hc s0)) as (_ & _ & TT).
  change (x_r s0) with (vstart W cap l2) in LI. fold W in LI.
  destruct (vloop W fuel cap (vstart W cap l2)) as [r out| |] eqn:EL.
  - destruct LI as (s' & EX & I'). rewrite EX. split; [discriminate|]. split; [intros _; eauto|]. intros s EQ. injection EQ as <-.
    split; [apply (i_hist _ _ _ _ _ _ _ _ _ _ _ _ _ I')|]. split; [intros j J; eexists; apply (i_life _ _ _ _ _ _ _ _ _ _ _ _ _ I' j J)|].
    split; [apply (i_fits _ _ _ _ _ _ _ _ _ _ _ _ _ I')|]. pose proof (i_sizes _ _ _ _ _ _ _ _ _ _ _ _ _ I') as Z1. pose proof (i_whole _ _ _ _ _ _ _ _ _ _ _ _ _ I') as Z2.
    pose proof (i_all _ _ _ _ _ _ _ _ _ _ _ _ _ I') as Z3. pose proof (i_len _ _ _ _ _ _ _ _ _ _ _ _ _ I') as Z4.
    split. { intros Q. rewrite (S1 Q) in Z1, Z3. split; [exact Z1|]. rewrite (i_rows _ _ _ _ _ _ _ _ _ _ _ _ _ I').
      clear - Z3 Z4. induction Z3; inversion Z4; subst; constructor; auto. }
    intros Q. rewrite (S2 Q) in Z1, Z2. split; [exact Z1|exact Z2].
  - destruct LI.
  - rewrite LI. split; [discriminate|]. split; [|discriminate]. intros HE. specialize (EN HE). exfalso.
    destruct TT as (r' & out & Q); [|discriminate]. cbn [vstart v_log vl]. rewrite T2. destruct b; [lia|]. destruct EN as (h & EH & EQ). exists h. split; [exact EH|lia].
Qed.
End Run.

(** ** PPO and A2C *)
Section Agents.
Context {E X Ac W Pp Cr : Type}.
Notation cag := (@cagent W Pp Cr).
Notation vsample := (CoreModel.sample X Ac R unit).
Variable n : nat.
Variable hor : option nat.
Variable garb : nat -> nat -> nat -> bool.
Variable e_reset : E -> E * X.
Variable e_step : E -> Ac -> E * X * R * bool.
Variable call : Pp -> X -> X.
Variable pol : W -> nat -> X -> Ac.
Variable upd : nat -> @agent W Pp Cr -> list (@trans X Ac) -> option (@agent W Pp Cr).
Hypothesis Hn : 2 <= n.
Hypothesis Hhor : hor <> Some 0.
Hypothesis DEF : forall f ag ds, 2 <= length ds -> upd f ag ds <> None.
Notation hist := (history n e_reset e_step (v_draw call pol) (v_fit upd)).

Lemma v_draw_len : forall (a : cag) xs, length (snd (v_draw call pol a xs)) = length xs.
Proof. intros a xs. cbn. rewrite map_length, combine_length, seq_length. lia. Qed.

Lemma history_app : forall c a b c2, hist c (a ++ b) c2 -> exists c1, hist c a c1 /\ hist c1 b c2.
Proof.
  intros c a b. induction b as [|y b IH] using rev_ind; intros c2 H.
  - rewrite app_nil_r in H. exists c2. split; [exact H|constructor].
  - rewrite app_assoc in H. inversion H as [c' E1 E2 E3|c' l c1 ev c2' H1 H2 E1 E2 E3].
    + destruct (a ++ b); discriminate.
    + apply app_inj_tail in E2 as [-> ->]. subst. destruct (IH c1 H1) as (c3 & Ha & Hb). exists c3. split; [exact Ha|]. eapply hi_snoc; eauto.
Qed.

Lemma history_fit : forall c u d c2, hist c (u ++ [XFit d]) c2 -> exists es1 a1, hist c u (es1, a1) /\ c2 = (es1, v_fit upd a1 d).
Proof.
  intros c u d c2 H. inversion H as [c' E1 E2 E3|c' l c1 ev c2' H1 H2 E1 E2 E3]; [destruct u; discriminate|].
  apply app_inj_tail in E2 as [-> ->]. inversion H2; subst. eauto.
Qed.

Lemma hist_on_policy : forall c w c1, hist c w c1 -> xfits_of w = [] ->
  c_ag (snd c1) = c_ag (snd c) /\
  forall row x, In row (rows_of w) -> In (Some x) row ->
    exists m, CoreModel.action x = pol (a_w (c_ag (snd c))) m (prep_all call (a_ps (c_ag (snd c))) (CoreModel.state x)).
Proof.
  intros c w c1 H. induction H as [c|c l c1 ev c2 H IH HS]; intros NF.
  - split; [reflexivity|]. intros row x [].
  - rewrite xfits_app in NF. apply app_eq_nil in NF as [NF NE]. destruct (IH NF) as [IA IR]. rewrite rows_of_app.
    inversion HS as [m es es' a L1 L2 HQ E1 E2 E3|row es es' a a' acts L1 L2 L3 HD HQ E1 E2 E3|d es a E1 E2 E3]; subst; cbn [snd] in *.
    + split; [exact IA|]. intros row x HI. cbn [rows_of flat_map] in HI. rewrite app_nil_r in HI. apply IR. exact HI.
    + unfold v_draw in HD. injection HD as <- <-. split; [exact IA|]. intros row' x HI HX. apply in_app_iff in HI as [HI|HI]; [apply (IR row' x HI HX)|].
      cbn in HI. destruct HI as [<-|[]]. apply In_nth_error in HX as (j & HX).
      assert (J : j < length es) by (rewrite <- L3; apply nth_error_Some; congruence).
      destruct (nth_error es j) as [[e o]|] eqn:EE; [|apply nth_error_None in EE; lia].
      specialize (HQ j e o EE). rewrite (nth_error_nth _ _ None HX) in HQ. destruct HQ as (HS1 & HA & _).
      exists (c_draws a + j). rewrite nth_error_map in HA. destruct (nth_error (combine _ _) j) as [[i o']|] eqn:EC; [|discriminate]. cbn in HA. injection HA as <-.
      assert (EO : nth_error (map snd es) j = Some o) by (rewrite nth_error_map, EE; reflexivity).
      assert (ES : nth_error (seq 0 (length (map snd es))) j = Some j).
      { rewrite (List.nth_error_nth' _ 0) by (rewrite seq_length, map_length; lia). rewrite seq_nth by (rewrite map_length; lia). reflexivity. }
      rewrite (nth_error_combine _ _ _ _ _ _ _ ES EO) in EC. injection EC as <- <-. unfold acting_state. rewrite HS1, IA. reflexivity.
    + discriminate NE.
Qed.

Lemma lives_flags : forall j l p q, lives hor j p l q -> forall x : vsample, In x (of_env j l) -> CoreModel.absorbing x = true -> CoreModel.last x = true.
Proof.
  intros j l. unfold of_env. induction l as [|e l IH]; intros p q H x HX; [destruct HX|]. cbn [lives] in H.
  destruct e as [m|row|d]; cbn [rows_of flat_map app] in HX; fold (rows_of l) in HX.
  - destruct (nth j m false); [destruct H as [_ H]|]; eapply IH; eauto.
  - destruct (nth j row None) as [y|].
    + destruct H as (a & _ & HL & H). cbn [app] in HX. destruct HX as [<-|HX]; [|eapply IH; eauto]. intros HA. apply HL. auto.
    + destruct H as [_ H]. eapply IH; eauto.
  - eapply IH; eauto.
Qed.

Lemma closed_in : forall (xs : list vsample) y, In y (closed xs) -> exists x, In x xs /\ (y = x \/ y = with_last x true).
Proof.
  induction xs as [|x xs IH]; intros y H; [destruct H|]. destruct xs as [|x' xs].
  - cbn in H. destruct H as [<-|[]]. exists x. split; [left; reflexivity|auto].
  - cbn [closed] in H. destruct H as [<-|H]; [exists x; split; [left; reflexivity|auto]|]. destruct (IH y H) as (z & Hz & Q). exists z. split; [right; exact Hz|exact Q].
Qed.
Lemma closed_len : forall xs : list vsample, length (closed xs) = length xs.
Proof. induction xs as [|x [|y xs] IH]; auto. cbn [closed length] in *. rewrite IH. reflexivity. Qed.
Lemma of_env_rows : forall j (w : list (xevent X Ac)) x, In x (of_env j w) -> exists row, In row (rows_of w) /\ nth j row None = Some x.
Proof.
  intros j w x H. unfold of_env in H. apply in_flat_map in H as (row & HR & HX). exists row. split; [exact HR|]. destruct (nth j row None); [|destruct HX]. destruct HX as [->|[]]. reflexivity.
Qed.

Lemma hist_ok : forall c l c', hist c l c' -> Forall (fun d => 2 <= length d) (xfits_of l) -> c_ok (snd c') = c_ok (snd c).
Proof.
  intros c l c' H. induction H as [c|c l c1 ev c2 H IH HS]; intros F; [reflexivity|].
  rewrite xfits_app in F. apply Forall_app in F as [F1 F2]. rewrite <- (IH F1).
  inversion HS as [m es es' a L1 L2 HQ E1 E2 E3|row es es' a a' acts L1 L2 L3 HD HQ E1 E2 E3|d es a E1 E2 E3]; subst; cbn [snd].
  - reflexivity.
  - unfold v_draw in HD. injection HD as <- _. reflexivity.
  - cbn [xfits_of flat_map app] in F2. inversion F2 as [|? ? L _]; subst. unfold v_fit, c_fit. cbn [CoreModel.rows].
    destruct (upd (c_fits a) (c_ag a) (map c_read d)) eqn:EU; [reflexivity|]. exfalso. revert EU. apply DEF. rewrite map_length. exact L.
Qed.

(** What every fit must have worked with: the transitions since the fit before, environment by
    environment; their actions were drawn by the policy with the weights and through the
    preprocessors the agent still has; the agent that goes on is the result of the update [step]
    on these rows. *)
Definition vec_fits (es : list (E * X)) (a : cag) (k : nat) (l : list (xevent X Ac))
    (step : nat -> @agent W Pp Cr -> list (xevent X Ac) -> list vsample -> @agent W Pp Cr -> Prop) : Prop :=
  forall u d v, l = u ++ XFit d :: v ->
  exists u0 w es1 a1 a2,
    u = u0 ++ w /\ (u0 = [] \/ exists u1 d1, u0 = u1 ++ [XFit d1]) /\ xfits_of w = [] /\ d = by_env n w /\ k <= length d /\
    hist (es, a) u (es1, a1) /\ hist (es, a) (u ++ [XFit d]) (es1, a2) /\
    Forall (fun x => exists m, CoreModel.action x = pol (a_w (c_ag a1)) m (prep_all call (a_ps (c_ag a1)) (CoreModel.state x))) d /\
    Forall (fun x => CoreModel.absorbing x = true -> CoreModel.last x = true) d /\
    step (c_fits a1) (c_ag a1) w d (c_ag a2).

Lemma vec_fresh : forall fuel l es a ns ne spf epf k s, 2 <= k -> length es = n -> covered n hor k ns ne spf epf ->
  vec_learn n hor garb e_reset e_step call pol upd fuel l es a ns ne spf epf = XDone s ->
  c_ok (x_ag s) = c_ok a /\ vec_fits es a k (x_ev s) (fun f g w xs g' => upd f g (map c_read xs) = Some g').
Proof.
  intros fuel l es a ns ne spf epf k s K Hes HC HD. unfold vec_learn in HD.
  destruct (vec_learn_history n hor garb e_reset e_step (v_draw call pol) (v_fit upd) Hn Hhor v_draw_len fuel l es a ns ne spf epf k ltac:(lia) Hes HC) as (_ & _ & HS).
  destruct (HS s HD) as (HH & HL & HF & S1 & S2). clear HS.
  assert (SZ : Forall (fun d => k <= length d) (xfits_of (x_ev s))).
  { destruct HC as [(-> & _)|(_ & -> & _)].
    - eapply Forall_impl; [|apply (proj1 (S1 eq_refl))]. cbn. intros d ->. lia.
    - eapply Forall_impl; [|apply (proj1 (S2 eq_refl))]. cbn beta. intros d ED. pose proof (CorePpoProps.count_last_le (@CoreModel.last X Ac R unit) d). lia. }
  split.
  - apply (hist_ok (es, a) (x_ev s) (x_env s, x_ag s) HH). eapply Forall_impl; [|exact SZ]. cbn. intros. lia.
  - intros u d v EQ. destruct (HF u d v EQ) as (u0 & w & EU & AP & NF & ED).
    rewrite EQ in HH. replace (u ++ XFit d :: v) with ((u ++ [XFit d]) ++ v) in HH by (rewrite <- app_assoc; reflexivity).
    apply history_app in HH as (c2 & HU & _). pose proof HU as HU2.
    apply history_fit in HU as (es1 & a1 & HU & EC2). rewrite EC2 in HU2. clear EC2 c2. subst u d.
    exists u0, w, es1, a1, (v_fit upd a1 (by_env n w)). split; [reflexivity|]. split; [exact AP|]. split; [exact NF|]. split; [reflexivity|].
    assert (FK : k <= length (by_env n w)).
    { rewrite Forall_forall in SZ. apply SZ. rewrite EQ. unfold xfits_of. apply in_flat_map. exists (XFit (by_env n w)). split; [apply in_or_app; right; left; reflexivity|left; reflexivity]. }
    split; [exact FK|]. split; [exact HU|]. split; [exact HU2|].
    apply history_app in HU as (cm & _ & HW). destruct (hist_on_policy _ _ _ HW NF) as [EA OP]. cbn [snd] in EA.
    split; [|split].
    + rewrite Forall_forall. intros y HY. unfold by_env in HY. apply in_flat_map in HY as (j & _ & HY). apply closed_in in HY as (x & HX & QY).
      apply of_env_rows in HX as (row & HR & HX). rewrite EA.
      assert (HI : In (Some x) row).
      { destruct (lt_dec j (length row)); [rewrite <- HX; apply nth_In; assumption|rewrite nth_overflow in HX by lia; discriminate]. }
      destruct (OP row x HR HI) as (m & EM). exists m. destruct QY as [-> | ->]; exact EM.
    + rewrite Forall_forall. intros y HY. unfold by_env in HY. apply in_flat_map in HY as (j & HJ & HY). apply in_seq in HJ. apply closed_in in HY as (x & HX & QY).
      destruct QY as [-> | ->]; [|reflexivity]. destruct (HL j ltac:(lia)) as (q & LV). rewrite EQ, <- app_assoc in LV. apply lives_app in LV as (m & _ & LV). apply lives_app in LV as (m' & LV & _).
      apply (lives_flags j w m m' LV x HX).
    + unfold v_fit, c_fit. cbn [CoreModel.rows]. destruct (upd (c_fits a1) (c_ag a1) (map c_read (by_env n w))) eqn:EU; [reflexivity|]. exfalso. revert EU. apply DEF. rewrite map_length. lia.
Qed.
End Agents.

Section Algorithms.
Context {E X Ac W Pp Cr : Type}.
Variables (logp : W -> X -> Ac -> R) (ent : W -> list X -> R) (opt : W -> (W -> R) -> W).
Variables (call : Pp -> X -> X) (pupd : Pp -> list X -> Pp) (val : Cr -> X -> R) (cfit : Cr -> list X -> list R -> Cr).
Variables (gamma lam : R).
Variable pol : W -> nat -> X -> Ac.
Variable n : nat.
Variable hor : option nat.
Variable garb : nat -> nat -> nat -> bool.
Variable e_reset : E -> E * X.
Variable e_step : E -> Ac -> E * X * R * bool.
Hypothesis Hn : 2 <= n.
Hypothesis Hhor : hor <> Some 0.
Notation vsample := (CoreModel.sample X Ac R unit).

Lemma to_end_app : forall a b z i, AdvModel.g_last z = true -> i < length (a ++ [z]) ->
  AdvSpec.to_end (skipn i ((a ++ [z]) ++ b)) = AdvSpec.to_end (skipn i (a ++ [z])).
Proof.
  induction a as [|y a IH]; intros b z i HZ Hi.
  - cbn in Hi. assert (i = 0) by lia. subst. cbn. rewrite HZ. reflexivity.
  - destruct i as [|i].
    + cbn [app skipn]. cbn [AdvSpec.to_end]. destruct (AdvModel.g_last y); [reflexivity|]. f_equal. apply (IH b z 0 HZ). rewrite app_length. simpl. lia.
    + cbn [app skipn]. apply IH; [exact HZ|]. simpl in Hi. lia.
Qed.

Lemma closed_form : forall xs : list vsample, xs <> [] -> exists a x, closed xs = a ++ [with_last x true] /\ xs = a ++ [x].
Proof.
  intros xs H. destruct xs as [|x xs] using rev_ind; [congruence|]. exists xs, x. split; [apply closed_snoc|reflexivity].
Qed.

Lemma by_env_split : forall (w : list (xevent X Ac)) m j, j < m -> exists b, by_env m w = by_env j w ++ closed (of_env j w) ++ b.
Proof.
  intros w m j J. unfold by_env. assert (EM : seq 0 m = seq 0 j ++ j :: seq (S j) (m - S j)) by (replace m with (j + S (m - S j)) at 1 by lia; apply seq_app).
  rewrite EM, flat_map_app. cbn [flat_map]. eauto.
Qed.

(** The rest of the episode of a row never leaves the rows of its environment. *)
Lemma stays_in_env : forall (V : vsample -> AdvModel.step) (w : list (xevent X Ac)) m j i, (forall x, AdvModel.g_last (V x) = CoreModel.last x) -> j < m -> i < length (of_env j w) ->
  AdvSpec.to_end (skipn (length (by_env j w) + i) (map V (by_env m w))) = AdvSpec.to_end (skipn i (map V (closed (of_env j w)))).
Proof.
  intros V w m j i HV J HI. destruct (by_env_split w m j J) as (b & EB). rewrite EB, !map_app.
  rewrite skipn_app, map_length. replace (length (by_env j w) + i - length (by_env j w)) with i by lia.
  rewrite skipn_all2 by (rewrite map_length; lia). cbn [app].
  destruct (closed_form (of_env j w)) as (a & x & EC & EO). { intros Z. rewrite Z in HI. simpl in HI. lia. }
  rewrite EC, map_app. cbn [map]. apply to_end_app; [rewrite HV; reflexivity|]. rewrite EO in HI. rewrite app_length, map_length in *. exact HI.
Qed.

(** C114.  PPO under VectorCore: no fit fails, and every fit makes exactly the PPO update of C110 on
    the transitions made since the fit before, drawn from the policy being updated, environment by
    environment; the advantage of a row only uses rows of its own environment. *)
Theorem vec_ppo_updates : forall eps cs bs d0 perms epochs fuel l es a ns ne spf epf k s,
  let U := ppo_upd logp ent opt call pupd val cfit gamma lam eps cs bs d0 perms in
  1 <= bs -> (forall f m, length (perms f m) = epochs /\ forall perm, In perm (perms f m) -> Permutation perm (seq 0 m)) ->
  2 <= k -> length es = n -> covered n hor k ns ne spf epf ->
  vec_learn n hor garb e_reset e_step call pol U fuel l es a ns ne spf epf = XDone s ->
  c_ok (x_ag s) = c_ok a /\
  vec_fits n e_reset e_step call pol U es a k (x_ev s)
    (fun f g w xs g' =>
       CorePpoProps.ppo_step logp ent opt call pupd val cfit gamma lam eps cs bs epochs f g xs g' /\
       forall j i, j < n -> i < length (of_env j w) ->
         let V := map (CorePpoProps.valued call val (a_cr g) (a_ps g')) in
         AdvSpec.to_end (skipn (length (by_env j w) + i) (V xs)) = AdvSpec.to_end (skipn i (V (closed (of_env j w))))).
Proof.
  intros eps cs bs d0 perms epochs fuel l es a ns ne spf epf k s U HB HP K Hes HC HD.
  assert (DEF : forall f ag ds, 2 <= length ds -> U f ag ds <> None) by (intros f ag ds L; unfold U, ppo_upd; apply PpoProps.ppo_fit_defined; exact L).
  destruct (vec_fresh n hor garb e_reset e_step call pol U Hn Hhor DEF fuel l es a ns ne spf epf k s K Hes HC HD) as [OK VF].
  split; [exact OK|]. intros u d v EQ. destruct (VF u d v EQ) as (u0 & w & es1 & a1 & a2 & EU & AP & NF & ED & LK & H1 & H2 & OP & FL & UP).
  exists u0, w, es1, a1, a2. do 9 (split; [assumption|]). split.
  - apply (CorePpoProps.ppo_step_correct logp ent opt call pupd val cfit gamma lam eps cs bs d0 perms (c_fits a1) (c_ag a1) (c_ag a2) d epochs HB HP FL UP).
  - intros j i J HI V. subst d. apply stays_in_env; auto.
Qed.

(** ** A2C *)
Lemma mc_q_len : forall q0 l, length (AdvModel.mc_q gamma q0 l) = length l.
Proof. induction l; simpl; auto. Qed.
Lemma mc_q_at : forall q0 a x y b, nth (length a) (AdvModel.mc_q gamma q0 (a ++ x :: y :: b)) 0%R =
  (AdvModel.g_r x + gamma * nth (S (length a)) (AdvModel.mc_q gamma q0 (a ++ x :: y :: b)) 0 * (1 - if AdvModel.g_abs x then 1 else 0))%R.
Proof.
  induction a as [|z a IH]; intros x y b; [reflexivity|]. cbn [app length AdvModel.mc_q nth]. rewrite IH. reflexivity.
Qed.

(** C114.  A2C under VectorCore: in every fit, the target of the last transition of an environment,
    unless it reached an absorbing state, is the reward followed by the target of the first
    transition of the next environment. *)
Theorem vec_a2c_targets_cross : forall cs fuel l es a ns ne spf epf k s,
  let U := a2c_upd logp ent opt val cfit gamma cs in
  2 <= k -> length es = n -> covered n hor k ns ne spf epf ->
  vec_learn n hor garb e_reset e_step call pol U fuel l es a ns ne spf epf = XDone s ->
  vec_fits n e_reset e_step call pol U es a k (x_ev s)
    (fun f g w xs g' => exists q, length q = length xs /\ a_cr g' = cfit (a_cr g) (map CoreModel.state xs) q /\
       forall j pre x, S j < n -> of_env j w = pre ++ [x] -> of_env (S j) w <> [] -> CoreModel.absorbing x = false ->
         nth (length (by_env j w) + length pre) q 0%R = (CoreModel.reward x + gamma * nth (length (by_env (S j) w)) q 0)%R).
Proof.
  intros cs fuel l es a ns ne spf epf k s U K Hes HC HD.
  assert (DEF : forall f ag ds, 2 <= length ds -> U f ag ds <> None) by (intros f ag ds L; apply CorePpoProps.a2c_defined; exact L).
  destruct (vec_fresh n hor garb e_reset e_step call pol U Hn Hhor DEF fuel l es a ns ne spf epf k s K Hes HC HD) as [OK VF].
  intros u d v EQ. destruct (VF u d v EQ) as (u0 & w & es1 & a1 & a2 & EU & AP & NF & ED & LK & H1 & H2 & OP & FL & UP).
  exists u0, w, es1, a1, a2. do 9 (split; [assumption|]). subst d.
  unfold U, a2c_upd, a2c_fit, a2c_batch in UP. rewrite map_map in UP.
  match type of UP with context[AdvModel.compute_advantage_mc gamma (map ?F _)] => set (V := F) in UP end.
  assert (MC : exists q0 adv, AdvModel.compute_advantage_mc gamma (map V (by_env n w)) = Some (AdvModel.mc_q gamma q0 (map V (by_env n w)), adv)).
  { unfold AdvModel.compute_advantage_mc. destruct (by_env n w) as [|y [|y' ys]]; simpl in LK; [lia|lia|]. cbn [map]. eauto. }
  destruct MC as (q0 & adv & MC). rewrite MC in UP. cbn [obind fst snd] in UP. injection UP as UP.
  exists (AdvModel.mc_q gamma q0 (map V (by_env n w))). split; [rewrite mc_q_len; apply map_length|]. split.
  { rewrite <- UP. cbn [a_cr]. f_equal. rewrite map_map. reflexivity. }
  intros j pre x J EO NE HA.
  destruct (by_env_split w n (S j) J) as (b & EB). destruct (closed_form _ NE) as (c & z & EC & _).
  assert (EJ : by_env (S j) w = by_env j w ++ pre ++ [with_last x true]).
  { unfold by_env at 1. rewrite seq_S, flat_map_app. cbn [flat_map plus]. rewrite app_nil_r, EO, closed_snoc. reflexivity. }
  assert (exists y b', closed (of_env (S j) w) ++ b = y :: b') as (y & b' & EY) by (rewrite EC; destruct c; cbn; eauto).
  rewrite EY in EB. rewrite EJ in EB. rewrite EJ, !app_length. cbn [length].
  assert (EM : map V (by_env n w) = map V (by_env j w ++ pre) ++ V (with_last x true) :: V y :: map V b').
  { rewrite EB, !map_app. cbn [map]. rewrite <- !app_assoc. reflexivity. }
  rewrite EM. pose proof (mc_q_at q0 (map V (by_env j w ++ pre)) (V (with_last x true)) (V y) (map V b')) as Q.
  rewrite map_length, app_length in Q. replace (length (by_env j w) + (length pre + 1)) with (S (length (by_env j w) + length pre)) by lia.
  rewrite Q. change (AdvModel.g_r (V (with_last x true))) with (CoreModel.reward x). change (AdvModel.g_abs (V (with_last x true))) with (CoreModel.absorbing x). rewrite HA. ring.
Qed.
End Algorithms.

(** Two environments that never end, the first paying 1 and the second 100, value 0 everywhere, no
    discount, a fit every two steps.  The critic, which keeps its targets, is given 101 for the
    state of the first environment, although nothing but 1 was ever paid there. *)
Definition mx_reset (e : nat) : nat * nat := (e, 0).
Definition mx_step (e : nat) (a : unit) : nat * nat * R * bool := (e, 0, if (e =? 0)%nat then 1%R else 100%R, false).
Definition mx_run (ns : nat) := vec_learn 2 None (fun _ _ _ => true) mx_reset mx_step (fun (p : unit) x => x) (fun (w : unit) _ (x : nat) => tt) CorePpoProps.tr_upd 5
  VecCoreModel.fresh_logic [(0, 0); (1, 0)] (mkCA {| a_w := tt; a_ps := []; a_cr := [] |} 0 0 true) (Some ns) None (Some 2) None.
Theorem vec_a2c_mixes_refuted : exists s d,
  mx_run 2 = XDone s /\ xfits_of (x_ev s) = [d] /\ d = by_env 2 (x_ev s) /\
  map CoreModel.reward d = [1; 100]%R /\ map CoreModel.last d = [true; true] /\ map CoreModel.absorbing d = [false; false] /\
  a_cr (c_ag (x_ag s)) = [101; 100]%R /\
  map (fun i => AdvSpec.boot_return 1 (AdvSpec.to_end (skipn i (map (CorePpoProps.valued (fun (p : unit) x => x) (fun (c : list R) x => 0%R) [] []) d)))) [0; 1] = [1; 100]%R.
Proof.
  unfold mx_run, vec_learn. set (V := v_fit CorePpoProps.tr_upd).
  eexists. eexists. split; [lazy -[V IZR]; reflexivity|]. unfold V. cbn [x_ev x_ag xfits_of flat_map app].
  split; [reflexivity|]. split; [reflexivity|]. split; [reflexivity|]. split; [reflexivity|]. split; [reflexivity|]. split.
  - unfold v_fit, c_fit. cbn -[IZR]. f_equal; [ring|]. f_equal. ring.
  - unfold AdvSpec.boot_return, AdvSpec.dsum, CorePpoProps.valued. cbn -[IZR]. f_equal; [ring|]. f_equal. ring.
Qed.

(** PPO with two environments, a fit every four steps: the weights count the optimizer steps and the
    policy plays its weights; three fits of four rows, each in minibatches of one row. *)
Example vec_ppo_ex : exists s,
  vec_learn 2 (Some 3) (fun _ _ _ => true) (fun e : nat => (0, 0)) (fun e (a : nat) => (S e, S e, 1%R, false)) (fun (p : unit) x => x) (fun w _ x => w) CorePpoProps.ex_upd 20
    VecCoreModel.fresh_logic [(7, 7); (9, 9)] (mkCA {| a_w := 0; a_ps := []; a_cr := tt |} 0 0 true) (Some 12) None (Some 4) None = XDone s /\
  map (map CoreModel.action) (xfits_of (x_ev s)) = [[0; 0; 0; 0]; [4; 4; 4; 4]; [8; 8; 8; 8]] /\
  map (map CoreModel.state) (xfits_of (x_ev s)) = [[0; 1; 0; 1]; [2; 0; 2; 0]; [1; 2; 1; 2]] /\
  map (map CoreModel.last) (xfits_of (x_ev s)) = [[false; true; false; true]; [true; true; true; true]; [false; true; false; true]] /\
  a_w (c_ag (x_ag s)) = 12 /\ c_ok (x_ag s) = true.
Proof.
  eexists. split; [lazy -[Rplus Rmult Ropp Rinv Rminus Rdiv IZR INR sqrt exp pow Rmin Rmax]; reflexivity|]. auto 10.
Qed.
(** Episodes of three steps, a fit every two episodes. *)
Example vec_episodes_ex : exists s,
  vec_learn 2 (Some 3) (fun _ _ _ => true) (fun e : nat => (0, 0)) (fun e (a : nat) => (S e, S e, 1%R, Nat.eqb a 12)) (fun (p : unit) x => x) (fun w _ x => w) CorePpoProps.ex_upd 20
    VecCoreModel.fresh_logic [(7, 7); (9, 9)] (mkCA {| a_w := 0; a_ps := []; a_cr := tt |} 0 0 true) None (Some 6) None (Some 2) = XDone s /\
  map (map CoreModel.action) (xfits_of (x_ev s)) = [[0; 0; 0; 0; 0; 0]; [6; 6; 6; 6; 6; 6]; [12; 12]] /\
  map (map CoreModel.last) (xfits_of (x_ev s)) = [[false; false; true; false; false; true]; [false; false; true; false; false; true]; [true; true]].
Proof.
  eexists. split; [lazy -[Rplus Rmult Ropp Rinv Rminus Rdiv IZR INR sqrt exp pow Rmin Rmax]; reflexivity|]. auto 10.
Qed.

Print Assumptions vec_learn_history.
Print Assumptions vec_ppo_updates.
Print Assumptions vec_a2c_targets_cross.
Print Assumptions vec_a2c_mixes_refuted.

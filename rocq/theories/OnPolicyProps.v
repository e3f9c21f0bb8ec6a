(** C105: the data of a fit was collected with the policy that the fit updates. *)
From Coq Require Import List Arith Lia Bool.
From Verif Require Import Common CoreModel CoreSpec CoreProofs CoreDqnProps.
From Verif Require CoreProps VecCoreModel.
Import ListNotations.

Section OnPolicy.
Context {En Ag Ob Ac Rw Ps Th Wt : Type}.
Variable W : world En Ag Ob Ac Rw Ps Th.
Hypothesis Hhor : horizon W <> Some 0.
Notation log := (list (event Ob Ac Rw Ps Th)).

(** At every fit the dataset holds all that was collected since the fit before. *)
Definition timely (l : log) : Prop := forall u d v, l = u ++ EvFit d :: v -> samples_of u = concat (map rows (fits_of u)) ++ rows d.

Lemma snoc_split : forall (l u v : log) e e', l ++ [e] = u ++ e' :: v -> (u = l /\ e' = e /\ v = []) \/ exists v', l = u ++ e' :: v' /\ v = v' ++ [e].
Proof.
  intros l u v e e' H. destruct (@exists_last _ (e' :: v)) as (v' & z & E); [discriminate|]. rewrite E, app_assoc in H.
  apply app_inj_tail in H as [H1 <-]. destruct v' as [|y v'].
  - left. cbn in E. injection E as -> ->. rewrite app_nil_r in H1. auto.
  - right. cbn in E. injection E as -> ->. exists v'. auto.
Qed.

Lemma timely_other : forall l e, timely l -> (forall d, e <> EvFit d) -> timely (l ++ [e]).
Proof.
  intros l e T N u d v H. destruct (snoc_split _ _ _ _ _ H) as [(-> & E & _)|(v' & -> & _)]; [destruct (N d); auto|]. eapply T. reflexivity.
Qed.

Lemma samples_app : forall (a b : log), samples_of (a ++ b) = samples_of a ++ samples_of b.
Proof. intros. unfold samples_of. apply flat_map_app. Qed.
Lemma fits_app : forall (a b : log), fits_of (a ++ b) = fits_of a ++ fits_of b.
Proof. intros. unfold fits_of. apply flat_map_app. Qed.

Definition Timed (r : @run En Ag Ob Ac Rw Ps Th) : Prop := timely (r_log r) /\ samples_of (r_log r) = concat (map rows (fits_of (r_log r))) ++ rows (r_ds r).

Lemma iterate_timed : forall cap init r r', iterate W cap init r = Some r' -> Timed r -> Timed r'.
Proof.
  intros cap init r r' H [T S]. unfold iterate in H.
  assert (H1 : forall r1, (if r_last r then do_reset W init r else Some r) = Some r1 -> Timed r1).
  { intros r1 E. destruct (r_last r); [|injection E as <-; split; assumption]. unfold do_reset in E.
    destruct (get_initial_state (r_logic r) init); [|discriminate]. destruct (env_reset W (r_env r) _) as [e raw].
    destruct (ep_start W (r_ag r) raw) as [[a1 ps] th]. destruct (prep W a1 raw) as [a2 o']. injection E as <-.
    split; cbn [r_log r_ds].
    - apply timely_other; [exact T|intros; discriminate].
    - rewrite samples_app, fits_app. cbn [samples_of fits_of flat_map]. rewrite !app_nil_r. rewrite S. destruct (is_episodic W); reflexivity. }
  destruct (if r_last r then do_reset W init r else Some r) as [r1|]; [|discriminate]. specialize (H1 r1 eq_refl). destruct H1 as [T1 S1].
  unfold obind in H. cbn beta iota in H. unfold do_step in H. destruct (r_obs r1) as [o|]; [|discriminate H]. destruct (r_ps r1) as [ps|]; [|discriminate H].
  destruct (draw W (r_ag r1) o ps) as [[a1 act] pns]. destruct (env_step W (r_env r1) act) as [[[e raw] rw] ab]. destruct (prep W a1 raw) as [a2 o'].
  cbn [r_ds r_logic r_env r_ag r_obs r_ps r_steps r_log] in H.
  set (x := mkS o act rw o' ab _ ps pns) in *.
  assert (T2 : timely (r_log r1 ++ [EvSample x])) by (apply timely_other; [exact T1|intros; discriminate]).
  assert (S2 : samples_of (r_log r1 ++ [EvSample x]) = concat (map rows (fits_of (r_log r1 ++ [EvSample x]))) ++ (rows (r_ds r1) ++ [x])).
  { rewrite samples_app, fits_app. cbn [samples_of fits_of flat_map app]. rewrite app_nil_r, S1. rewrite app_assoc. reflexivity. }
  destruct (length (rows (r_ds r1)) <? cap); [|intros; discriminate].
  destruct (fit_required _) as [[|]|]; [| |discriminate]; injection H as <-; (split; cbn [r_log r_ds]).
  - intros u d v E. destruct (snoc_split _ _ _ _ _ E) as [(-> & E' & _)|(v' & E' & _)].
    + injection E' as ->. cbn [rows]. exact S2.
    + eapply T2. exact E'.
  - rewrite samples_app, fits_app. cbn [samples_of fits_of flat_map app rows]. rewrite !app_nil_r, S2, map_app, concat_app. cbn [map concat rows].
    rewrite app_nil_r. reflexivity.
  - exact T2.
  - exact S2.
Qed.

Lemma loop_timed : forall fuel cap init r r', loop W fuel cap init r = Done r' -> Timed r -> Timed r'.
Proof.
  induction fuel as [|f IH]; intros cap init r r' H T; cbn [loop] in H.
  - destruct (move_required (r_logic r)) as [[|]|]; try discriminate. injection H as <-. exact T.
  - destruct (move_required (r_logic r)) as [[|]|]; try discriminate; [|injection H as <-; exact T].
    destruct (iterate W cap init r) as [r1|] eqn:E; [|discriminate]. apply (IH _ _ _ _ H). apply (iterate_timed _ _ _ _ E T).
Qed.

(** Every learn call hands over at each fit what was collected since the fit before. *)
Lemma learn_timed : forall fuel e a l ns ne spf epf r, learn W fuel e a l ns ne spf epf = Done r -> timely (r_log r).
Proof.
  intros fuel e a l ns ne spf epf r H. unfold learn in H. destruct (initialize_learn l spf epf); [|intros; discriminate].
  destruct (capacity W spf epf); [|discriminate]. destruct (initialize_run _ _ _ _); [|intros; discriminate].
  apply (loop_timed _ _ _ _ _ H). split; [|reflexivity]. intros u d v E. cbn in E. destruct u; discriminate.
Qed.

(** Traces can be cut. *)
Lemma trace_app : forall w p u q', trace W p (u ++ w) q' -> exists q, trace W p u q /\ trace W q w q'.
Proof.
  induction w as [|ev w IH] using rev_ind; intros p u q' T.
  - rewrite app_nil_r in T. exists q'. split; [exact T|constructor].
  - rewrite app_assoc in T. inversion T as [|l q ev' q'' T' ES E1 E2]; [destruct (u ++ w); discriminate|].
    apply app_inj_tail in E1 as [-> ->]. subst. destruct (IH _ _ _ T') as (q0 & A & B). exists q0. split; [exact A|]. econstructor; eauto.
Qed.

Lemma trace_one : forall p ev q, trace W p [ev] q -> estep W p ev q.
Proof.
  assert (G : forall p l q, trace W p l q -> forall ev, l = [ev] -> estep W p ev q).
  { intros p l q T. induction T as [|l q1 ev q2 T IH ES]; intros ev' E; [discriminate|].
    apply (app_inj_tail l [] ev ev') in E as [-> ->]. inversion T as [|l' ? ? ? ? ? E]; subst; [exact ES|destruct l'; discriminate]. }
  intros p ev q T. apply (G _ _ _ T). reflexivity.
Qed.

(** The part of the agent that only fit changes (weights of the policy, for instance). *)
Variable weights : Ag -> Wt.
Hypothesis w_draw : forall a o ps, weights (fst (fst (draw W a o ps))) = weights a.
Hypothesis w_start : forall a o, weights (fst (fst (ep_start W a o))) = weights a.
Hypothesis w_prep : forall a o, weights (fst (prep W a o)) = weights a.
Hypothesis w_clear : forall a, weights (clear_next W a) = weights a.

Lemma weights_kept : forall q w q', trace W q w q' -> fits_of w = [] -> weights (agent_of q') = weights (agent_of q).
Proof.
  intros q w q' T. induction T as [|l q1 ev q2 T IH ES]; intros F; [reflexivity|].
  rewrite fits_app in F. apply app_eq_nil in F as [F1 F2]. rewrite <- (IH F1). clear IH F1.
  inversion ES; subst; cbn [agent_of] in *.
  - rewrite w_clear. match goal with HP1 : prep W ?a1 ?raw = _, HE1 : ep_start W ?a0 ?raw = _ |- _ =>
      pose proof (w_prep a1 raw) as Z; rewrite HP1 in Z; pose proof (w_start a0 raw) as Z'; rewrite HE1 in Z' end.
    cbn [fst] in *. congruence.
  - match goal with HP1 : prep W ?a1 ?raw = _, HD1 : draw W ?a0 ?o ?p = _ |- _ =>
      pose proof (w_prep a1 raw) as Z; rewrite HP1 in Z; pose proof (w_draw a0 o p) as Z'; rewrite HD1 in Z' end.
    cbn [fst] in *. destruct (last x); cbn [agent_of]; congruence.
  - discriminate.
  - discriminate.
Qed.

(** The events after the last fit. *)
Lemma last_fit : forall (u : log), exists u0 w, u = u0 ++ w /\ fits_of w = [] /\ (u0 = [] \/ exists u1 d1, u0 = u1 ++ [EvFit d1]).
Proof.
  induction u as [|ev u IH] using rev_ind; [exists [], []; auto|].
  destruct ev as [i o ps th|x|d].
  1,2: destruct IH as (u0 & w & -> & F & C); exists u0; eexists; rewrite <- app_assoc; (split; [reflexivity|]); rewrite fits_app, F; auto.
  exists (u ++ [EvFit d]), []. rewrite app_nil_r. repeat split; auto. right. eauto.
Qed.

Lemma timely_since : forall l u d v, timely l -> l = u ++ EvFit d :: v ->
  exists u0 w, u = u0 ++ w /\ fits_of w = [] /\ rows d = samples_of w /\ (u0 = [] \/ exists u1 d1, u0 = u1 ++ [EvFit d1]).
Proof.
  intros l u d v T E. destruct (last_fit u) as (u0 & w & EU & F & C). exists u0, w. repeat split; auto.
  pose proof (T _ _ _ E) as S. rewrite EU, samples_app, fits_app, F, app_nil_r in S. destruct C as [->|(u1 & d1 & ->)].
  - cbn in S. auto.
  - assert (S1 : samples_of u1 = concat (map rows (fits_of u1)) ++ rows d1).
    { apply (T u1 d1 (w ++ EvFit d :: v)). rewrite E, EU, <- !app_assoc. reflexivity. }
    rewrite samples_app, fits_app, map_app, concat_app in S. cbn [samples_of fits_of flat_map map concat app] in S.
    rewrite !app_nil_r, <- S1 in S. apply app_inv_head in S. auto.
Qed.

(** Every fit of every learn call gets exactly the transitions made since the fit before it, and
    all their actions were drawn with the weights that the fit updates. *)
Theorem core_fits_on_policy_data : forall fuel e a l ns ne spf epf r,
  (spf = None \/ exists k, spf = Some k /\ 1 <= k) -> (epf = None \/ exists k, epf = Some k /\ 1 <= k) ->
  learn W fuel e a l ns ne spf epf = Done r ->
  forall u d v, r_log r = u ++ EvFit d :: v ->
  exists u0 w p p' ag,
    u = u0 ++ w /\ (u0 = [] \/ exists u1 d1, u0 = u1 ++ [EvFit d1]) /\ fits_of w = [] /\ rows d = samples_of w /\
    trace W (Between e a) u p /\ agent_of p = ag /\ trace W (Between e a) (u ++ [EvFit d]) p' /\ agent_of p' = fit W ag d /\
    Forall (fun x => exists a1 a2, weights a1 = weights ag /\ draw W a1 (state x) (pstate x) = (a2, action x, pnext x)) (rows d).
Proof.
  intros fuel e a l ns ne spf epf r Hs He HD u d v E.
  pose proof (learn_timed _ _ _ _ _ _ _ _ _ HD) as T.
  destruct (timely_since _ _ _ _ T E) as (u0 & w & EU & F & RD & C).
  destruct (learn_agent W Hhor fuel e a l ns ne spf epf r Hs He HD) as (pe & TR & _).
  rewrite E in TR. change (EvFit d :: v) with ([EvFit d] ++ v) in TR.
  destruct (trace_app _ _ _ _ TR) as (p & TU & TV). destruct (trace_app _ _ [EvFit d] _ TV) as (p' & TF & _).
  exists u0, w, p, p', (agent_of p). split; [exact EU|]. split; [exact C|]. split; [exact F|]. split; [exact RD|]. split; [exact TU|].
  split; [reflexivity|]. split; [econstructor; [exact TU|apply trace_one; exact TF]|].
  split. { apply trace_one in TF. inversion TF; subst; reflexivity. }
  rewrite EU in TU. destruct (trace_app _ _ _ _ TU) as (q0 & _ & TW).
  apply Forall_forall. intros x Hx. rewrite RD in Hx. unfold samples_of in Hx. apply in_flat_map in Hx as (ev & Hev & Hx).
  destruct ev as [| y |]; cbn in Hx; try tauto. destruct Hx as [->|[]].
  apply in_split in Hev as (w1 & w2 & EW). rewrite EW in TW, F. rewrite fits_app in F. apply app_eq_nil in F as [F1 F2].
  change (EvSample x :: w2) with ([EvSample x] ++ w2) in TW. destruct (trace_app _ _ _ _ TW) as (q1 & T1 & T2).
  assert (W1 : weights (agent_of p) = weights (agent_of q1)) by (apply (weights_kept _ _ _ T2); exact F2).
  destruct (trace_app _ _ [EvSample x] _ T2) as (q2 & T3 & _). apply trace_one in T3. inversion T3; subst; cbn [agent_of] in *.
  eexists. eexists. split; [symmetry; exact W1|eassumption].
Qed.
End OnPolicy.

(** With VectorCore the claim fails: when n_steps_per_fit is not a multiple of the number of
    environments, a fit gets transitions stepped before the fit preceding it, so with weights
    that have been updated since. *)
Theorem vector_fits_off_policy_data_refuted : exists W r out u d1 m d2 v t mask lst j,
  VecCoreModel.n_envs W = 2 /\ VecCoreModel.vlearn W 10 VecCoreModel.fresh_logic (Some 7) None (Some 3) None = VecCoreModel.VDone r out /\
  VecCoreModel.v_events r = u ++ VecCoreModel.VFit d1 :: m ++ VecCoreModel.VFit d2 :: v /\
  In (VecCoreModel.VStep t mask lst) u /\ nth j mask false = true /\ In (t, j) (map fst d2).
Proof.
  exists (VecCoreModel.mkVW 2 (Some 9) (fun _ _ => false) (fun _ _ _ => true)).
  let x := eval vm_compute in (VecCoreModel.vlearn (VecCoreModel.mkVW 2 (Some 9) (fun _ _ => false) (fun _ _ _ => true)) 10 VecCoreModel.fresh_logic (Some 7) None (Some 3) None) in
  match x with VecCoreModel.VDone ?r ?o =>
    let f := eval vm_compute in (VecCoreModel.v_events r) in
    match f with ?a :: ?b :: VecCoreModel.VFit ?d1 :: ?c :: ?c' :: VecCoreModel.VFit ?d2 :: ?v =>
      exists r, o, [a; b], d1, [c; c'], d2, v, 1, [true; true], [false; false], 0 end end.
  split; [reflexivity|]. split; [vm_compute; reflexivity|]. split; [vm_compute; reflexivity|].
  split; [vm_compute; auto|]. split; [reflexivity|]. vm_compute. auto.
Qed.

(** A policy that draws its version number as action and becomes a new version at each fit:
    with three steps per fit and episodes of two steps, eight steps give two fits, on three
    actions of version 0 and three of version 1; the two of version 2 are dropped. *)
Example on_policy_ex :
  let W := mkW unit nat nat nat nat unit unit (fun e _ => (tt, 0)) (fun e a => (tt, S a, a, false)) (fun a _ => (a, tt, tt))
               (fun a _ _ => (a, a, tt)) (fun a o => (a, o)) (fun a => a) false (Some 2) (fun a _ => S a) in
  exists r, learn W 20 tt 0 VecCoreModel.fresh_logic (Some 8) None (Some 3) None = Done r /\
    map (fun d => map action (rows d)) (fits_of (r_log r)) = [[0; 0; 0]; [1; 1; 1]] /\
    map action (samples_of (r_log r)) = [0; 0; 0; 1; 1; 1; 2; 2].
Proof. cbv zeta. eexists. vm_compute. auto. Qed.

Print Assumptions core_fits_on_policy_data.
Print Assumptions vector_fits_off_policy_data_refuted.

(** C107: agents of the SARSA family trained by [Core] bootstrap from the action they take next. *)
From Coq Require Import List Arith Lia Bool Reals Lra.
From Verif Require Import Common TdModel TdSpec CoreSarsaModel.
From Verif Require TdProofs TdProps.
From Verif Require CoreModel.
Import ListNotations.

Section Textbook.
Context {Ob Ac L : Type}.
Notation csample := (CoreModel.sample Ob Ac R unit).
Variable pol : L -> nat -> Ob -> Ac.
Variable upd : L -> csample -> Ac -> L.
Variable begin : L -> L.

(** SARSA as in the textbooks, step by step.  [textbook xs new l t o b]: after the transitions
    [xs] the values are [l], the policy has made [t] draws, and unless a [new] episode is to
    begin, the agent is in state [o] and will take action [b].
    In the first state of an episode the action is drawn with the current values; after every
    transition the next action is drawn in the next state with the values before the update,
    the values are updated with that action, and that action is taken. *)
Inductive textbook (l0 : L) (t0 : nat) : list csample -> bool -> L -> nat -> option (Ob * Ac) -> Prop :=
| tb_nothing : textbook l0 t0 [] true l0 t0 None
| tb_first : forall xs l t p x b,
    textbook l0 t0 xs true l t p ->
    CoreModel.action x = pol (begin l) t (CoreModel.state x) ->
    b = pol (begin l) (t + 1) (CoreModel.next_state x) ->
    textbook l0 t0 (xs ++ [x]) (CoreModel.last x) (upd (begin l) x b) (t + 2) (Some (CoreModel.next_state x, b))
| tb_next : forall xs l t x b,
    textbook l0 t0 xs false l t (Some (CoreModel.state x, CoreModel.action x)) ->
    b = pol l t (CoreModel.next_state x) ->
    textbook l0 t0 (xs ++ [x]) (CoreModel.last x) (upd l x b) (t + 1) (Some (CoreModel.next_state x, b)).
End Textbook.

Section Run.
Context {En Ob Ac L : Type}.
Notation csample := (CoreModel.sample Ob Ac R unit).
Variable pol : L -> nat -> Ob -> Ac.
Variable upd : L -> csample -> Ac -> L.
Variable begin : L -> L.
Variable env_reset : En -> option Ob -> En * Ob.
Variable env_step : En -> Ac -> En * Ob * R * bool.
Variable hor : option nat.
Notation W := (s_world pol upd begin env_reset env_step hor).
Notation tbook := (textbook pol upd begin).

Lemma samples_app : forall (a b : list (CoreModel.event Ob Ac R unit unit)), CoreModel.samples_of (a ++ b) = CoreModel.samples_of a ++ CoreModel.samples_of b.
Proof. intros. unfold CoreModel.samples_of. apply flat_map_app. Qed.

(** Invariant of the loop when every step is followed by a fit. *)
Definition follows (l0 : L) (t0 : nat) (ok : bool) (r : @CoreModel.run En (@sagent Ac L) Ob Ac R unit unit) : Prop :=
  CoreModel.r_ds r = CoreModel.mkD [] [] /\
  CoreModel.fit_req (CoreModel.r_logic r) = CoreModel.FitSteps /\ CoreModel.n_steps_per_fit (CoreModel.r_logic r) = Some 1 /\
  CoreModel.cur_st (CoreModel.r_logic r) = 0 /\ s_ok (CoreModel.r_ag r) = ok /\
  exists p, tbook l0 t0 (CoreModel.samples_of (CoreModel.r_log r)) (CoreModel.r_last r) (s_l (CoreModel.r_ag r)) (s_draws (CoreModel.r_ag r)) p /\
    (CoreModel.r_last r = false -> exists o b, p = Some (o, b) /\ CoreModel.r_obs r = Some o /\ CoreModel.r_ps r = Some tt /\ s_next (CoreModel.r_ag r) = Some b).

Lemma iterate_follows : forall l0 t0 ok init r r', CoreModel.iterate W 1 init r = Some r' -> follows l0 t0 ok r -> follows l0 t0 ok r'.
Proof.
  intros l0 t0 ok init r r' H (D & F & S1 & C & OK & p & T & P).
  destruct r as [en ag lg ob ps st la ds log]. cbn -[CoreModel.samples_of] in D, F, S1, C, OK, T, P. subst ds.
  destruct lg as [fr mr ns ne spf epf te ts ce cs]. cbn in F, S1, C. subst fr spf cs.
  unfold CoreModel.iterate, obind in H. cbn [CoreModel.r_last] in H. destruct la.
  - unfold CoreModel.do_reset in H. cbn [CoreModel.r_logic CoreModel.r_env CoreModel.r_ag CoreModel.r_ds CoreModel.r_last CoreModel.r_log] in H.
    destruct (CoreModel.get_initial_state _ init) as [i0|]; [|discriminate].
    cbn -[CoreModel.samples_of Nat.add] in H. destruct (env_reset en i0) as [e1 raw].
    cbn -[CoreModel.samples_of Nat.add] in H. destruct (env_step e1 _) as [[[e2 raw2] rw] ab] eqn:ES in H.
    cbn -[CoreModel.samples_of Nat.add] in H. rewrite (Nat.add_comm 0 1) in H. cbn -[CoreModel.samples_of Nat.add] in H. injection H as <-.
    unfold follows. cbn -[CoreModel.samples_of Nat.add]. repeat (split; [auto; fail|]).
    set (x := CoreModel.mkS raw (pol (begin (s_l ag)) (s_draws ag) raw) rw raw2 ab _ tt tt).
    exists (Some (raw2, pol (begin (s_l ag)) (s_draws ag + 1) raw2)). rewrite !samples_app. cbn [CoreModel.samples_of flat_map app]. rewrite !app_nil_r.
    split; [|intros _; do 2 eexists; repeat split].
    replace (s_draws ag + 1 + 1) with (s_draws ag + 2) by lia.
    apply (tb_first pol upd begin l0 t0 (CoreModel.samples_of log) (s_l ag) (s_draws ag) p x _ T); reflexivity.
  - destruct (P eq_refl) as (o & b & -> & OB & PS & NX). cbn in OB, PS, NX. subst ob ps.
    cbn -[CoreModel.samples_of Nat.add s_draw s_fit] in H. unfold s_draw in H. rewrite NX in H.
    cbn -[CoreModel.samples_of Nat.add] in H. destruct (env_step en b) as [[[e2 raw2] rw] ab] eqn:ES in H.
    cbn -[CoreModel.samples_of Nat.add] in H. rewrite (Nat.add_comm 0 1) in H. cbn -[CoreModel.samples_of Nat.add] in H. injection H as <-.
    unfold follows. cbn -[CoreModel.samples_of Nat.add]. repeat (split; [auto; fail|]).
    set (x := CoreModel.mkS o b rw raw2 ab _ tt tt).
    exists (Some (raw2, pol (s_l ag) (s_draws ag) raw2)). rewrite !samples_app. cbn [CoreModel.samples_of flat_map app]. rewrite !app_nil_r.
    split; [|intros _; do 2 eexists; repeat split].
    apply (tb_next pol upd begin l0 t0 (CoreModel.samples_of log) (s_l ag) (s_draws ag) x); [exact T|reflexivity].
Qed.

Lemma loop_follows : forall fuel l0 t0 ok init r r', CoreModel.loop W fuel 1 init r = CoreModel.Done r' -> follows l0 t0 ok r -> follows l0 t0 ok r'.
Proof.
  induction fuel as [|f IH]; intros l0 t0 ok init r r' H T; cbn [CoreModel.loop] in H.
  - destruct (CoreModel.move_required (CoreModel.r_logic r)) as [[|]|]; try discriminate. injection H as <-. exact T.
  - destruct (CoreModel.move_required (CoreModel.r_logic r)) as [[|]|]; try discriminate; [|injection H as <-; exact T].
    destruct (CoreModel.iterate W 1 init r) as [r1|] eqn:E; [|discriminate]. apply (IH _ _ _ _ _ _ H). apply (iterate_follows _ _ _ _ _ _ E T).
Qed.

(** Every learn call with one step per fit is a run of the textbook algorithm, whatever action
    an earlier call may have left behind. *)
Theorem sarsa_family_textbook : forall fuel e a l ns ne r,
  CoreModel.learn W fuel e a l ns ne (Some 1) None = CoreModel.Done r ->
  s_ok (CoreModel.r_ag r) = s_ok a /\
  exists new p, tbook (s_l a) (s_draws a) (CoreModel.samples_of (CoreModel.r_log r)) new (s_l (CoreModel.r_ag r)) (s_draws (CoreModel.r_ag r)) p.
Proof.
  intros fuel e a l ns ne r H. unfold CoreModel.learn in H. cbn [CoreModel.initialize_learn CoreModel.capacity] in H.
  destruct (CoreModel.initialize_run _ ns ne _) as [l2|] eqn:E; [|discriminate].
  assert (F : follows (s_l a) (s_draws a) (s_ok a) (CoreModel.start e a l2)).
  { unfold CoreModel.initialize_run in E. destruct ne, ns; try discriminate; injection E as <-;
    unfold follows; cbn; repeat split; exists None; (split; [constructor|discriminate]). }
  destruct (loop_follows _ _ _ _ _ _ _ H F) as (_ & _ & _ & _ & OK & p & T & _). split; [exact OK|]. eauto.
Qed.

(** The values after the transitions [xs] when [bs] are the actions bootstrapped from. *)
Fixpoint values (l : L) (new : bool) (xs : list csample) (bs : list Ac) : L :=
  match xs, bs with
  | x :: xs', b :: bs' => values (upd (if new then begin l else l) x b) (CoreModel.last x) xs' bs'
  | _, _ => l
  end.
Definition ended (new : bool) (xs : list csample) : bool := match rev xs with [] => new | z :: _ => CoreModel.last z end.

Lemma ended_snoc : forall new xs x, ended new (xs ++ [x]) = CoreModel.last x.
Proof. intros. unfold ended. rewrite rev_app_distr. reflexivity. Qed.
Lemma ended_cons : forall new x xs, ended new (x :: xs) = ended (CoreModel.last x) xs.
Proof. intros. unfold ended. cbn [rev]. destruct (rev xs); reflexivity. Qed.

Lemma values_snoc : forall xs bs l new x b, length bs = length xs ->
  values l new (xs ++ [x]) (bs ++ [b]) = upd (if ended new xs then begin (values l new xs bs) else values l new xs bs) x b.
Proof.
  induction xs as [|z xs IH]; intros [|c bs] l new x b H; try discriminate; [reflexivity|]. injection H as H.
  cbn [app values]. rewrite IH by exact H. rewrite ended_cons. reflexivity.
Qed.

Lemma textbook_values : forall l0 t0 xs new l t p, tbook l0 t0 xs new l t p ->
  new = ended true xs /\ exists bs, length bs = length xs /\ l = values l0 true xs bs /\
    (match p with Some (o, b) => nth_error bs (length xs - 1) = Some b /\ exists z, nth_error xs (length xs - 1) = Some z /\ o = CoreModel.next_state z
     | None => xs = [] end) /\
    forall k x y, nth_error xs k = Some x -> nth_error xs (S k) = Some y -> CoreModel.last x = false ->
      nth_error bs k = Some (CoreModel.action y) /\ CoreModel.state y = CoreModel.next_state x.
Proof.
  intros l0 t0 xs new l t p T. induction T as [|xs l t p x b T IH A B|xs l t x b T IH B].
  - split; [reflexivity|]. exists []. repeat split. all: destruct k; discriminate.
  - destruct IH as (N & bs & LB & V & P & ADJ). split; [symmetry; apply ended_snoc|]. exists (bs ++ [b]).
    split; [rewrite !app_length; cbn; lia|]. split; [rewrite values_snoc by exact LB; rewrite <- N, <- V; reflexivity|].
    rewrite app_length. cbn [length]. replace (length xs + 1 - 1) with (length xs) by lia. split.
    + split; [rewrite nth_error_app2, LB, Nat.sub_diag by lia; reflexivity|]. exists x. split; [rewrite nth_error_app2, Nat.sub_diag by lia; reflexivity|reflexivity].
    + intros k z y Hz Hy Lz. assert (S k < length (xs ++ [x])) as HL by (apply nth_error_Some; congruence). rewrite app_length in HL. cbn in HL.
      rewrite nth_error_app1 in Hz by lia. destruct (Nat.eq_dec (S k) (length xs)) as [E|E].
      * exfalso. unfold ended in N. destruct xs as [|q xs'] using rev_ind; [cbn in E; lia|]. rewrite rev_app_distr in N. cbn in N.
        rewrite app_length in E. cbn in E. rewrite nth_error_app2 in Hz by lia. replace (k - length xs') with 0 in Hz by lia. cbn in Hz. congruence.
      * rewrite nth_error_app1 in Hy by lia. rewrite nth_error_app1 by lia. eauto.
  - destruct IH as (N & bs & LB & V & (P1 & z & P2 & P3) & ADJ). split; [symmetry; apply ended_snoc|]. exists (bs ++ [b]).
    assert (LX : 0 < length xs). { destruct xs; [discriminate|cbn; lia]. }
    split; [rewrite !app_length; cbn; lia|]. split; [rewrite values_snoc by exact LB; rewrite <- N, <- V; reflexivity|].
    rewrite app_length. cbn [length]. replace (length xs + 1 - 1) with (length xs) by lia. split.
    + split; [rewrite nth_error_app2, LB, Nat.sub_diag by lia; reflexivity|]. exists x. split; [rewrite nth_error_app2, Nat.sub_diag by lia; reflexivity|reflexivity].
    + intros k w y Hw Hy Lw. assert (S k < length (xs ++ [x])) as HL by (apply nth_error_Some; congruence). rewrite app_length in HL. cbn in HL.
      rewrite nth_error_app1 in Hw by lia. destruct (Nat.eq_dec (S k) (length xs)) as [E|E].
      * rewrite nth_error_app2 in Hy by lia. replace (S k - length xs) with 0 in Hy by lia. injection Hy as <-.
        rewrite nth_error_app1 by lia. replace (length xs - 1) with k in P1, P2 by lia. rewrite P2 in Hw. injection Hw as <-. auto.
      * rewrite nth_error_app1 in Hy by lia. rewrite nth_error_app1 by lia. eauto.
Qed.

(** In other words: the values after a learn call are those of its transitions, each
    bootstrapped, unless it ends its episode, from the action of the transition that follows. *)
Theorem sarsa_family_bootstrap : forall fuel e a l ns ne r,
  CoreModel.learn W fuel e a l ns ne (Some 1) None = CoreModel.Done r ->
  let xs := CoreModel.samples_of (CoreModel.r_log r) in
  exists bs, length bs = length xs /\ s_l (CoreModel.r_ag r) = values (s_l a) true xs bs /\
    forall k x y, nth_error xs k = Some x -> nth_error xs (S k) = Some y -> CoreModel.last x = false ->
      nth_error bs k = Some (CoreModel.action y) /\ CoreModel.state y = CoreModel.next_state x.
Proof.
  intros fuel e a l ns ne r H xs. destruct (sarsa_family_textbook _ _ _ _ _ _ _ H) as (_ & new & p & T).
  destruct (textbook_values _ _ _ _ _ _ _ T) as (_ & bs & LB & V & _ & ADJ). exists bs. auto.
Qed.

(** Evaluations: the values stay as they are, the traces may be reset. *)
Lemma loop_evaluates : forall (begin2 : forall l, begin (begin l) = begin l) fuel cap init r r' l0,
  CoreModel.loop W fuel cap init r = CoreModel.Done r' -> CoreModel.fit_req (CoreModel.r_logic r) = CoreModel.FitNever ->
  s_l (CoreModel.r_ag r) = l0 \/ s_l (CoreModel.r_ag r) = begin l0 -> s_l (CoreModel.r_ag r') = l0 \/ s_l (CoreModel.r_ag r') = begin l0.
Proof.
  intros begin2. induction fuel as [|f IH]; intros cap init r r' l0 H F V; cbn [CoreModel.loop] in H.
  - destruct (CoreModel.move_required (CoreModel.r_logic r)) as [[|]|]; try discriminate. injection H as <-. exact V.
  - destruct (CoreModel.move_required (CoreModel.r_logic r)) as [[|]|]; try discriminate; [|injection H as <-; exact V].
    destruct (CoreModel.iterate W cap init r) as [r1|] eqn:E; [|discriminate].
    assert (Z : CoreModel.fit_req (CoreModel.r_logic r1) = CoreModel.FitNever /\ (s_l (CoreModel.r_ag r1) = l0 \/ s_l (CoreModel.r_ag r1) = begin l0)); [|apply (IH _ _ _ _ l0 H); tauto].
    clear H IH. unfold CoreModel.iterate, obind in E.
    assert (Q : forall r2, (if CoreModel.r_last r then CoreModel.do_reset W init r else Some r) = Some r2 ->
       CoreModel.fit_req (CoreModel.r_logic r2) = CoreModel.FitNever /\ (s_l (CoreModel.r_ag r2) = l0 \/ s_l (CoreModel.r_ag r2) = begin l0)).
    { intros r2 E2. destruct (CoreModel.r_last r); [|injection E2 as <-; auto]. unfold CoreModel.do_reset in E2.
      destruct (CoreModel.get_initial_state _ init) as [i0|]; [|discriminate]. cbn in E2. destruct (env_reset _ i0) as [e1 raw]. injection E2 as <-. cbn.
      split; [exact F|]. right. destruct V as [-> | ->]; auto. }
    destruct (if CoreModel.r_last r then _ else _) as [r2|]; [|discriminate]. destruct (Q r2 eq_refl) as [F2 V2]. clear Q.
    unfold CoreModel.do_step in E. destruct (CoreModel.r_obs r2) as [o|]; [|discriminate E]. destruct (CoreModel.r_ps r2) as [ps|]; [|discriminate E].
    cbn -[s_draw Nat.ltb] in E. assert (DL : s_l (fst (s_draw pol (CoreModel.r_ag r2) o)) = s_l (CoreModel.r_ag r2)) by (unfold s_draw; destruct (s_next _); reflexivity).
    destruct (s_draw pol (CoreModel.r_ag r2) o) as [a1 b]. cbn [fst] in DL. destruct (env_step (CoreModel.r_env r2) b) as [[[e2 raw2] rw] ab].
    cbn -[Nat.ltb] in E. destruct (_ <? cap); [|discriminate E]. unfold CoreModel.fit_required in E. cbn -[Nat.ltb] in E. rewrite F2 in E. injection E as <-. cbn.
    split; [exact F2|]. rewrite DL. exact V2.
Qed.

Theorem sarsa_family_evaluate : (forall l, begin (begin l) = begin l) -> forall fuel e a l init ns ne r,
  CoreModel.evaluate W fuel e a l init ns ne = CoreModel.Done r ->
  s_l (CoreModel.r_ag r) = s_l a \/ s_l (CoreModel.r_ag r) = begin (s_l a).
Proof.
  intros B fuel e a l init ns ne r H. unfold CoreModel.evaluate in H. destruct (CoreModel.capacity _ _ _) as [cap|]; [|discriminate].
  destruct (CoreModel.initialize_run _ ns ne init) as [l2|] eqn:E; [|discriminate].
  apply (loop_evaluates B _ _ _ _ _ (s_l a) H); [|left; reflexivity].
  unfold CoreModel.initialize_run in E. destruct ne, ns, init; try discriminate; injection E as <-; reflexivity.
Qed.
End Run.

(** ** The four agents *)
(** SARSA: each transition (s, a, r, s') with bootstrap action b moves Q[s, a] by the learning
    rate times r + gamma Q[s', b] - Q[s, a], without the second term in an absorbing state. *)
Fixpoint sarsa_values {Rt} (gamma : R) (rate : Rt -> nat -> nat -> R * Rt) (Q : table) (rt : Rt)
    (xs : list (CoreModel.sample nat nat R unit)) (bs : list nat) : table :=
  match xs, bs with
  | x :: xs', b :: bs' =>
      let s := CoreModel.state x in let a := CoreModel.action x in
      let v := if CoreModel.absorbing x then 0%R else tget Q (CoreModel.next_state x) b in
      sarsa_values gamma rate (tset Q s a (tget Q s a + fst (rate rt s a) * (CoreModel.reward x + gamma * v - tget Q s a))%R) (snd (rate rt s a)) xs' bs'
  | _, _ => Q
  end.

Theorem sarsa_bootstraps_next_action : forall {En Rt} gamma (rate : Rt -> nat -> nat -> R * Rt) (pol : table -> nat -> nat -> nat)
    env_reset (env_step : En -> nat -> En * nat * R * bool) hor fuel e a l ns ne r,
  CoreModel.learn (s_world (fun q => pol (fst q)) (sarsa_of gamma rate) (fun q => q) env_reset env_step hor) fuel e a l ns ne (Some 1) None = CoreModel.Done r ->
  let xs := CoreModel.samples_of (CoreModel.r_log r) in
  exists bs, length bs = length xs /\ fst (s_l (CoreModel.r_ag r)) = sarsa_values gamma rate (fst (s_l a)) (snd (s_l a)) xs bs /\
    forall k x y, nth_error xs k = Some x -> nth_error xs (S k) = Some y -> CoreModel.last x = false ->
      nth_error bs k = Some (CoreModel.action y) /\ CoreModel.state y = CoreModel.next_state x.
Proof.
  intros En Rt gamma rate pol env_reset env_step hor fuel e a l ns ne r H xs.
  destruct (sarsa_family_bootstrap _ _ _ _ _ _ _ _ _ _ _ _ _ H) as (bs & LB & V & ADJ). exists bs. split; [exact LB|]. split; [|exact ADJ].
  rewrite V. fold xs. fold xs in LB. clear - LB. destruct a as [[Q rt] nx dr ok]. cbn [s_l fst snd]. revert bs LB Q rt. generalize true.
  induction xs as [|x xs IH]; intros new [|b bs] LB Q rt; try discriminate; [reflexivity|]. injection LB as LB. cbn [values sarsa_values].
  assert (E : (if new then (Q, rt) else (Q, rt)) = (Q, rt)) by (destruct new; reflexivity). rewrite E. unfold sarsa_of at 2. cbn [fst snd].
  destruct (rate rt (CoreModel.state x) (CoreModel.action x)) as [al rt'] eqn:ER. cbn [fst snd]. rewrite IH by exact LB. reflexivity.
Qed.

(** The same for the agents with eligibility traces, which also start each episode without any. *)
Theorem sarsa_traces_bootstrap_next_action : forall {En Ob Ac Rt} gamma lam kind (phi : Ob -> Ac -> list R)
    (rt : Rt -> nat -> nat -> R * Rt) (rc : Rt -> Ob -> Ac -> R * Rt)
    (pl : table -> nat -> nat -> nat) (pt : list R -> nat -> Ob -> Ac)
    rd (sd : En -> nat -> En * nat * R * bool) rs (ss : En -> Ac -> En * Ob * R * bool) hor,
  let follow := fun {O A L : Type} (begin : L -> L) upd (W : CoreModel.world En (@sagent A L) O A R unit unit) =>
    forall fuel e a l ns ne r, CoreModel.learn W fuel e a l ns ne (Some 1) None = CoreModel.Done r ->
      let xs := CoreModel.samples_of (CoreModel.r_log r) in
      exists bs, length bs = length xs /\ s_l (CoreModel.r_ag r) = values upd begin (s_l a) true xs bs /\
        forall k x y, nth_error xs k = Some x -> nth_error xs (S k) = Some y -> CoreModel.last x = false ->
          nth_error bs k = Some (CoreModel.action y) /\ CoreModel.state y = CoreModel.next_state x in
  follow sarsa_lambda_begin (sarsa_lambda_of gamma lam kind rt)
    (s_world (fun q => pl (fst (fst q))) (sarsa_lambda_of gamma lam kind rt) sarsa_lambda_begin rd sd hor) /\
  follow true_online_begin (true_online_of gamma lam phi rc)
    (s_world (fun q => pt (o_theta (fst q))) (true_online_of gamma lam phi rc) true_online_begin rs ss hor) /\
  follow sarsa_cont_begin (sarsa_cont_of gamma lam phi rc)
    (s_world (fun q => pt (fst (fst q))) (sarsa_cont_of gamma lam phi rc) sarsa_cont_begin rs ss hor).
Proof.
  intros. unfold follow. clear follow. split; [|split]; intros fuel e a l ns ne r H; exact (sarsa_family_bootstrap _ _ _ _ _ _ _ _ _ _ _ _ _ H).
Qed.

(** Evaluating in between does not change what is learnt. *)
Theorem sarsa_traces_evaluate : forall {En Ob Ac Rt} gamma lam kind (phi : Ob -> Ac -> list R)
    (rt : Rt -> nat -> nat -> R * Rt) (rc : Rt -> Ob -> Ac -> R * Rt)
    (pl : table -> nat -> nat -> nat) (pt : list R -> nat -> Ob -> Ac)
    rd (sd : En -> nat -> En * nat * R * bool) rs (ss : En -> Ac -> En * Ob * R * bool) hor,
  (forall fuel e a l init ns ne r,
    CoreModel.evaluate (s_world (fun q => pl (fst (fst q))) (sarsa_lambda_of gamma lam kind rt) sarsa_lambda_begin rd sd hor) fuel e a l init ns ne = CoreModel.Done r ->
    fst (fst (s_l (CoreModel.r_ag r))) = fst (fst (s_l a)) /\ sarsa_lambda_begin (s_l (CoreModel.r_ag r)) = sarsa_lambda_begin (s_l a)) /\
  (forall fuel e a l init ns ne r,
    CoreModel.evaluate (s_world (fun q => pt (o_theta (fst q))) (true_online_of gamma lam phi rc) true_online_begin rs ss hor) fuel e a l init ns ne = CoreModel.Done r ->
    o_theta (fst (s_l (CoreModel.r_ag r))) = o_theta (fst (s_l a)) /\ true_online_begin (s_l (CoreModel.r_ag r)) = true_online_begin (s_l a)) /\
  (forall fuel e a l init ns ne r,
    CoreModel.evaluate (s_world (fun q => pt (fst (fst q))) (sarsa_cont_of gamma lam phi rc) sarsa_cont_begin rs ss hor) fuel e a l init ns ne = CoreModel.Done r ->
    fst (fst (s_l (CoreModel.r_ag r))) = fst (fst (s_l a)) /\ sarsa_cont_begin (s_l (CoreModel.r_ag r)) = sarsa_cont_begin (s_l a)).
Proof.
  intros. split; [|split]; intros fuel e a l init ns ne r H.
  - assert (B : forall q : table * table * Rt, sarsa_lambda_begin (sarsa_lambda_begin q) = sarsa_lambda_begin q).
    { intros [[Q t] q]. unfold sarsa_lambda_begin, trace_reset. cbn. f_equal. f_equal. rewrite map_map. apply map_ext. intros w. rewrite map_map. reflexivity. }
    destruct (sarsa_family_evaluate _ _ _ _ _ _ B _ _ _ _ _ _ _ _ H) as [-> | ->]; split; auto.
  - assert (B : forall q : to_state * Rt, true_online_begin (true_online_begin q) = true_online_begin q) by reflexivity.
    destruct (sarsa_family_evaluate _ _ _ _ _ _ B _ _ _ _ _ _ _ _ H) as [-> | ->]; split; auto.
  - assert (B : forall q : list R * list R * Rt, sarsa_cont_begin (sarsa_cont_begin q) = sarsa_cont_begin q) by reflexivity.
    destruct (sarsa_family_evaluate _ _ _ _ _ _ B _ _ _ _ _ _ _ _ H) as [-> | ->]; split; auto.
Qed.

(** ** True online SARSA(lambda), episode by episode *)
(** The learning rates used for the transitions [xs]. *)
Fixpoint rates {Ob Ac Rt} (rate : Rt -> Ob -> Ac -> R * Rt) (rt : Rt) (xs : list (CoreModel.sample Ob Ac R unit)) : list R :=
  match xs with
  | [] => []
  | x :: xs' => let (al, rt') := rate rt (CoreModel.state x) (CoreModel.action x) in al :: rates rate rt' xs'
  end.

Lemma firstn_snoc : forall {A} n (xs : list A) x, nth_error xs n = Some x -> firstn (S n) xs = firstn n xs ++ [x].
Proof. induction n as [|n IH]; intros [|y xs] x H; try discriminate; [injection H as <-; reflexivity|]. cbn [firstn app]. f_equal. apply IH. exact H. Qed.

Lemma map_zero : forall (y : list R) n, length y = n -> map (fun _ => 0%R) y = repeat 0%R n.
Proof. induction y as [|c y IH]; intros n <-; [reflexivity|]. cbn. f_equal. apply IH. reflexivity. Qed.

Section TrueOnline.
Context {Ob Ac Rt : Type} (gamma lam : R) (phi : Ob -> Ac -> list R) (rate : Rt -> Ob -> Ac -> R * Rt) (d : nat).
Hypothesis phi_size : forall o c, length (phi o c) = d.
Notation upd := (true_online_of gamma lam phi rate).
Variables (l : to_state * Rt) (xs : list (CoreModel.sample Ob Ac R unit)) (bs : list Ac).
Hypothesis weights_size : length (o_theta (fst l)) = d.
Hypothesis LB : length bs = length xs.
Let V n := values upd true_online_begin l true (firstn n xs) (firstn n bs).

Lemma V_step : forall n x b, nth_error xs n = Some x -> nth_error bs n = Some b ->
  V (S n) = upd (if ended true (firstn n xs) then true_online_begin (V n) else V n) x b.
Proof.
  intros n x b X B. unfold V. rewrite (firstn_snoc n xs x X), (firstn_snoc n bs b B). apply values_snoc.
  rewrite !firstn_length, LB. reflexivity.
Qed.

Lemma V_rates : forall n x, nth_error xs n = Some x -> nth n (rates rate (snd l) xs) 0%R = fst (rate (snd (V n)) (CoreModel.state x) (CoreModel.action x)).
Proof.
  intros n x X. assert (G : forall k ys rt, rates rate rt (firstn k xs ++ ys) = rates rate rt (firstn k xs) ++ rates rate (fold_left (fun q x => snd (rate q (CoreModel.state x) (CoreModel.action x))) (firstn k xs) rt) ys).
  { clear. intros k ys. generalize (firstn k xs) as zs. induction zs as [|z zs IH]; intros rt; [reflexivity|]. cbn [app rates fold_left].
    destruct (rate rt _ _) as [al rt']. cbn [app snd]. f_equal. apply IH. }
  assert (L : forall rt zs, length (rates rate rt zs) = length zs).
  { clear. intros rt zs. revert rt. induction zs as [|z zs IH]; intros rt; [reflexivity|]. cbn. destruct (rate rt _ _). cbn. f_equal. apply IH. }
  assert (S : snd (V n) = fold_left (fun q x => snd (rate q (CoreModel.state x) (CoreModel.action x))) (firstn n xs) (snd l)).
  { assert (N : n <= length xs) by (apply Nat.lt_le_incl, nth_error_Some; congruence). clear X x G L. induction n as [|n IH]; [reflexivity|].
    destruct (nth_error xs n) as [x|] eqn:X; [|apply nth_error_None in X; lia]. destruct (nth_error bs n) as [b|] eqn:B; [|apply nth_error_None in B; lia].
    rewrite (V_step n x b X B), (firstn_snoc n xs x X), fold_left_app. cbn [fold_left]. rewrite <- IH by lia. unfold true_online_of.
    destruct (ended true (firstn n xs)); cbn [true_online_begin snd]; destruct (rate (snd (V n)) _ _); reflexivity. }
  assert (N : n < length xs) by (apply nth_error_Some; congruence).
  rewrite S. rewrite <- (firstn_skipn n xs) at 1. rewrite G, app_nth2; rewrite L, firstn_length, Nat.min_l by lia; [|lia]. rewrite Nat.sub_diag.
  assert (K : exists zs, skipn n xs = x :: zs). { clear - X. revert xs X. induction n as [|n IH]; intros [|y ys] X; try discriminate; [injection X as ->; cbn; eauto|]. cbn. apply IH. exact X. }
  destruct K as [zs ->]. cbn [rates]. destruct (rate _ _ _). reflexivity.
Qed.

Lemma V_size : forall n, n <= length xs -> length (o_theta (fst (V n))) = d /\ (length (o_e (fst (V n))) = d \/ ended true (firstn n xs) = true).
Proof.
  induction n as [|n IH]; intros N; [split; [exact weights_size|right; reflexivity]|].
  destruct (nth_error xs n) as [x|] eqn:X; [|apply nth_error_None in X; lia]. destruct (nth_error bs n) as [b|] eqn:B; [|apply nth_error_None in B; lia].
  destruct (IH ltac:(lia)) as [I1 I2]. rewrite (V_step n x b X B).
  assert (Z : let q := if ended true (firstn n xs) then true_online_begin (V n) else V n in length (o_theta (fst q)) = d /\ length (o_e (fst q)) = d).
  { cbv zeta. destruct (ended true (firstn n xs)); cbn [true_online_begin fst o_theta o_e]; [rewrite map_length; auto|]. destruct I2; [auto|discriminate]. }
  cbv zeta in Z. set (q := if ended true (firstn n xs) then _ else _) in *. destruct Z as [Z1 Z2]. unfold true_online_of. destruct (rate (snd q) _ _) as [al rt].
  unfold true_online_update. cbn [fst o_theta o_e].
  assert (Y : forall c1 c2 w, length (vadd (vscale c1 (o_e (fst q))) (vscale c2 (phi (CoreModel.state x) (CoreModel.action x)))) = w <-> d = w).
  { intros. rewrite TdProofs.vadd_length; rewrite !TdProofs.vscale_length, ?phi_size; [rewrite Z2; tauto|auto]. }
  split; [|left; apply Y; reflexivity].
  rewrite TdProofs.vadd_length; rewrite TdProofs.vadd_length; rewrite ?TdProofs.vscale_length, ?phi_size; auto; rewrite Z1; symmetry; apply Y; reflexivity.
Qed.

Lemma V_episode : forall p n, p + n <= length xs -> ended true (firstn p xs) = true ->
  (forall k x, k + 1 < n -> nth_error xs (p + k) = Some x -> CoreModel.last x = false) ->
  let w k := o_theta (fst (V k)) in
  let al t := nth (p + t) (rates rate (snd l) xs) 0%R in
  let rw t := nth (p + t) (map (@CoreModel.reward _ _ _ _) xs) 0%R in
  let ft t := nth (p + t) (map (fun x => phi (CoreModel.state x) (CoreModel.action x)) xs) (repeat 0%R d) in
  let u k := match nth_error xs k, nth_error bs k with Some x, Some b => if CoreModel.absorbing x then 0%R else dot (w k) (phi (CoreModel.next_state x) b) | _, _ => 0%R end in
  w (p + n) = forward gamma lam al rw (fun t => u (p + t)) ft (w p) n n.
Proof.
  intros p n N ST IN w al rw ft u.
  set (ab t := match nth_error xs (p + t) with Some x => CoreModel.absorbing x | None => true end).
  set (ft' t := match nth_error xs (p + t), nth_error bs (p + t) with Some x, Some b => phi (CoreModel.next_state x) b | _, _ => [] end).
  assert (LF : forall t, length (ft t) = d).
  { intros t. unfold ft. destruct (Nat.lt_ge_cases (p + t) (length xs)) as [H|H].
    - assert (I : In (nth (p + t) (map (fun x => phi (CoreModel.state x) (CoreModel.action x)) xs) (repeat 0%R d)) (map (fun x => phi (CoreModel.state x) (CoreModel.action x)) xs)) by (apply nth_In; rewrite map_length; exact H).
      apply in_map_iff in I. destruct I as (z & <- & _). apply phi_size.
    - rewrite nth_overflow by (rewrite map_length; exact H). apply repeat_length. }
  destruct (V_size p ltac:(lia)) as [LW _].
  pose proof (TdProps.true_online_forward_view d gamma lam al rw ab ft ft' (w p) LW LF) as FV. cbv zeta in FV.
  set (run := fix run t := match t with 0 => {| o_theta := w p; o_e := repeat 0%R d; o_qold := None |}
    | S t' => true_online_update gamma (al t') lam (rw t') (ab t') (ft t') (ft' t') (run t') end) in FV.
  assert (RUN : forall k, k <= n -> o_theta (run k) = w (p + k) /\ (1 <= k -> run k = fst (V (p + k)))).
  { induction k as [|k IHk]; intros K; [rewrite Nat.add_0_r; split; [reflexivity|lia]|].
    enough (G : run (S k) = fst (V (p + S k))) by (split; [unfold w; rewrite G; reflexivity|auto]).
    destruct (nth_error xs (p + k)) as [x|] eqn:X; [|apply nth_error_None in X; lia]. destruct (nth_error bs (p + k)) as [b|] eqn:B; [|apply nth_error_None in B; lia].
    replace (p + S k) with (S (p + k)) by lia. rewrite (V_step _ x b X B).
    change (run (S k)) with (true_online_update gamma (al k) lam (rw k) (ab k) (ft k) (ft' k) (run k)).
    assert (Q : fst (if ended true (firstn (p + k) xs) then true_online_begin (V (p + k)) else V (p + k)) = run k).
    { destruct k as [|k].
      - rewrite Nat.add_0_r, ST. cbn [true_online_begin fst run]. unfold run. f_equal. apply map_zero. exact LW.
      - destruct (nth_error xs (p + k)) as [z|] eqn:Z; [|apply nth_error_None in Z; lia].
        replace (p + S k) with (S (p + k)) by lia. rewrite (firstn_snoc _ xs z Z), ended_snoc. rewrite (IN k z ltac:(lia) Z). symmetry.
        replace (S (p + k)) with (p + S k) by lia. apply IHk; lia. }
    assert (S2 : snd (if ended true (firstn (p + k) xs) then true_online_begin (V (p + k)) else V (p + k)) = snd (V (p + k))) by (destruct (ended true (firstn (p + k) xs)); reflexivity).
    unfold true_online_of. rewrite Q, S2. pose proof (V_rates _ x X) as AL. fold (al k) in AL.
    destruct (rate (snd (V (p + k))) (CoreModel.state x) (CoreModel.action x)) as [a0 rt']. cbn [fst] in AL |- *. rewrite AL.
    replace (rw k) with (CoreModel.reward x) by (unfold rw; symmetry; apply (nth_error_nth (map (@CoreModel.reward _ _ _ _) xs) _ _ (map_nth_error (@CoreModel.reward _ _ _ _) _ _ X))).
    replace (ft k) with (phi (CoreModel.state x) (CoreModel.action x)) by (unfold ft; symmetry; apply (nth_error_nth (map (fun x => phi (CoreModel.state x) (CoreModel.action x)) xs) _ _ (map_nth_error (fun x => phi (CoreModel.state x) (CoreModel.action x)) _ _ X))).
    unfold ab, ft'. rewrite X, B. reflexivity. }
  destruct FV as (b & BE & FW). destruct (RUN n (le_n n)) as [<- _]. rewrite FW.
  assert (EB : forall t, t < n -> b t = u (p + t)).
  { intros t T. rewrite BE, <- FW. destruct (RUN t ltac:(lia)) as [-> _]. unfold u, ab, ft'.
    destruct (nth_error xs (p + t)) as [x|] eqn:X; [|apply nth_error_None in X; lia]. destruct (nth_error bs (p + t)) as [c|] eqn:B; [|apply nth_error_None in B; lia]. reflexivity. }
  assert (EX : forall (b1 b2 : nat -> R) h, (forall t, t < h -> b1 t = b2 t) -> forall k, k <= h -> forward gamma lam al rw b1 ft (w p) h k = forward gamma lam al rw b2 ft (w p) h k).
  { clear. intros b1 b2 h E. induction k as [|k IH]; intros K; [reflexivity|]. cbn [forward]. rewrite IH by lia.
    assert (LR : lreturn gamma lam rw b1 h k = lreturn gamma lam rw b2 h k); [|rewrite LR; reflexivity].
    assert (NS : forall m, 1 <= m -> k + m <= h -> nstep gamma rw b1 m k = nstep gamma rw b2 m k) by (intros m M1 M2; unfold nstep; rewrite E by lia; reflexivity).
    unfold lreturn. rewrite NS by lia. f_equal. f_equal. f_equal. apply map_ext_in. intros m M. apply in_seq in M. rewrite NS by lia. reflexivity. }
  apply EX; [exact EB|lia].
Qed.
End TrueOnline.

(** In every learn call, true online SARSA(lambda) computes in every episode the online forward
    view started from the weights with which the episode began: [w k] are the weights after
    [k] transitions, and in an episode that begins at transition [p], after [n] of its
    transitions the weights are those of updating towards the lambda-returns truncated there. *)
Theorem true_online_core_forward_view : forall {En Ob Ac Rt} d gamma lam (phi : Ob -> Ac -> list R) (rate : Rt -> Ob -> Ac -> R * Rt)
    (pol : list R -> nat -> Ob -> Ac) env_reset (env_step : En -> Ac -> En * Ob * R * bool) hor fuel e a l ns ne r,
  (forall o c, length (phi o c) = d) -> length (o_theta (fst (s_l a))) = d ->
  CoreModel.learn (s_world (fun q => pol (o_theta (fst q))) (true_online_of gamma lam phi rate) true_online_begin env_reset env_step hor)
    fuel e a l ns ne (Some 1) None = CoreModel.Done r ->
  let xs := CoreModel.samples_of (CoreModel.r_log r) in
  exists w bs u, length bs = length xs /\ w 0 = o_theta (fst (s_l a)) /\ w (length xs) = o_theta (fst (s_l (CoreModel.r_ag r))) /\
    (forall k x y, nth_error xs k = Some x -> nth_error xs (S k) = Some y -> CoreModel.last x = false ->
       nth_error bs k = Some (CoreModel.action y) /\ CoreModel.state y = CoreModel.next_state x) /\
    (forall k x b, nth_error xs k = Some x -> nth_error bs k = Some b ->
       u k = if CoreModel.absorbing x then 0%R else dot (w k) (phi (CoreModel.next_state x) b)) /\
    forall p n, p + n <= length xs ->
      (p = 0 \/ exists z, nth_error xs (p - 1) = Some z /\ CoreModel.last z = true) ->
      (forall k x, k + 1 < n -> nth_error xs (p + k) = Some x -> CoreModel.last x = false) ->
      w (p + n) = forward gamma lam
        (fun t => nth (p + t) (rates rate (snd (s_l a)) xs) 0%R)
        (fun t => nth (p + t) (map (@CoreModel.reward _ _ _ _) xs) 0%R) (fun t => u (p + t))
        (fun t => nth (p + t) (map (fun x => phi (CoreModel.state x) (CoreModel.action x)) xs) (repeat 0%R d)) (w p) n n.
Proof.
  intros En Ob Ac Rt d gamma lam phi rate pol env_reset env_step hor fuel e a l ns ne r PS WS H xs.
  destruct (sarsa_family_bootstrap _ _ _ _ _ _ _ _ _ _ _ _ _ H) as (bs & LB & V & ADJ). fold xs in LB, V, ADJ.
  set (w k := o_theta (fst (values (true_online_of gamma lam phi rate) true_online_begin (s_l a) true (firstn k xs) (firstn k bs)))).
  exists w, bs, (fun k => match nth_error xs k, nth_error bs k with Some x, Some b => if CoreModel.absorbing x then 0%R else dot (w k) (phi (CoreModel.next_state x) b) | _, _ => 0%R end).
  split; [exact LB|]. split; [reflexivity|]. split; [|split; [exact ADJ|split]].
  - unfold w. rewrite V, firstn_all, <- LB, firstn_all. reflexivity.
  - intros k x b -> ->. reflexivity.
  - intros p n N ST IN. apply (V_episode gamma lam phi rate d PS (s_l a) xs bs WS LB p n N); [|exact IN].
    destruct ST as [-> | (z & Z & LZ)]; [reflexivity|]. destruct p as [|p]; [reflexivity|]. cbn in Z. rewrite Nat.sub_0_r in Z.
    rewrite (firstn_snoc _ xs z Z), ended_snoc. exact LZ.
Qed.

(** Two episodes of one step with reward 1: the single weight goes from 0 to 1/2 to 3/4. *)
Example true_online_core_ex :
  let W := s_world (fun (_ : to_state * unit) (_ : nat) (_ : nat) => tt) (true_online_of 1 1 (fun _ _ => [1%R]) (fun _ _ _ => ((1 / 2)%R, tt))) true_online_begin
             (fun e (_ : option nat) => (tt, 0)) (fun _ (_ : unit) => (tt, 1, 1%R, true)) None in
  let l0 := CoreModel.mkL CoreModel.FitNever CoreModel.MoveSteps None None None None 0 0 0 0 in
  exists r, CoreModel.learn W 9 tt (mkSA ({| o_theta := [0%R]; o_e := [0%R]; o_qold := None |}, tt) None 0 true) l0 (Some 2) None (Some 1) None = CoreModel.Done r /\
    o_theta (fst (s_l (CoreModel.r_ag r))) = [(3 / 4)%R].
Proof.
  cbv zeta. eexists. split; [lazy -[Rplus Rmult Ropp Rinv Rminus Rdiv IZR]; reflexivity|].
  cbn -[Rplus Rmult Ropp Rinv Rminus Rdiv IZR]. f_equal. field.
Qed.

(** A learner that only notes (action, bootstrap action), a policy that draws 10, 11, 12, ...,
    episodes of three steps: five steps, then two more in a second call. *)
Example sarsa_demo :
  let W := s_world (fun (_ : list (nat * nat)) t (_ : nat) => 10 + t) (fun l x b => l ++ [(CoreModel.action x, b)]) (fun l => l)
             (fun e (_ : option nat) => (tt, 0)) (fun _ (a : nat) => (tt, a, 0%R, false)) (Some 3) in
  let l0 := CoreModel.mkL CoreModel.FitNever CoreModel.MoveSteps None None None None 0 0 0 0 in
  exists r r2, CoreModel.learn W 9 tt (mkSA [] None 0 true) l0 (Some 5) None (Some 1) None = CoreModel.Done r /\
    CoreModel.learn W 9 tt (CoreModel.r_ag r) l0 (Some 2) None (Some 1) None = CoreModel.Done r2 /\
    s_l (CoreModel.r_ag r2) = [(10, 11); (11, 12); (12, 13); (14, 15); (15, 16); (17, 18); (18, 19)].
Proof. cbv zeta. do 2 eexists. split; [vm_compute; reflexivity|]. split; vm_compute; reflexivity. Qed.

Print Assumptions sarsa_family_textbook.
Print Assumptions sarsa_family_bootstrap.
Print Assumptions sarsa_family_evaluate.
Print Assumptions sarsa_bootstraps_next_action.
Print Assumptions sarsa_traces_bootstrap_next_action.
Print Assumptions sarsa_traces_evaluate.
Print Assumptions true_online_core_forward_view.

(** C118: the data that [Core] collects are independent episodes of the current policy, the returns
    reported after an evaluation are unbiased, and each fit sees fresh on-policy episodes. *)
From Coq Require Import List Arith Lia Bool Reals Lra FunctionalExtensionality.
From Verif Require Import Common EpisodeSpec CoreModel PgModel PgSpec PgExpSpec PgExpProps SampModel SampSpec SampProofs.
From Verif Require DatasetModel DatasetSpec DatasetProofs DatasetProps.
Import ListNotations.
Local Open Scope R_scope.

(** What [Dataset.compute_J] reads of a row. *)
Definition flat {St Ac} (x : CoreModel.sample St Ac R unit) : DatasetModel.row St Ac :=
  DatasetModel.mkRow (state x) (action x) (reward x) (next_state x) (absorbing x) (last x).

(** numpy.mean(dataset.compute_J(gamma)) of the dataset a run returns *)
Definition report {En Ag St Ac} (gamma : R) (o : @outcome En Ag St Ac R unit unit) : R :=
  match o with
  | Done r => average (DatasetModel.compute_J gamma (map flat (rows (r_ds r))))
  | _ => 0
  end.

Lemma complete_of_episodes : forall A (lst : A -> bool) (l : list (list A)), Forall (is_episode lst) l ->
  complete lst (concat l) = l /\ unfinished lst (concat l) = [].
Proof.
  intros A lst. induction l as [|e l IH]; intros F; [split; reflexivity|]. inversion F as [|? ? (b & x & -> & L & B) F']; subst. destruct (IH F') as [C U].
  cbn [concat]. rewrite <- app_assoc. cbn [app]. clear F. revert C U. generalize (concat l). intros t C U. clear IH F'.
  unfold complete, unfinished in *. induction b as [|y b IHb].
  - cbn [app split_episodes]. destruct (split_episodes lst t). cbn in *. rewrite L. subst. split; reflexivity.
  - inversion B as [|? ? Ly B']; subst. cbn [app split_episodes]. specialize (IHb B'). destruct (split_episodes lst (b ++ x :: t)) as [eps tl].
    cbn [fst snd] in *. rewrite Ly. destruct IHb as [-> ->]. split; reflexivity.
Qed.

Lemma disc_gain : forall St Ac gamma (e : list (CoreModel.sample St Ac R unit)), DatasetSpec.ret gamma (map flat e) = gain gamma e.
Proof.
  intros St Ac gamma e. unfold DatasetSpec.ret. induction e as [|x e IH]; [reflexivity|]. cbn [map gain].
  rewrite DatasetProofs.disc_cons, IH. reflexivity.
Qed.

Lemma report_episodes : forall St Ac gamma (es : list (list (CoreModel.sample St Ac R unit))), es <> [] -> Forall (is_episode last) es ->
  DatasetModel.compute_J gamma (map flat (concat es)) = map (gain gamma) es.
Proof.
  intros St Ac gamma es Hn F. rewrite DatasetProps.dataset_compute_J.
  assert (F' : Forall (is_episode (@DatasetModel.r_last St Ac)) (map (map flat) es)).
  { apply Forall_map. eapply Forall_impl; [|exact F]. intros e (b & x & -> & L & B). exists (map flat b), (flat x).
    rewrite map_app. repeat split; auto. apply Forall_map. exact B. }
  destruct (complete_of_episodes _ _ _ F') as [C U]. unfold DatasetSpec.episodes. rewrite concat_map, C, U, app_nil_r, map_map.
  assert (Q : map (fun x => DatasetSpec.ret gamma (map flat x)) es = map (gain gamma) es) by (apply map_ext; intros; apply disc_gain).
  rewrite Q. destruct (concat (map (map flat) es)) eqn:X; [|reflexivity]. exfalso.
  destruct es as [|e es]; [congruence|]. inversion F as [|? ? (b & x & -> & _) _]; subst. cbn [map concat] in X. rewrite map_app in X. destruct (map flat b); discriminate.
Qed.

Lemma batches_push : forall A B (v : A -> B) l l', (forall f, mean l (fun x => f (v x)) = mean l' f) ->
  forall n F, mean (batches n l) (fun b => F (map v b)) = mean (batches n l') F.
Proof.
  intros A B v l l' H. induction n as [|n IH]; intros F; [rewrite !mean_batches_0; reflexivity|].
  rewrite !mean_batches_S, <- H. apply mean_ext. intros w x _. exact (IH (fun b => F (v x :: b))).
Qed.

Section Props.
Context {St Ac A0 Oe Oa : Type}.
Variables (de : Oe) (da : Oa).
Variable init : Oe -> St.
Variable out : St -> Ac -> Oe -> St * R * bool.
Variable pol : A0 -> St -> Oa -> Ac.
Notation row := (CoreModel.sample St Ac R unit).
Variable fit0 : A0 -> list row -> A0.
Variable h : nat.
Notation W := (s_world de da init out pol fit0 h).
(** The environment and the policy as probabilities *)
Variable acts : list Ac.
Variable kern : St -> Ac -> list (R * St * R * bool).
Variable starts : list (R * St).
Variable pi : A0 -> St -> Ac -> R.
(** The distributions of one draw of the two generators *)
Variables (mue : list (R * Oe)) (mua : list (R * Oa)).
Hypothesis Me : mean mue (fun _ => 1) = 1.
Hypothesis Ma : mean mua (fun _ => 1) = 1.
Hypothesis Hpol : forall g s f, mean mua (fun w => f (pol g s w)) = rsum (map (fun a => pi g s a * f a) acts).
Hypothesis Hout : forall s a f, mean mue (fun w => f (out s a w)) = rsum (map (fun k => let '(p, s', r, ab) := k in p * f (s', r, ab)) (kern s a)).
Hypothesis Hinit : forall f, mean mue (fun w => f (init w)) = mean starts f.
Notation epis := (epis acts kern starts pi).
Notation expected_return := (expected_return acts kern starts pi).
Notation return_variance := (return_variance acts kern starts pi).

Lemma eval_exp : forall n f s0 g l ne na (G : list row -> R), (n * S h <= f)%nat -> (n * (h + 2) <= ne)%nat -> (n * (h + 1) <= na)%nat ->
  forall F : list (list row) -> R, (forall es, length es = n -> Forall (is_episode last) es -> G (concat es) = F es) ->
  tapes ne na mue mua (fun te ta => match evaluate W f (s0, te) (g, ta) l None None (Some n) with Done r => G (rows (r_ds r)) | _ => 0 end)
  = mean (batches n (epis g h)) F.
Proof.
  intros n f s0 g l ne na G Hf Hne Hna F HG.
  rewrite (E_ext _ _ _ _ _ (fun te ta => let '(es, te', ta') := eps de da init out pol h n g te ta in G (concat es))).
  - rewrite (eps_exp de da init out pol h acts kern starts pi mue mua Hpol Hout Hinit n g 0 0 (fun es _ _ => G (concat es)) (fun es => G (concat es)));
      [|intros; apply E_const; assumption|lia|lia].
    apply mean_ext. intros w b I. destruct (batches_in _ _ _ _ _ I) as [L Q]. apply HG; [exact L|]. apply Forall_forall. intros e Ie.
    destruct (Q e Ie) as [v Iv]. exact (epis_episode acts kern starts pi h g v e Iv).
  - intros te ta. destruct (evaluate_walk de da init out pol fit0 h n f s0 te ta g l Hf) as (r & -> & Er & _). rewrite Er.
    destruct (eps de da init out pol h n g te ta) as [[es te'] ta']. reflexivity.
Qed.

(** The episodes in the dataset that [evaluate(n_episodes=n)] returns are [n] independent draws of
    the distribution of the policy's episodes: any quantity of them has the expectation it has for
    independent draws.  The tapes may have any lengths that suffice. *)
Theorem core_evaluate_distribution : forall n f s0 g l ne na (F : list (list row) -> R),
  (n * S h <= f)%nat -> (n * (h + 2) <= ne)%nat -> (n * (h + 1) <= na)%nat ->
  tapes ne na mue mua (fun te ta =>
    match evaluate W f (s0, te) (g, ta) l None None (Some n) with Done r => F (complete last (rows (r_ds r))) | _ => 0 end)
  = mean (batches n (epis g h)) F.
Proof.
  intros n f s0 g l ne na F Hf Hne Hna. apply (eval_exp n f s0 g l ne na (fun d => F (complete last d)) Hf Hne Hna).
  intros es _ Fe. rewrite (proj1 (complete_of_episodes _ _ _ Fe)). reflexivity.
Qed.

(** The mean of the returns reported is an unbiased estimate of the expected return, its mean
    squared error is the variance of the return divided by the number of episodes, and it converges
    in probability. *)
Theorem core_evaluate_unbiased : forall gamma n f s0 g l ne na, (1 <= n)%nat ->
  (n * S h <= f)%nat -> (n * (h + 2) <= ne)%nat -> (n * (h + 1) <= na)%nat ->
  let mean_J te ta := report gamma (evaluate W f (s0, te) (g, ta) l None None (Some n)) in
  tapes ne na mue mua mean_J = expected_return gamma h g /\
  tapes ne na mue mua (fun te ta => (mean_J te ta - expected_return gamma h g) ^ 2) = return_variance gamma h g / INR n /\
  ((forall w e, In (w, e) (epis g h) -> 0 <= w) -> forall eps, 0 < eps ->
   tapes ne na mue mua (fun te ta => if Rle_dec eps (Rabs (mean_J te ta - expected_return gamma h g)) then 1 else 0)
   <= return_variance gamma h g / (INR n * eps ^ 2)).
Proof.
  intros gamma n f s0 g l ne na Hn Hf Hne Hna. cbv zeta.
  pose proof (epis_mass init out pol acts kern starts pi mue mua Me Ma Hpol Hout Hinit h g) as M1.
  pose proof (epis_gain out pol acts kern starts pi mue mua Me Ma Hpol Hout gamma h g) as Eg.
  assert (K : forall H : R -> R, tapes ne na mue mua (fun te ta => H (report gamma (evaluate W f (s0, te) (g, ta) l None None (Some n))))
    = mean (batches n (epis g h)) (fun b => H (average (map (gain gamma) b)))).
  { intros H. rewrite <- (eval_exp n f s0 g l ne na (fun d => H (average (DatasetModel.compute_J gamma (map flat d)))) Hf Hne Hna).
    - apply E_ext. intros te ta. unfold report. destruct (evaluate_walk de da init out pol fit0 h n f s0 te ta g l Hf) as (r & -> & _). reflexivity.
    - intros es L Fe. rewrite report_episodes; [reflexivity| |exact Fe]. destruct es; [cbn in L; lia|discriminate]. }
  split; [|split].
  - rewrite (K (fun x => x)). rewrite average_mean by assumption. exact Eg.
  - rewrite (K (fun x => (x - expected_return gamma h g) ^ 2)). unfold SampSpec.return_variance. rewrite <- Eg. apply average_variance; assumption.
  - intros P eps He. rewrite (K (fun x => if Rle_dec eps (Rabs (x - expected_return gamma h g)) then 1 else 0)).
    unfold SampSpec.return_variance. rewrite <- Eg. apply average_prob; assumption.
Qed.

(** Under [learn(n_episodes=m k + q, n_episodes_per_fit=k)] the agent goes through [m] fits, each with
    [k] fresh independent episodes of the policy it has at that moment. *)
Theorem core_learn_on_policy : forall k m q f s0 g l ne na (F : A0 -> R), (1 <= k)%nat -> (q < k)%nat -> ((m * k + q) * S h <= f)%nat ->
  (m * (k * (h + 2)) <= ne)%nat -> (m * (k * (h + 1)) <= na)%nat ->
  tapes ne na mue mua (fun te ta =>
    match learn W f (s0, te) (g, ta) l None (Some (m * k + q)%nat) None (Some k) with Done r => F (fst (r_ag r)) | _ => 0 end)
  = on_policy acts kern starts pi fit0 k h m F g.
Proof.
  intros k m q f s0 g l ne na F Hk Hq Hf Hne Hna.
  rewrite <- (lrn_exp de da init out pol fit0 h acts kern starts pi mue mua Me Ma Hpol Hout Hinit k m g ne na F Hne Hna).
  apply E_ext. intros te ta. destruct (learn_walk de da init out pol fit0 h k m q f s0 te ta g l Hk Hq Hf) as (r & -> & Er). rewrite Er. reflexivity.
Qed.
End Props.

(** ** REINFORCE and GPOMDP *)
(** What a policy-gradient agent with weights [th] reads from the rows. *)
Definition seen_rows {St Ac} (dlog : vec -> St -> Ac -> vec) (th : vec) (d : list (CoreModel.sample St Ac R unit)) : list PgModel.sample :=
  map (fun x => {| score := dlog th (state x) (action x); rew := reward x; phi_c := [1]; lst := last x |}) d.
(** A policy-gradient agent: its weights and the gradient handed to its optimizer by the last fit. *)
Definition pg_learner {St Ac} (dlog : vec -> St -> Ac -> vec) (grad : list PgModel.sample -> option vec) (step : vec -> vec -> vec)
    (g : vec * option vec) (d : list (CoreModel.sample St Ac R unit)) : vec * option vec :=
  let v := grad (seen_rows dlog (fst g) d) in
  (match v with Some v' => step (fst g) v' | None => fst g end, v).

Section Pg.
Context {St Ac Oe Oa : Type}.
Variables (de : Oe) (da : Oa).
Variable init : Oe -> St.
Variable out : St -> Ac -> Oe -> St * R * bool.
Variable pol : vec -> St -> Oa -> Ac.
Variable step : vec -> vec -> vec.        (* the optimizer *)
Variable h : nat.
Variable acts : list Ac.
Variable kern : St -> Ac -> list (R * St * R * bool).
Variable starts : list (R * St).
Variable pi : vec -> St -> Ac -> R.
Variable dlog : vec -> St -> Ac -> vec.
Variables (mue : list (R * Oe)) (mua : list (R * Oa)).
Hypothesis Me : mean mue (fun _ => 1) = 1.
Hypothesis Ma : mean mua (fun _ => 1) = 1.
Hypothesis Hpol : forall th s f, mean mua (fun w => f (pol th s w)) = rsum (map (fun a => pi th s a * f a) acts).
Hypothesis Hout : forall s a f, mean mue (fun w => f (out s a w)) = rsum (map (fun k => let '(p, s', r, ab) := k in p * f (s', r, ab)) (kern s a)).
Hypothesis Hinit : forall f, mean mue (fun w => f (init w)) = mean starts f.
Hypothesis SC : forall th i s a, In a acts -> derivable_pt_lim (fun t => pi (with_comp th i t) s a) (th i) (pi th s a * dlog th s a i).
Notation W grad := (s_world de da init out (fun g : vec * option vec => pol (fst g)) (pg_learner dlog grad step) h).
Notation episodes := (PgExpSpec.episodes acts kern pi starts).
Notation pi' := (fun g : vec * option vec => pi (fst g)).

Let vis (x : CoreModel.sample St Ac R unit) : visit (St := St) (Ac := Ac) := (state x, action x, reward x, last x).

Lemma paths_runs : forall k g s f, mean (paths acts kern pi' g k s) (fun e => f (map vis e)) = mean (runs acts kern pi (fst g) k s) f.
Proof.
  induction k as [|k IH]; intros g s f; rewrite mean_paths, mean_runs; apply rsum_map_ext; intros a _; f_equal; apply rsum_map_ext; intros [[[p s'] r] ab] _;
    unfold PgExpProps.prob, cont; cbn [fst]; [reflexivity|]. destruct ab; [reflexivity|]. rewrite <- IH. reflexivity.
Qed.
Lemma epis_episodes : forall g f, mean (epis acts kern starts pi' g h) (fun e => f (map vis e)) = mean (episodes (fst g) h) f.
Proof.
  intros g f. rewrite mean_epis, mean_episodes. unfold mean at 1. apply rsum_map_ext. intros [w s] _. cbn [fst snd]. rewrite paths_runs. reflexivity.
Qed.
Lemma seen_vis : forall th (b : list (list (CoreModel.sample St Ac R unit))), seen_rows dlog th (concat b) = data dlog th (map (map vis) b).
Proof.
  intros th b. unfold data, seen_rows. rewrite map_map, concat_map. f_equal. apply map_ext. intros e. unfold PgExpSpec.seen. rewrite map_map. reflexivity.
Qed.

Lemma pg_gradient_exp : forall grad i n f s0 th v0 l ne na, (1 <= n)%nat -> (n * S h <= f)%nat -> (n * (h + 2) <= ne)%nat -> (n * (h + 1) <= na)%nat ->
  tapes ne na mue mua (fun te ta =>
    match learn (W grad) f (s0, te) ((th, v0), ta) l None (Some n) None (Some n) with Done r => comp (snd (fst (r_ag r))) i | _ => 0 end)
  = mean (batches n (episodes th h)) (fun b => comp (grad (data dlog th b)) i).
Proof.
  intros grad i n f s0 th v0 l ne na Hn Hf Hne Hna.
  pose proof (core_learn_on_policy de da init out (fun g : vec * option vec => pol (fst g)) (pg_learner dlog grad step) h acts kern starts pi' mue mua
    Me Ma (fun g => Hpol (fst g)) Hout Hinit n 1 0 f s0 (th, v0) l ne na (fun g => comp (snd g) i) Hn Hn) as Q.
  rewrite Nat.mul_1_l, Nat.add_0_r, !Nat.mul_1_l in Q. rewrite Q by assumption. cbn [on_policy].
  rewrite <- (batches_push _ _ (map vis) (epis acts kern starts pi' (th, v0) h) (episodes th h) (epis_episodes (th, v0)) n (fun b => comp (grad (data dlog th b)) i)).
  apply mean_ext. intros w b _. cbn [pg_learner snd]. unfold pg_learner. cbn [fst snd]. rewrite seen_vis. reflexivity.
Qed.

(** The gradient that the first fit of [learn(n_episodes=n, n_episodes_per_fit=n)] hands to the
    optimizer, for REINFORCE: its expectation over everything that is drawn during the interaction *)
Theorem core_reinforce_expectation_partial : forall gamma th i n f s0 v0 l ne na, (2 <= n)%nat ->
  (n * S h <= f)%nat -> (n * (h + 2) <= ne)%nat -> (n * (h + 1) <= na)%nat ->
  exists D, derivable_pt_lim (fun t => objective acts kern pi starts gamma h (with_comp th i t)) (th i) D /\
    tapes ne na mue mua (fun te ta =>
      match learn (W (fun d => snd (pg_fit gamma reinforce rf0 d))) f (s0, te) ((th, v0), ta) l None (Some n) None (Some n) with
      | Done r => comp (snd (fst (r_ag r))) i | _ => 0 end)
    = D - mean (batches n (episodes th h)) (fun b => reinforce_baseline gamma (map (PgExpSpec.seen dlog th) b) i
                                                     * (rsum (map (fun e => score_of (PgExpSpec.seen dlog th e) i) b) / INR n)).
Proof.
  intros gamma th i n f s0 v0 l ne na Hn Hf Hne Hna.
  destruct (reinforce_expectation_partial acts kern pi dlog starts) with (gamma := gamma) (th := th) (i := i) (h := h) (n := n) as (D & HD & _ & E & _); try assumption.
  - intros th' s. rewrite <- Ma, (Hpol th' s (fun _ => 1)). apply rsum_map_ext. intros. ring.
  - intros s a _. rewrite <- (kern_mass out kern mue Me Hout s a). apply rsum_map_ext. intros [[[p s'] r] ab] _. reflexivity.
  - rewrite <- Me, (Hinit (fun _ => 1)). unfold mean. apply rsum_map_ext. intros. ring.
  - exists D. split; [exact HD|]. rewrite <- E. apply pg_gradient_exp; try assumption; lia.
Qed.

(** and for GPOMDP *)
Theorem core_gpomdp_expectation_partial : forall gamma th i n f s0 v0 l ne na, (2 <= n)%nat ->
  (n * S h <= f)%nat -> (n * (h + 2) <= ne)%nat -> (n * (h + 1) <= na)%nat ->
  exists D, derivable_pt_lim (fun t => objective acts kern pi starts gamma h (with_comp th i t)) (th i) D /\
    tapes ne na mue mua (fun te ta =>
      match learn (W (fun d => snd (pg_fit gamma gpomdp gp0 d))) f (s0, te) ((th, v0), ta) l None (Some n) None (Some n) with
      | Done r => comp (snd (fst (r_ag r))) i | _ => 0 end)
    = D - mean (batches n (episodes th h)) (fun b => rsum (map (fun e => rsum (map (fun t =>
            gpomdp_baseline gamma (map (PgExpSpec.seen dlog th) b) t i * score_upto (PgExpSpec.seen dlog th e) t i) (seq 0 (length e)))) b) / INR n).
Proof.
  intros gamma th i n f s0 v0 l ne na Hn Hf Hne Hna.
  destruct (gpomdp_expectation_partial acts kern pi dlog starts) with (gamma := gamma) (th := th) (i := i) (h := h) (n := n) as (D & HD & _ & E); try assumption.
  - intros th' s. rewrite <- Ma, (Hpol th' s (fun _ => 1)). apply rsum_map_ext. intros. ring.
  - intros s a _. rewrite <- (kern_mass out kern mue Me Hout s a). apply rsum_map_ext. intros [[[p s'] r] ab] _. reflexivity.
  - rewrite <- Me, (Hinit (fun _ => 1)). unfold mean. apply rsum_map_ext. intros. ring.
  - exists D. split; [exact HD|]. rewrite <- E. apply pg_gradient_exp; try assumption; lia.
Qed.
End Pg.

(** ** Evaluation by steps *)
(** One state, reward 1 at every step, episodes of two steps, discount 1/2: every episode has the
    return 3/2, but [evaluate(n_steps=3)] reports the mean of 3/2 and of the 1 of the episode that it
    leaves unfinished. *)
Theorem core_evaluate_steps_refuted :
  let init := fun _ : unit => tt in let out := fun (_ _ : unit) (_ : unit) => (tt, 1, false) in
  let pol := fun (_ : unit) (_ : unit) (_ : unit) => tt in
  let W := s_world tt tt init out pol (fun g _ => g) 1 in
  let mu := [(1, tt)] in
  (forall f : unit -> R, mean mu (fun w => f (pol tt tt w)) = rsum (map (fun a => 1 * f a) [tt])) /\
  (forall f, mean mu (fun w => f (out tt tt w)) = rsum (map (fun k => let '(p, s', r, ab) := k in p * f (s', r, ab)) [(1, tt, 1, false)])) /\
  expected_return [tt] (fun _ _ => [(1, tt, 1, false)]) [(1, tt)] (fun _ _ _ => 1) (/ 2) 1 tt = 3 / 2 /\
  forall l, tapes 5 3 mu mu (fun te ta => report (/ 2) (evaluate W 3 (tt, te) (tt, ta) l None (Some 3%nat) None)) = 5 / 4.
Proof.
  cbv zeta. split; [intros; unfold mean; cbn; ring|]. split; [intros; unfold mean; cbn; ring|]. split.
  - unfold SampSpec.expected_return, mean. cbn. field.
  - intros l. assert (B : forall n (F : list unit -> R), mean (batches n [(1, tt)]) F = F (repeat tt n)).
    { induction n as [|n IH]; intros F; [apply mean_batches_0|]. rewrite mean_batches_S. unfold mean at 1. cbn [map rsum fst snd]. rewrite IH. cbn [repeat]. ring. }
    unfold tapes. rewrite B, B.
    match goal with |- report _ ?o = _ =>
      assert (Q : report (/ 2) o = match (match o with Done r => Some (rows (r_ds r)) | _ => None end) with Some d => average (DatasetModel.compute_J (/ 2) (map flat d)) | None => 0 end)
        by (unfold report; destruct o; reflexivity) end.
    rewrite Q. clear Q. destruct l.
    match goal with |- match ?o with _ => _ end = _ => assert (Q : o = Some [mkS tt tt 1 tt false false tt tt; mkS tt tt 1 tt false true tt tt; mkS tt tt 1 tt false false tt tt])
      by (lazy -[Rplus Rmult Ropp Rinv Rminus Rdiv IZR INR]; reflexivity) end.
    rewrite Q. unfold average. cbn. field.
Qed.

(** ** Example *)
(** Two fair coins: the environment's decides whether the episode ends, the policy's which of two
    actions, with rewards 1 and 0, is taken. *)
Example coin_ex :
  let init := fun w : bool => w in let out := fun (s a w : bool) => (w, if a then 1 else 0, w) in
  let pol := fun (g : nat) (s w : bool) => w in
  let W := s_world false false init out pol (fun g d => (g + length d)%nat) 1 in
  let mu := [(/ 2, true); (/ 2, false)] in
  (forall n f s0 l ne na, (1 <= n)%nat -> (n * 2 <= f)%nat -> (n * 3 <= ne)%nat -> (n * 2 <= na)%nat ->
   tapes ne na mu mu (fun te ta => report (/ 2) (evaluate W f (s0, te) (0%nat, ta) l None None (Some n))) = 5 / 8) /\
  (forall l, match evaluate W 4 (false, [true; false; true; false; true; true]) (0%nat, [true; false; true; false]) l None None (Some 2%nat) with
   | Done r => map reward (rows (r_ds r)) = [1; 0; 1] /\ map (@last bool bool R unit) (rows (r_ds r)) = [false; true; true]
   | _ => False end) /\
  (** the number of transitions seen in two fits with one episode each: on average 3 *)
  (forall f s0 l ne na, (4 <= f)%nat -> (6 <= ne)%nat -> (4 <= na)%nat ->
   tapes ne na mu mu (fun te ta => match learn W f (s0, te) (0%nat, ta) l None (Some 2%nat) None (Some 1%nat) with Done r => INR (fst (r_ag r)) | _ => 0 end) = 3).
Proof.
  cbv zeta. set (mu := [(/ 2, true); (/ 2, false)]).
  set (kern := fun (s a : bool) => [(/ 2, true, if a then 1 else 0, true); (/ 2, false, if a then 1 else 0, false)]).
  assert (M : mean mu (fun _ => 1) = 1) by (unfold mean; cbn; field).
  assert (H1 : forall (g : nat) (s : bool) f, mean mu (fun w => f ((fun (g : nat) (s w : bool) => w) g s w)) = rsum (map (fun a => (fun (_ : nat) (_ _ : bool) => / 2) g s a * f a) [true; false]))
    by (intros; unfold mean; cbn; field).
  assert (H2 : forall s a f, mean mu (fun w => f ((fun (s a w : bool) => (w, if a then 1 else 0, w)) s a w)) = rsum (map (fun k => let '(p, s', r, ab) := k in p * f (s', r, ab)) (kern s a)))
    by (intros; unfold mean; cbn; destruct a; cbn; field).
  assert (H3 : forall f, mean mu (fun w => f ((fun w : bool => w) w)) = mean mu f) by reflexivity.
  split; [|split].
  - intros n f s0 l ne na Hn Hf Hne Hna.
    destruct (core_evaluate_unbiased false false _ _ _ (fun g d => (g + length d)%nat) 1 [true; false] kern mu (fun _ _ _ => / 2) mu mu M M H1 H2 H3
      (/ 2) n f s0 0%nat l ne na Hn Hf ltac:(lia) ltac:(lia)) as [E _].
    rewrite E. unfold SampSpec.expected_return, mean. cbn. field.
  - intros l. destruct l. lazy -[Rplus Rmult Ropp Rinv Rminus Rdiv IZR INR]. split; reflexivity.
  - intros f s0 l ne na Hf Hne Hna.
    pose proof (core_learn_on_policy false false _ _ _ (fun g d => (g + length d)%nat) 1 [true; false] kern mu (fun _ _ _ => / 2) mu mu M M H1 H2 H3
      1 2 0 f s0 0%nat l ne na INR ltac:(lia) ltac:(lia) ltac:(lia) ltac:(lia) ltac:(lia)) as E.
    eapply eq_trans; [exact E|]. clear E. cbn [on_policy].
    assert (L : forall g x, mean (epis [true; false] kern mu (fun (_ : nat) _ _ => / 2) g 1) (fun e => x + INR (length e)) = x + 3 / 2).
    { intros g x. unfold mean. lazy -[Rplus Rmult Ropp Rinv Rminus Rdiv IZR INR]. cbn [INR]. field. }
    assert (L1 : forall g x, mean (batches 1 (epis [true; false] kern mu (fun (_ : nat) _ _ => / 2) g 1)) (fun b => x + INR (length (concat b))) = x + 3 / 2).
    { intros g x. rewrite mean_batches_S. rewrite <- (L g x). apply mean_ext. intros w e _. rewrite mean_batches_0. cbn [concat]. rewrite app_nil_r. reflexivity. }
    rewrite (mean_ext _ _ _ (fun b => 3 / 2 + INR (length (concat b)))).
    + rewrite L1. field.
    + intros w b _. rewrite (mean_ext _ _ _ (fun b' => INR (0 + length (concat b)) + INR (length (concat b')))) by (intros; apply plus_INR).
      rewrite L1. cbn [Nat.add]. ring.
Qed.

Print Assumptions core_evaluate_distribution.
Print Assumptions core_evaluate_unbiased.
Print Assumptions core_learn_on_policy.
Print Assumptions core_reinforce_expectation_partial.
Print Assumptions core_gpomdp_expectation_partial.
Print Assumptions core_evaluate_steps_refuted.

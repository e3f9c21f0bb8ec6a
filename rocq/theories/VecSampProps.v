(** C119: with several environments in parallel, [VectorCore] still collects independent episodes of
    the current policy: short episodes are not over-represented, the returns reported by [evaluate] are
    unbiased, and an agent that does not care for the order of the episodes learns exactly as with
    [Core].  All of this needs environments with random generators of their own. *)
From Coq Require Import List Arith Lia Bool Reals Lra Permutation FunctionalExtensionality.
From Verif Require Import Common EpisodeSpec VecCoreModel VecCoreProofs VecLearnModel VecLearnProofs SampModel SampSpec SampProofs SampProps
  PgModel PgSpec PgExpSpec PgExpProps VecSampModel VecSampSpec VecSampProofs VecSampSim VecSampRun VecSampExp.
From Verif Require CoreModel DatasetModel PgProps.
Import ListNotations.
Local Open Scope R_scope.

(** numpy.mean(dataset.compute_J(gamma)) of the dataset returned *)
Definition vreport {St Ac} (gamma : R) (o : option (list (CoreModel.sample St Ac R unit))) : R :=
  match o with Some d => average (DatasetModel.compute_J gamma (map flat d)) | None => 0 end.

Section Props.
Context {St Ac A0 Oe Oa : Type}.
Variables (de : Oe) (da : Oa).
Variable init : Oe -> St.
Variable out : St -> Ac -> Oe -> St * R * bool.
Variable pol : A0 -> St -> Oa -> Ac.
Notation row := (CoreModel.sample St Ac R unit).
Variable fit0 : A0 -> list row -> A0.
Variable h : nat.
(** The number of environments, and the content of fresh mask arrays *)
Variable n : nat.
Hypothesis Hn : (2 <= n)%nat.
Variable garb : nat -> nat -> nat -> bool.
Notation hor := (Some (S h)).
Notation ER := (n_reset de init).
Notation ES := (n_step de out).
Notation DR := (n_draw da pol).
Notation FT := (n_fit (Oa := Oa) fit0).
Notation eval f l es a N := (xdataset n hor garb (xevaluate n hor garb ER ES DR FT f l es a None (Some N))).
Notation lrn f l es a N k := (xlearn n hor garb ER ES DR FT f l es a None (Some N) None (Some k)).
(** The environment and the policy as probabilities *)
Variable acts : list Ac.
Variable kern : St -> Ac -> list (R * St * R * bool).
Variable starts : list (R * St).
Variable pi : A0 -> St -> Ac -> R.
(** The distributions of one draw of an environment's generator and of the policy's *)
Variables (mue : list (R * Oe)) (mua : list (R * Oa)).
Hypothesis Me : mean mue (fun _ => 1) = 1.
Hypothesis Ma : mean mua (fun _ => 1) = 1.
Hypothesis Hpol : forall g s f, mean mua (fun w => f (pol g s w)) = rsum (map (fun a => pi g s a * f a) acts).
Hypothesis Hout : forall s a f, mean mue (fun w => f (out s a w)) = rsum (map (fun k => let '(p, s', r, ab) := k in p * f (s', r, ab)) (kern s a)).
Hypothesis Hinit : forall f, mean mue (fun w => f (init w)) = mean starts f.
Notation epis := (epis acts kern starts pi).
Notation expected_return := (expected_return acts kern starts pi).
Notation return_variance := (return_variance acts kern starts pi).
Notation W0 := (W_of n hor garb []).

Lemma xloop_more : forall cap f f' s s', (f <= f')%nat -> xloop n hor garb ER ES DR FT f cap s = XDone s' -> xloop n hor garb ER ES DR FT f' cap s = XDone s'.
Proof.
  intros cap. induction f as [|f IH]; intros f' s s' L H.
  - cbn [xloop] in H. destruct f'; cbn [xloop]; destruct (CoreModel.move_required _) as [[]|]; congruence.
  - destruct f' as [|f']; [lia|]. cbn [xloop] in *. destruct (CoreModel.move_required _) as [[]|]; try assumption.
    destruct (xiterate n hor garb ER ES DR FT cap s); [|discriminate]. apply IH; [lia|exact H].
Qed.

(** The dataset of an evaluation consists of the episodes of an abstract run. *)
Lemma evaluate_is : forall N f ss g l tes ta, CoreModel.n_episodes_per_fit l = None -> length ss = n -> length tes = n -> (N * S h <= f)%nat ->
  exists cap l2, cap = (S h * N)%nat /\ CoreModel.initialize_run (CoreModel.initialize_evaluate l) None (Some N) (@None (list nat)) = Some l2 /\
   let es := concat (map fst (snd (arun de da init out pol fit0 h n garb cap (N * S h) (vstart W0 cap l2) g (repeat ([], None) n) tes ta))) in
   eval f l (envs_of ss tes) (g, ta) N = Some (concat es) /\ Forall (is_episode (@CoreModel.last St Ac R unit)) es /\ length es = N /\
   (forall s0, clean (Wg n hor garb ER ES DR FT cap s0) VNever (VBEps N) cap) /\
   forall tes' ta', length tes' = n ->
     Rep de da init out pol fit0 h n garb cap VNever (VBEps N) (vstart W0 cap l2) g (repeat ([], None) n) (mkX (vstart W0 cap l2) (envs_of ss tes') (g, ta') [] []) tes' ta'.
Proof.
  intros N f ss g l tes ta He Ls Lt Hf. exists (S h * N)%nat. eexists. split; [reflexivity|]. split; [reflexivity|]. cbv zeta.
  match goal with |- context [vstart W0 _ ?l2] => set (lg := l2) end.
  assert (RS : forall tes' ta', length tes' = n -> Rep de da init out pol fit0 h n garb (S h * N) VNever (VBEps N) (vstart W0 (S h * N) lg) g (repeat ([], None) n)
     (mkX (vstart W0 (S h * N) lg) (envs_of ss tes') (g, ta') [] []) tes' ta').
  { intros tes' ta' Lt'. apply rep_start; try reflexivity; try assumption; cbn; auto. }
  assert (Hc : forall s0, clean (Wg n hor garb ER ES DR FT (S h * N) s0) VNever (VBEps N) (S h * N)) by (intros s0; exists (S h); split; reflexivity).
  destruct (sim_loop de da init out pol fit0 h n Hn garb (S h * N) VNever N I I Hc (N * S h) _ g _ _ tes ta (RS tes ta Lt) ltac:(lia)) as (s' & XL & r' & tes' & ta' & Hm & RP).
  destruct (never_data de da init out pol fit0 h n Hn garb (S h * N) N _ _ _ _ _ _ RP Hm) as (RD & FE & MN).
  split; [|split; [exact FE|split; [exact MN|split; [exact Hc|exact RS]]]].
  unfold xdataset, xevaluate. cbn [vcapacity W_of vhorizon CoreModel.initialize_run CoreModel.initialize_evaluate].
  pose proof (xloop_more _ _ f _ _ Hf XL) as XF. fold lg. match goal with |- context [xloop n hor garb ER ES DR FT f ?c ?s] => change (xloop n hor garb ER ES DR FT f c s) with (xloop n hor garb ER ES DR FT f (S h * N) (mkX (vstart W0 (S h * N) lg) (envs_of ss tes) (g, ta) [] [])) end.
  rewrite XF. exact RD.
Qed.

Lemma veval_exp : forall N f ss g l lens na (G : option (list row) -> R) (F : list (list row) -> R),
  CoreModel.n_episodes_per_fit l = None -> symmetric F -> length ss = n -> length lens = n -> (N * S h <= f)%nat ->
  Forall (fun len => 2 * (N * S h) <= len)%nat lens -> (n * (N * S h) <= na)%nat ->
  (forall es, length es = N -> Forall (is_episode (@CoreModel.last St Ac R unit)) es -> G (Some (concat es)) = F es) ->
  vtapes lens na mue mua (fun tes ta => G (eval f l (envs_of ss tes) (g, ta) N)) = mean (batches N (epis g h)) F.
Proof.
  intros N f ss g l lens na G F He HF Ls Ll Hf Hl Hna HG.
  destruct (evaluate_is N f ss g l (repeat [] n) [] He Ls (repeat_length _ _) Hf) as (cap & l2 & -> & E2 & _ & _ & _ & Hc & RS).
  rewrite (Ev_ext mue mua lens na _ (fun tes ta => F (concat (map fst (snd (arun de da init out pol fit0 h n garb (S h * N) (N * S h) (vstart W0 (S h * N) l2) g (repeat ([], None) n) tes ta)))))).
  - rewrite (eval_loop_exp de da init out pol fit0 h n Hn garb acts kern starts pi mue mua Me Ma Hpol Hout Hinit (S h * N) N Hc F HF (N * S h)%nat _ g _ lens na); try assumption.
    + rewrite made_repeat, (idle_live _ (idle_repeat n)), !Nat.sub_0_r. apply V_start.
    + intros tes ta L. eexists. apply RS. exact L.
    + cbn [vstart v_log vl]. lia.
  - intros tes ta L. destruct (evaluate_is N f ss g l tes ta He Ls ltac:(congruence) Hf) as (cap & l3 & -> & E3 & EV & FE & LN & _ & _).
    rewrite E2 in E3. injection E3 as <-. cbv zeta in EV. rewrite EV. apply HG; assumption.
Qed.

(** C119.  The episodes in the dataset of [evaluate(n_episodes=N)] on n environments are, up to their
    order, N independent episodes of the policy. *)
Theorem vector_core_evaluate_distribution : forall N f ss g l lens na (F : list (list row) -> R),
  CoreModel.n_episodes_per_fit l = None -> symmetric F -> length ss = n -> length lens = n -> (N * S h <= f)%nat ->
  Forall (fun len => 2 * (N * S h) <= len)%nat lens -> (n * (N * S h) <= na)%nat ->
  vtapes lens na mue mua (fun tes ta =>
    match eval f l (envs_of ss tes) (g, ta) N with Some d => F (complete (@CoreModel.last St Ac R unit) d) | None => 0 end)
  = mean (batches N (epis g h)) F.
Proof.
  intros N f ss g l lens na F He HF Ls Ll Hf Hl Hna.
  apply (veval_exp N f ss g l lens na (fun o => match o with Some d => F (complete (@CoreModel.last St Ac R unit) d) | None => 0 end)); try assumption.
  intros es _ FE. rewrite (proj1 (complete_of_episodes _ _ _ FE)). reflexivity.
Qed.

Lemma average_sym : forall B (X : B -> R), symmetric (fun b => average (map X b)).
Proof.
  intros B X b b' P. unfold average. rewrite !map_length, (Permutation_length P). f_equal. clear -P. induction P; cbn [map rsum]; lra.
Qed.

(** The mean of [dataset.compute_J(gamma)] is an unbiased estimate of the expected return, its mean
    squared error is the variance of the return divided by N, and it converges in probability. *)
Theorem vector_core_evaluate_unbiased : forall gamma N f ss g l lens na, (1 <= N)%nat ->
  CoreModel.n_episodes_per_fit l = None -> length ss = n -> length lens = n -> (N * S h <= f)%nat ->
  Forall (fun len => 2 * (N * S h) <= len)%nat lens -> (n * (N * S h) <= na)%nat ->
  let mean_J tes ta := vreport gamma (eval f l (envs_of ss tes) (g, ta) N) in
  vtapes lens na mue mua mean_J = expected_return gamma h g /\
  vtapes lens na mue mua (fun tes ta => (mean_J tes ta - expected_return gamma h g) ^ 2) = return_variance gamma h g / INR N /\
  ((forall w e, In (w, e) (epis g h) -> 0 <= w) -> forall eps, 0 < eps ->
   vtapes lens na mue mua (fun tes ta => if Rle_dec eps (Rabs (mean_J tes ta - expected_return gamma h g)) then 1 else 0)
   <= return_variance gamma h g / (INR N * eps ^ 2)).
Proof.
  intros gamma N f ss g l lens na HN He Ls Ll Hf Hl Hna. cbv zeta.
  pose proof (epis_mass init out pol acts kern starts pi mue mua Me Ma Hpol Hout Hinit h g) as M1.
  pose proof (epis_gain out pol acts kern starts pi mue mua Me Ma Hpol Hout gamma h g) as Eg.
  assert (K : forall H : R -> R, vtapes lens na mue mua (fun tes ta => H (vreport gamma (eval f l (envs_of ss tes) (g, ta) N)))
    = mean (batches N (epis g h)) (fun b => H (average (map (gain gamma) b)))).
  { intros H. apply (veval_exp N f ss g l lens na (fun o => H (vreport gamma o))); try assumption.
    - intros b b' P. f_equal. apply average_sym. exact P.
    - intros es L FE. cbn [vreport]. rewrite report_episodes; [reflexivity| |exact FE]. destruct es; [cbn in L; lia|discriminate]. }
  split; [|split].
  - rewrite (K (fun x => x)). rewrite average_mean by assumption. exact Eg.
  - rewrite (K (fun x => (x - expected_return gamma h g) ^ 2)). unfold SampSpec.return_variance. rewrite <- Eg. apply average_variance; assumption.
  - intros P eps Hp. rewrite (K (fun x => if Rle_dec eps (Rabs (x - expected_return gamma h g)) then 1 else 0)).
    unfold SampSpec.return_variance. rewrite <- Eg. apply average_prob; assumption.
Qed.

(** Learning: an agent whose fit does not depend on the order in which the episodes are listed sees,
    m times in a row, k independent episodes of the policy that it has at that moment. *)
Theorem vector_core_learn_on_policy : forall k m q f ss g l lens na (F : A0 -> R),
  (forall g d d', Forall (is_episode (@CoreModel.last St Ac R unit)) d -> Permutation d d' -> fit0 g (concat d) = fit0 g (concat d')) ->
  (1 <= k)%nat -> (q < k)%nat -> length ss = n -> length lens = n -> ((m * k + q) * S h <= f)%nat ->
  Forall (fun len => 2 * ((m * k + q) * S h) <= len)%nat lens -> (n * ((m * k + q) * S h) <= na)%nat ->
  vtapes lens na mue mua (fun tes ta =>
    match lrn f l (envs_of ss tes) (g, ta) (m * k + q)%nat k with XDone s => F (fst (x_ag s)) | _ => 0 end)
  = on_policy acts kern starts pi fit0 k h m F g.
Proof.
  intros k m q f ss g l lens na F Hsym Hk Hq Ls Ll Hf Hl Hna. set (N := (m * k + q)%nat) in *. set (cap := (S h * k)%nat).
  unfold xlearn. cbn [CoreModel.initialize_learn vcapacity W_of vhorizon CoreModel.initialize_run].
  match goal with |- context [vstart ?w ?c ?l2] => set (lg := l2); change w with W0; change c with cap end.
  assert (RS : forall tes' ta', length tes' = n -> Rep de da init out pol fit0 h n garb cap (VEps k) (VBEps N) (vstart W0 cap lg) g (repeat ([], None) n)
     (mkX (vstart W0 cap lg) (envs_of ss tes') (g, ta') [] []) tes' ta').
  { intros tes' ta' Lt'. apply rep_start; try reflexivity; try assumption; cbn; auto. }
  assert (Hc : forall s0, clean (Wg n hor garb ER ES DR FT cap s0) (VEps k) (VBEps N) cap) by (intros s0; exists (S h); split; reflexivity).
  rewrite (Ev_ext mue mua lens na _ (fun tes ta => F (fst (arun de da init out pol fit0 h n garb cap (N * S h) (vstart W0 cap lg) g (repeat ([], None) n) tes ta)))).
  - assert (E : vtapes lens na mue mua (fun tes ta => F (fst (arun de da init out pol fit0 h n garb cap (N * S h) (vstart W0 cap lg) g (repeat ([], None) n) tes ta)))
       = V h acts kern starts pi g (repeat ([], None) n) (k - made (repeat (@nil (list row), @None (list row * St * nat)) n) - live (repeat (@nil (list row), @None (list row * St * nat)) n))
           (Fm fit0 h acts kern starts pi k F (m - nfits (vstart W0 cap lg)) g)).
    { apply (learn_loop_exp de da init out pol fit0 h n Hn garb acts kern starts pi mue mua Me Ma Hpol Hout Hinit cap k m q Hk Hq Hc Hsym F); try assumption.
      - intros tes ta L. eexists. apply RS. exact L.
      - cbn [vstart v_log vl]. fold N. lia. }
    rewrite E. rewrite made_repeat, (idle_live _ (idle_repeat n)). replace (k - 0 - 0)%nat with k by lia. rewrite V_start.
    replace (m - nfits (vstart W0 cap lg))%nat with m by (cbn; lia). apply (Fm_start init out pol fit0 h acts kern starts pi mue mua Me Ma Hpol Hout Hinit).
  - intros tes ta L. assert (L' : length tes = n) by congruence.
    destruct (sim_loop de da init out pol fit0 h n Hn garb cap (VEps k) N I Hk Hc (N * S h) _ g _ _ tes ta (RS tes ta L') ltac:(lia)) as (s' & XL & r' & tes' & ta' & _ & RP).
    rewrite (xloop_more _ _ f _ _ Hf XL). rewrite (p_ag _ _ _ _ _ _ _ _ _ _ _ _ _ _ _ _ _ _ RP). reflexivity.
Qed.
End Props.

(** ** REINFORCE and GPOMDP *)
Lemma rsum_perm : forall B (X : B -> R) b b', Permutation b b' -> rsum (map X b) = rsum (map X b').
Proof. intros B X b b' P. induction P; cbn [map rsum]; lra. Qed.
Lemma filter_perm : forall B (p : B -> bool) b b', Permutation b b' -> Permutation (filter p b) (filter p b').
Proof.
  intros B p b b' P. induction P; cbn [filter].
  - constructor.
  - destruct (p x); [constructor|]; assumption.
  - destruct (p x), (p y); try apply Permutation_refl; constructor.
  - eapply Permutation_trans; eassumption.
Qed.
Lemma reinforce_gradient_perm : forall gamma b b' i, Permutation b b' -> reinforce_gradient gamma b i = reinforce_gradient gamma b' i.
Proof.
  intros gamma b b' i P. unfold reinforce_gradient. assert (B : reinforce_baseline gamma b i = reinforce_baseline gamma b' i)
    by (unfold reinforce_baseline; rewrite (rsum_perm _ _ _ _ P), (rsum_perm _ (fun e => score_of e i ^ 2) _ _ P); reflexivity).
  rewrite B, (rsum_perm _ _ _ _ P), (Permutation_length P). reflexivity.
Qed.
Lemma gpomdp_gradient_perm : forall gamma b b' i, Permutation b b' -> gpomdp_gradient gamma b b i = gpomdp_gradient gamma b' b' i.
Proof.
  intros gamma b b' i P. unfold gpomdp_gradient. assert (B : forall t, gpomdp_baseline gamma b t i = gpomdp_baseline gamma b' t i).
  { intros t. unfold gpomdp_baseline. pose proof (filter_perm _ (fun e : list PgModel.sample => (t <? length e)%nat) _ _ P) as Q.
    rewrite (rsum_perm _ _ _ _ Q), (rsum_perm _ (fun e => score_upto e t i ^ 2) _ _ Q). reflexivity. }
  rewrite (Permutation_length P), <- (rsum_perm _ _ _ _ P). f_equal. apply rsum_map_ext. intros e _. apply rsum_map_ext. intros t _. rewrite B. reflexivity.
Qed.

Lemma small_perm : forall B (b b' : list B), Permutation b b' -> (length b <= 1)%nat -> b = b'.
Proof.
  intros B [|x [|y b]] b' P L; cbn in L; try lia.
  - apply Permutation_nil in P. auto.
  - apply Permutation_length_1_inv in P. auto.
Qed.

Section Pg.
Context {St Ac : Type}.
Variable dlog : vec -> St -> Ac -> vec.
Variable step : vec -> vec -> vec.
Notation row := (CoreModel.sample St Ac R unit).
Notation isep := (is_episode (@CoreModel.last St Ac R unit)).

Lemma seen_episodes : forall th (d : list (list row)), Forall isep d ->
  complete lst (seen_rows dlog th (concat d)) = map (seen_rows dlog th) d /\ unfinished lst (seen_rows dlog th (concat d)) = [].
Proof.
  intros th d F. unfold seen_rows at 1 3. rewrite concat_map. apply complete_of_episodes. apply Forall_map. eapply Forall_impl; [|exact F].
  intros e (b & x & -> & L & B). rewrite map_app. eexists _, _. split; [reflexivity|]. split; [exact L|]. apply Forall_map. exact B.
Qed.

Lemma reinforce_order : forall gamma g d d', Forall isep d -> Permutation d d' ->
  pg_learner dlog (fun ds => snd (pg_fit gamma reinforce rf0 ds)) step g (concat d) = pg_learner dlog (fun ds => snd (pg_fit gamma reinforce rf0 ds)) step g (concat d').
Proof.
  intros gamma g d d' F P. destruct (le_lt_dec (length d) 1) as [L|L]; [rewrite (small_perm _ _ _ P L); reflexivity|].
  assert (F' : Forall isep d') by (eapply Permutation_Forall; eassumption).
  assert (Q : forall d : list (list row), Forall isep d -> (1 < length d)%nat -> exists v, snd (pg_fit gamma reinforce rf0 (seen_rows dlog (fst g) (concat d))) = Some v /\
    forall i, v i = reinforce_gradient gamma (map (seen_rows dlog (fst g)) d) i).
  { intros d0 F0 L0. destruct (seen_episodes (fst g) d0 F0) as [C U]. pose proof (PgProps.reinforce_gradients gamma [seen_rows dlog (fst g) (concat d0)]) as G.
    assert (FF : Forall (fun ds => (1 < length (complete lst ds))%nat) [seen_rows dlog (fst g) (concat d0)]) by (repeat constructor; rewrite C, map_length; lia).
    specialize (G FF). cbn [pg_fits] in G. destruct (pg_fit gamma reinforce rf0 (seen_rows dlog (fst g) (concat d0))) as [s' gr]. inversion G as [|? ? ? ? (v & E & V) _]; subst.
    exists v. split; [reflexivity|]. intros i. rewrite V, C. reflexivity. }
  destruct (Q d F L) as (v & E & V). destruct (Q d' F' ltac:(rewrite <- (Permutation_length P); exact L)) as (v' & E' & V').
  unfold pg_learner. rewrite E, E'. assert (X : v = v'); [|rewrite X; reflexivity]. extensionality i. rewrite V, V'. apply reinforce_gradient_perm. apply Permutation_map. exact P.
Qed.
Lemma gpomdp_order : forall gamma g d d', Forall isep d -> Permutation d d' ->
  pg_learner dlog (fun ds => snd (pg_fit gamma gpomdp gp0 ds)) step g (concat d) = pg_learner dlog (fun ds => snd (pg_fit gamma gpomdp gp0 ds)) step g (concat d').
Proof.
  intros gamma g d d' F P. destruct (le_lt_dec (length d) 1) as [L|L]; [rewrite (small_perm _ _ _ P L); reflexivity|].
  assert (F' : Forall isep d') by (eapply Permutation_Forall; eassumption).
  assert (Q : forall d : list (list row), Forall isep d -> (1 < length d)%nat -> exists v, snd (pg_fit gamma gpomdp gp0 (seen_rows dlog (fst g) (concat d))) = Some v /\
    forall i, v i = gpomdp_gradient gamma (map (seen_rows dlog (fst g)) d) (map (seen_rows dlog (fst g)) d) i).
  { intros d0 F0 L0. destruct (seen_episodes (fst g) d0 F0) as [C U]. pose proof (PgProps.gpomdp_gradients_partial gamma [seen_rows dlog (fst g) (concat d0)]) as G.
    assert (FF : Forall (fun ds => (1 < length (complete lst ds))%nat /\ unfinished lst ds = []) [seen_rows dlog (fst g) (concat d0)])
      by (repeat constructor; [rewrite C, map_length; lia|exact U]).
    specialize (G FF). cbn [pg_fits] in G. destruct (pg_fit gamma gpomdp gp0 (seen_rows dlog (fst g) (concat d0))) as [s' gr]. inversion G as [|? ? ? ? (v & E & V) _]; subst.
    exists v. split; [reflexivity|]. intros i. rewrite V, C. reflexivity. }
  destruct (Q d F L) as (v & E & V). destruct (Q d' F' ltac:(rewrite <- (Permutation_length P); exact L)) as (v' & E' & V').
  unfold pg_learner. rewrite E, E'. assert (X : v = v'); [|rewrite X; reflexivity]. extensionality i. rewrite V, V'. apply gpomdp_gradient_perm. apply Permutation_map. exact P.
Qed.
End Pg.

(** An agent that learns with REINFORCE or GPOMDP and any optimizer: after
    [learn(n_episodes=m*k+q, n_episodes_per_fit=k)] its weights, and the last gradient, have the same
    distribution with [Core] on one environment and with [VectorCore] on n environments. *)
Theorem vector_core_learns_as_core : forall (St Ac Oe Oa : Type) (de : Oe) (da : Oa) (init : Oe -> St) (out : St -> Ac -> Oe -> St * R * bool) (pol : vec -> St -> Oa -> Ac)
    (dlog : vec -> St -> Ac -> vec) (step : vec -> vec -> vec) (gamma : R) (grad : list PgModel.sample -> option vec) (h n : nat) (garb : nat -> nat -> nat -> bool)
    (acts : list Ac) (kern : St -> Ac -> list (R * St * R * bool)) (starts : list (R * St)) (pi : vec -> St -> Ac -> R) (mue : list (R * Oe)) (mua : list (R * Oa)),
  (2 <= n)%nat -> mean mue (fun _ => 1) = 1 -> mean mua (fun _ => 1) = 1 ->
  (forall th s f, mean mua (fun w => f (pol th s w)) = rsum (map (fun a => pi th s a * f a) acts)) ->
  (forall s a f, mean mue (fun w => f (out s a w)) = rsum (map (fun k => let '(p, s', r, ab) := k in p * f (s', r, ab)) (kern s a))) ->
  (forall f, mean mue (fun w => f (init w)) = mean starts f) ->
  (grad = (fun ds => snd (pg_fit gamma reinforce rf0 ds)) \/ grad = (fun ds => snd (pg_fit gamma gpomdp gp0 ds))) ->
  forall k m q f f1 s0 ss th v0 l l1 lens na ne1 na1 (F : vec * option vec -> R),
  (1 <= k)%nat -> (q < k)%nat -> length ss = n -> length lens = n ->
  ((m * k + q) * S h <= f)%nat -> Forall (fun len => 2 * ((m * k + q) * S h) <= len)%nat lens -> (n * ((m * k + q) * S h) <= na)%nat ->
  ((m * k + q) * S h <= f1)%nat -> (m * (k * (h + 2)) <= ne1)%nat -> (m * (k * (h + 1)) <= na1)%nat ->
  let pol' := fun g : vec * option vec => pol (fst g) in
  vtapes lens na mue mua (fun tes ta =>
    match xlearn n (Some (S h)) garb (n_reset de init) (n_step de out) (n_draw da pol') (n_fit (pg_learner dlog grad step)) f l
            (envs_of ss tes) ((th, v0), ta) None (Some (m * k + q)%nat) None (Some k) with
    | XDone s => F (fst (x_ag s)) | _ => 0 end)
  = tapes ne1 na1 mue mua (fun te ta =>
    match CoreModel.learn (s_world de da init out pol' (pg_learner dlog grad step) h) f1 (s0, te) ((th, v0), ta) l1 None (Some (m * k + q)%nat) None (Some k) with
    | CoreModel.Done r => F (fst (CoreModel.r_ag r)) | _ => 0 end).
Proof.
  intros St Ac Oe Oa de da init out pol dlog step gamma grad h n garb acts kern starts pi mue mua Hn Me Ma Hpol Hout Hinit HG
    k m q f f1 s0 ss th v0 l l1 lens na ne1 na1 F Hk Hq Ls Ll Hf Hl Hna Hf1 Hne Hna1. cbv zeta.
  pose proof (fun g : vec * option vec => Hpol (fst g)) as Hpol'.
  rewrite (core_learn_on_policy de da init out (fun g => pol (fst g)) (pg_learner dlog grad step) h acts kern starts (fun g => pi (fst g)) mue mua Me Ma Hpol' Hout Hinit k m q f1 s0 (th, v0) l1 ne1 na1 F) by assumption.
  apply (vector_core_learn_on_policy de da init out (fun g => pol (fst g)) (pg_learner dlog grad step) h n Hn garb acts kern starts (fun g => pi (fst g)) mue mua Me Ma Hpol' Hout Hinit); try assumption.
  destruct HG as [-> | ->]; [apply reinforce_order|apply gpomdp_order].
Qed.

(** ** One random stream for all environments *)
(** One step per episode, reward 1 or 0 by a fair coin.  Two environments that draw from the same
    stream, as those of a [MultiprocessEnvironment] after [seed]: [evaluate(n_episodes=2)] sees the same
    episode twice, and its mean squared error is 1/4, the variance of the return, not the half of it. *)
Theorem shared_seed_variance_refuted :
  let init := fun _ : bool => tt in let out := fun (_ _ : unit) (w : bool) => (tt, if w then 1 else 0, true) in
  let pol := fun (_ : unit) (_ : unit) (_ : unit) => tt in
  let coin := [(/ 2, true); (/ 2, false)] in let mua := [(1, tt)] in
  let kern := fun _ _ : unit => [(/ 2, tt, 1, true); (/ 2, tt, 0, true)] in
  let pi := fun _ _ _ : unit => 1 in
  forall garb l, CoreModel.n_episodes_per_fit l = None ->
  let mean_J tes ta := vreport 1 (xdataset 2 (Some 1%nat) garb (xevaluate 2 (Some 1%nat) garb (n_reset false init) (n_step false out) (n_draw tt pol) (n_fit (fun (g : unit) _ => g))
                        2 l (envs_of [(tt, tt); (tt, tt)] tes) (tt, ta) None (Some 2%nat))) in
  let value := expected_return [tt] kern [(1, tt)] pi 1 0 tt in
  let var := return_variance [tt] kern [(1, tt)] pi 1 0 tt in
  vtapes [4%nat; 4%nat] 4 coin mua (fun tes ta => (mean_J tes ta - value) ^ 2) = var / 2 /\
  mean (batches 4 coin) (fun t => mean (batches 4 mua) (fun ta => (mean_J [t; t] ta - value) ^ 2)) = var /\ var = / 4.
Proof.
  cbv zeta. intros garb l He.
  set (kern := fun _ _ : unit => [(/ 2, tt, 1, true); (/ 2, tt, 0, true)]).
  assert (EV : expected_return [tt] kern [(1, tt)] (fun _ _ _ : unit => 1) 1 0 tt = / 2) by (unfold expected_return, mean; cbn; field).
  assert (VA : return_variance [tt] kern [(1, tt)] (fun _ _ _ : unit => 1) 1 0 tt = / 4) by (unfold return_variance; rewrite EV; unfold mean; cbn; field).
  split; [|split; [|exact VA]].
  - apply (vector_core_evaluate_unbiased false tt (fun _ : bool => tt) (fun (_ _ : unit) (w : bool) => (tt, if w then 1 else 0, true)) (fun (_ : unit) (_ : unit) (_ : unit) => tt)
      (fun (g : unit) _ => g) 0 2 (le_n 2) garb [tt] kern [(1, tt)] (fun _ _ _ => 1) [(/ 2, true); (/ 2, false)] [(1, tt)]); try assumption; try reflexivity.
    all: first [lia | solve [repeat constructor] | intros; unfold mean; try unfold kern; cbn; field].
  - rewrite VA, EV.
    assert (J : forall x y z w ta, length ta = 4%nat -> vreport 1 (xdataset 2 (Some 1%nat) garb (xevaluate 2 (Some 1%nat) garb (n_reset false (fun _ : bool => tt)) (n_step false (fun (_ _ : unit) (w : bool) => (tt, if w then 1 else 0, true)))
        (n_draw tt (fun _ _ _ : unit => tt)) (n_fit (fun (g : unit) _ => g)) 2 l (envs_of [(tt, tt); (tt, tt)] [[x; y; z; w]; [x; y; z; w]]) (tt, ta) None (Some 2%nat)))
        = if y then 1 else 0).
    { intros x y z w ta Lt. destruct ta as [|t1 [|t2 [|t3 [|t4 [|]]]]]; try discriminate Lt.
      match goal with |- vreport 1 ?o = _ => assert (Q : o = Some (repeat (CoreModel.mkS tt tt (if y then 1 else 0) tt true true tt tt) 2)) end.
      { destruct l. cbn in He. rewrite He. lazy -[Rplus Rmult Ropp Rinv Rminus Rdiv IZR INR]. reflexivity. }
      rewrite Q. cbn [vreport]. unfold average. destruct y; cbn; field. }
    assert (MB : mean [(/ 2, true); (/ 2, false)] (fun _ => 1) = 1) by (unfold mean; cbn; field).
    assert (MA : mean [(1, tt)] (fun _ => 1) = 1) by (unfold mean; cbn; field).
    rewrite (mean_ext _ _ _ (fun _ => / 4)).
    + apply mean_const, batches_mass, MB.
    + intros v t It. destruct (batches_in _ _ _ _ _ It) as [L _]. rewrite (mean_ext _ _ _ (fun _ => / 4)).
      * apply mean_const, batches_mass, MA.
      * intros v' ta Ia. destruct (batches_in _ _ _ _ _ Ia) as [L2 _]. destruct t as [|x [|y [|z [|w [|]]]]]; cbn in L; try lia. rewrite J by exact L2. destruct y; field.
Qed.

(** ** Example *)
(** Two environments and three episodes of one or two steps (a coin in the environment ends the
    episode, a coin in the policy is the reward): the second environment makes one long episode while
    the first makes two short ones.  Whatever the number of episodes the mean return is 5/8. *)
Example parallel_ex :
  let init := fun w : bool => w in let out := fun (s a w : bool) => (w, if a then 1 else 0, w) in
  let pol := fun (g : nat) (s w : bool) => w in
  let coin := [(/ 2, true); (/ 2, false)] in
  let ev garb f l ss tes ta N := xdataset 2 (Some 2%nat) garb (xevaluate 2 (Some 2%nat) garb (n_reset false init) (n_step false out) (n_draw false pol)
    (n_fit (fun (g : nat) d => (g + length d)%nat)) f l (envs_of ss tes) (0%nat, ta) None (Some N)) in
  (forall garb N f ss l lens na, (1 <= N)%nat -> CoreModel.n_episodes_per_fit l = None -> length ss = 2%nat -> length lens = 2%nat -> (N * 2 <= f)%nat ->
     Forall (fun len => 2 * (N * 2) <= len)%nat lens -> (2 * (N * 2) <= na)%nat ->
     vtapes lens na coin coin (fun tes ta => vreport (/ 2) (ev garb f l ss tes ta N)) = 5 / 8) /\
  (forall garb l ss, CoreModel.n_episodes_per_fit l = None -> length ss = 2%nat ->
     option_map (fun d => (map (@CoreModel.reward bool bool R unit) d, map (@CoreModel.last bool bool R unit) d))
       (ev garb 6%nat l ss [[false; true; false; true]; [false; false; false; true]] [true; true; false; true; true; true] 3%nat)
     = Some ([1; 0; 1; 1], [true; true; false; true])).
Proof.
  cbv zeta. split.
  - intros garb N f ss l lens na HN He Ls Ll Hf Hl Hna.
    destruct (vector_core_evaluate_unbiased false false (fun w : bool => w) (fun (s a w : bool) => (w, if a then 1 else 0, w)) (fun (g : nat) (s w : bool) => w)
      (fun (g : nat) d => (g + length d)%nat) 1 2 (le_n 2) garb [true; false]
      (fun (s a : bool) => [(/ 2, true, if a then 1 else 0, true); (/ 2, false, if a then 1 else 0, false)]) [(/ 2, true); (/ 2, false)] (fun _ _ _ => / 2)
      [(/ 2, true); (/ 2, false)] [(/ 2, true); (/ 2, false)]) with (gamma := / 2) (N := N) (f := f) (ss := ss) (g := 0%nat) (l := l) (lens := lens) (na := na) as [E _]; try assumption; try reflexivity.
    all: try (intros; unfold mean; cbn; try destruct a; cbn; field).
    eapply eq_trans; [exact E|]. unfold expected_return, mean. cbn. field.
  - intros garb l ss He Ls. destruct ss as [|[a b] [|[c d] [|]]]; try discriminate Ls. destruct l. cbn in He. rewrite He.
    lazy -[Rplus Rmult Ropp Rinv Rminus Rdiv IZR INR]. reflexivity.
Qed.

Print Assumptions vector_core_evaluate_distribution.
Print Assumptions vector_core_evaluate_unbiased.
Print Assumptions vector_core_learn_on_policy.
Print Assumptions vector_core_learns_as_core.
Print Assumptions shared_seed_variance_refuted.

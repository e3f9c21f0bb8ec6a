(** Theorems about SAC (C80) and DDPG/TD3 (C81). *)
From Coq Require Import List Arith Lia Reals Lra Bool FunctionalExtensionality.
From Verif Require Import Common Mat LqrGrad ParamModel DqnModel DqnProps GaussProofs SacModel.
Import ListNotations.
Local Open Scope R_scope.

(** * The squashed Gaussian policy *)
Lemma eps_lp_pos : 0 < eps_lp.
Proof. unfold eps_lp. apply Rinv_0_lt_compat. apply pow_lt. lra. Qed.
Lemma cosh_pos : forall u, 0 < cosh u.
Proof. intros u. unfold cosh. pose proof (exp_pos u). pose proof (exp_pos (- u)). lra. Qed.
Lemma tanh_deriv : forall u, derivable_pt_lim tanh u (1 - tanh u ^ 2).
Proof.
  intros u. pose proof (cosh_pos u) as P.
  eapply dl_eq; [apply (dl_div sinh cosh u (cosh u) (sinh u)); [apply derivable_pt_lim_sinh|apply derivable_pt_lim_cosh|lra]| |].
  - reflexivity.
  - unfold tanh, Rsqr. field. lra.
Qed.
Lemma tanh_sq : forall u, 0 < 1 - tanh u ^ 2.
Proof. intros u. pose proof (tanh_bounds u). nra. Qed.

(** The normal log density has unit mass in the sense of its derivative: it is the logarithm of the
    Gaussian density of the given mean and standard deviation. *)
Lemma norm_logp_exp : forall mu sd x, 0 < sd -> exp (norm_logp mu sd x) = / (sd * sqrt (2 * PI)) * exp (- ((x - mu) ^ 2) / (2 * sd ^ 2)).
Proof.
  intros mu sd x H. unfold norm_logp. pose proof PI_RGT_0. assert (P2 : 0 < sqrt (2 * PI)) by (apply sqrt_lt_R0; lra).
  replace (ln (2 * PI) / 2) with (ln (sqrt (2 * PI))).
  2:{ rewrite <- (sqrt_sqrt (2 * PI)) at 2 by lra. rewrite ln_mult by auto. field. }
  replace (- (x - mu) ^ 2 / (2 * sd ^ 2) - ln sd - ln (sqrt (2 * PI))) with (- (x - mu) ^ 2 / (2 * sd ^ 2) + (- ln (sd * sqrt (2 * PI)))) by (rewrite ln_mult by auto; ring).
  rewrite exp_plus, exp_Ropp, exp_ln by (apply Rmult_lt_0_compat; auto). ring.
Qed.

(** Log-probability. Let the raw component i have density [p i] at [raw i], let [H i] be the distribution function
    of the action component (so that it takes at the action of v the value the raw distribution function [G i] takes at v),
    with density [h i]. The value computed differs from the log density of the action by
    the logarithm of the half-width of the action range and a term from the 1e-6 offset. *)
Theorem sac_log_prob_density : forall n mu sd raw lo hi (G H : nat -> R -> R) (h : vec),
  (forall i, (i < n)%nat -> 0 < sd i /\ lo i < hi i) ->
  (forall i v, (i < n)%nat -> H i (sac_action v (lo i) (hi i)) = G i v) ->
  (forall i, (i < n)%nat -> derivable_pt_lim (G i) (raw i) (exp (norm_logp (mu i) (sd i) (raw i)))) ->
  (forall i, (i < n)%nat -> derivable_pt_lim (H i) (sac_action (raw i) (lo i) (hi i)) (h i)) ->
  (forall i, (i < n)%nat -> 0 < h i) /\
  sac_log_prob n mu sd raw = sm n (fun i => ln (h i)) + sm n (fun i => ln ((hi i - lo i) / 2)) - sm n (fun i => ln (1 + eps_lp / (1 - tanh (raw i) ^ 2))) /\
  0 <= sm n (fun i => ln (1 + eps_lp / (1 - tanh (raw i) ^ 2))) <= sm n (fun i => eps_lp / (1 - tanh (raw i) ^ 2)).
Proof.
  intros n mu sd raw lo hi G H h HP HG DG DH.
  assert (K : forall i, (i < n)%nat -> exp (norm_logp (mu i) (sd i) (raw i)) = h i * ((1 - tanh (raw i) ^ 2) * ((hi i - lo i) / 2))).
  { intros i Hi. apply (uniqueness_limite (G i) (raw i)); [apply DG; auto|].
    eapply dl_eq; [apply (dl_comp (fun v => sac_action v (lo i) (hi i)) (H i) (raw i) ((1 - tanh (raw i) ^ 2) * ((hi i - lo i) / 2)) (h i)); [|apply DH; auto]| |].
    - unfold sac_action. eapply dl_eq; [apply (dl_plus (fun v => tanh v * (1 / 2 * (hi i - lo i))) (fun _ => 1 / 2 * (hi i + lo i)) (raw i) ((1 - tanh (raw i) ^ 2) * (1 / 2 * (hi i - lo i))) 0); [apply dl_scal_r, tanh_deriv|apply dl_const]|reflexivity|field].
    - intros v. apply HG. auto.
    - ring. }
  assert (HH : forall i, (i < n)%nat -> 0 < h i).
  { intros i Hi. pose proof (K i Hi) as E. pose proof (exp_pos (norm_logp (mu i) (sd i) (raw i))) as PE. pose proof (tanh_sq (raw i)). destruct (HP i Hi).
    assert (0 < (1 - tanh (raw i) ^ 2) * ((hi i - lo i) / 2)) by (apply Rmult_lt_0_compat; lra). rewrite E in PE.
    destruct (Rle_or_lt (h i) 0); auto. nra. }
  split; [auto|]. split.
  - unfold sac_log_prob. rewrite <- sm_plus, <- !sm_minus. apply sm_ext. intros i Hi.
    rewrite <- (ln_exp (norm_logp (mu i) (sd i) (raw i))), K by auto. pose proof (tanh_sq (raw i)) as T. destruct (HP i Hi). pose proof (HH i Hi). pose proof eps_lp_pos.
    rewrite !ln_mult by (try apply Rmult_lt_0_compat; lra).
    replace (1 - tanh (raw i) ^ 2 + eps_lp) with ((1 - tanh (raw i) ^ 2) * (1 + eps_lp / (1 - tanh (raw i) ^ 2))) by (field; lra).
    assert (0 < eps_lp / (1 - tanh (raw i) ^ 2)) by (apply Rdiv_lt_0_compat; auto).
    rewrite ln_mult by lra. ring.
  - assert (PE : forall i, 0 < eps_lp / (1 - tanh (raw i) ^ 2)) by (intros; apply Rdiv_lt_0_compat; [apply eps_lp_pos|apply tanh_sq]).
    split.
    + apply sm_nonneg. intros i _. specialize (PE i). rewrite <- ln_1. left. apply ln_increasing; lra.
    + apply sm_le. intros i _. specialize (PE i). pose proof (ln_le_sub1 (1 + eps_lp / (1 - tanh (raw i) ^ 2)) ltac:(lra)). lra.
Qed.

(** The offset term never reaches the action scale: for a range of half-width e (or wider) the value
    computed is above the log density of the returned action by a fixed amount at every sample with
    tanh^2 at most 1 - 2e-6. *)
Theorem sac_log_prob_refuted : forall mu sd raw lo hi G H h, 0 < sd -> exp 1 <= (hi - lo) / 2 ->
  (forall v, H (sac_action v lo hi) = G v) ->
  derivable_pt_lim G raw (exp (norm_logp mu sd raw)) ->
  derivable_pt_lim H (sac_action raw lo hi) h ->
  2 * eps_lp <= 1 - tanh raw ^ 2 ->
  ln h + 1 / 2 <= sac_log_prob 1 (fun _ => mu) (fun _ => sd) (fun _ => raw).
Proof.
  intros mu sd raw lo hi G H h Hs HW HG DG DH HT. pose proof (exp_pos 1) as E1.
  destruct (sac_log_prob_density 1 (fun _ => mu) (fun _ => sd) (fun _ => raw) (fun _ => lo) (fun _ => hi) (fun _ => G) (fun _ => H) (fun _ => h)) as (_ & EQ & _ & UB); auto.
  - intros i _. split; auto. lra.
  - rewrite EQ. unfold sm in *. cbn [seq map rsum fold_right] in *.
    assert (L1 : 1 <= ln ((hi - lo) / 2)). { rewrite <- (ln_exp 1). destruct (Rle_lt_or_eq_dec _ _ HW) as [L|E]; [left; apply ln_increasing; auto|rewrite E; lra]. }
    assert (Q : eps_lp / (1 - tanh raw ^ 2) <= 1 / 2).
    { pose proof eps_lp_pos. apply Rmult_le_reg_r with (1 - tanh raw ^ 2); [lra|]. unfold Rdiv at 1. rewrite Rmult_assoc, Rinv_l by lra. lra. }
    simpl in *. lra.
Qed.

(** The standard deviation stays within the configured bounds. *)
Theorem sac_std_bounds : forall lmin lmax ls, lmin <= lmax ->
  exp lmin <= sac_std lmin lmax ls <= exp lmax /\ (lmin <= ls <= lmax -> sac_std lmin lmax ls = exp ls).
Proof.
  intros lmin lmax ls H. unfold sac_std.
  assert (ME : forall x y, x <= y -> exp x <= exp y) by (intros x y [L|E]; [left; apply exp_increasing; auto|subst; lra]).
  split.
  - split; apply ME; [apply Rmin_glb; [apply Rmax_r|auto]|apply Rmin_r].
  - intros [A B]. rewrite Rmax_left, Rmin_left by lra. reflexivity.
Qed.

(** * The entropy coefficient *)
Lemma lmean_affine : forall (lps : list R) c H, lps <> [] -> lmean (map (fun lp => c * (lp + H)) lps) = c * (lmean lps + H).
Proof.
  intros lps c H NE. unfold lmean. rewrite map_length.
  assert (L : rsum (map (fun lp => c * (lp + H)) lps) = c * (rsum lps + INR (length lps) * H)).
  { clear NE. induction lps as [|x l IH]; [simpl; ring|]. cbn [map rsum fold_right length] in *. rewrite S_INR. unfold rsum in *. simpl in *. rewrite IH. ring. }
  rewrite L. field. apply not_0_INR. destruct lps; [congruence|simpl; lia].
Qed.

(** Both forms of the loss push log_alpha up exactly when the sampled entropy (minus the mean
    log-probability) is below the target, and down when it is above. *)
Theorem sac_alpha_gradient : forall form H lps la, lps <> [] ->
  exists g, derivable_pt_lim (alpha_loss form H lps) la g /\
    (g < 0 <-> - lmean lps < H) /\ (0 < g <-> H < - lmean lps) /\
    (form = true -> g = - lmean lps - H) /\ (form = false -> g = exp la * (- lmean lps - H)).
Proof.
  intros form H lps la NE. pose proof (exp_pos la) as PE.
  exists (if form then - lmean lps - H else exp la * (- lmean lps - H)). split; [|destruct form].
  - destruct form; unfold alpha_loss.
    + eapply dl_eq; [apply (dl_scal (- (lmean lps + H)) (fun u => u) la 1); apply dl_id| |ring]. intros u. cbv beta. rewrite lmean_affine by auto. ring.
    + eapply dl_eq; [apply (dl_scal (- (lmean lps + H)) exp la (exp la)); apply derivable_pt_lim_exp| |ring]. intros u. cbv beta. rewrite lmean_affine by auto. ring.
  - split; [lra|]. split; [lra|]. split; [auto|discriminate].
  - split; [split; intros; nra|]. split; [split; intros; nra|]. split; [discriminate|auto].
Qed.

(** * Warm-up *)
Section Run.
Context {P Bt : Type}.
Variable log_probs : P -> Bt -> list R.
Variable actor_step : P -> R -> list (list R) -> Bt -> P.
Variable alpha_step : R -> (R -> R) -> R.
Variable critic_fit : list (list R) -> (P * R * list (list R)) -> Bt -> list (list R).
Variables (log_form : bool) (target_entropy : R) (tau : nat -> R).
Notation fit warmup := (sac_fit log_probs actor_step alpha_step critic_fit warmup log_form target_entropy tau).
Notation run warmup := (sac_run log_probs actor_step alpha_step critic_fit warmup log_form target_entropy tau).

(** Only the fits with an initialised memory holding more than the warm-up transitions train the actor: removing the other
    fits does not change how often it is trained, and before the first of them actor and
    entropy coefficient are the initial ones. *)
Definition training (warmup : nat) (x : bool * nat * Bt) : bool := andb (fst (fst x)) (Nat.ltb warmup (snd (fst x))).
Theorem sac_warmup : forall warmup xs st,
  existsb (training warmup) xs = false -> s_pi (run warmup st xs) = s_pi st /\ s_la (run warmup st xs) = s_la st.
Proof.
  intros warmup xs. induction xs as [|[[i s] b] xs IH]; intros st H; [auto|]. cbn [existsb] in H. apply orb_false_iff in H. destruct H as [H1 H2].
  cbn [sac_run fold_left]. fold (run warmup (fit warmup st (i, s, b)) xs). destruct (IH (fit warmup st (i, s, b)) H2) as [A B]. unfold sac_run in *. rewrite A, B.
  unfold training in H1. cbn [fst snd] in H1. cbn [sac_fit]. destruct i; [|auto]. cbn [andb] in H1. rewrite H1. auto.
Qed.

(** The memory never holds more than its capacity: with warmup_transitions at or above the capacity
    the actor is never trained, whatever the number of collected transitions. *)
Theorem sac_warmup_refuted : forall capacity warmup (xs : list (bool * nat * Bt)) st,
  (capacity <= warmup)%nat -> (forall x, In x xs -> (snd (fst x) <= capacity)%nat) ->
  s_pi (run warmup st xs) = s_pi st /\ s_la (run warmup st xs) = s_la st.
Proof.
  intros capacity warmup xs st HC HX. apply sac_warmup. apply not_true_is_false. intros E. apply existsb_exists in E. destruct E as ([[i s] b] & HI & HT).
  specialize (HX _ HI). unfold training in HT. cbn [fst snd] in *. apply andb_true_iff in HT. destruct HT as [_ HT]. apply Nat.ltb_lt in HT. lia.
Qed.

Lemma update_target_nth : forall t0 online target k i o t, nth_error online i = Some o -> nth_error target i = Some t ->
  nth_error (update_target t0 k online target) i = Some (soft_update (t0 (k + i)%nat) o t).
Proof.
  intros t0 online. induction online as [|o0 l IH]; intros [|x target] k [|i] o t H1 H2; try discriminate.
  - simpl in *. rewrite Nat.add_0_r. congruence.
  - cbn [update_target nth_error] in *. rewrite (IH target (S k) i o t H1 H2). rewrite Nat.add_succ_r. reflexivity.
Qed.
(** What each fit of a run uses: the actor is trained against the critics before the fit, the entropy coefficient on the log-probabilities of the actor
    before the fit, the critics on targets of the new actor, the new coefficient and the old target critics; then each target critic moves towards its
    new critic. Without an initialised memory nothing changes. *)
Theorem sac_fit_order : forall warmup xs init size b st,
  let s0 := run warmup st xs in let s1 := run warmup st (xs ++ [(init, size, b)]) in
  (init = false -> s1 = s0) /\
  (init = true ->
    ((warmup < size)%nat -> s_pi s1 = actor_step (s_pi s0) (s_la s0) (s_q s0) b /\
       s_la s1 = alpha_step (s_la s0) (alpha_loss log_form target_entropy (log_probs (s_pi s0) b))) /\
    ((size <= warmup)%nat -> s_pi s1 = s_pi s0 /\ s_la s1 = s_la s0) /\
    s_q s1 = critic_fit (s_q s0) (s_pi s1, s_la s1, s_tq s0) b /\
    forall i o t, nth_error (s_q s1) i = Some o -> nth_error (s_tq s0) i = Some t ->
      exists v, nth_error (s_tq s1) i = Some v /\ v = map (fun ot => tau (s_k s0 + i)%nat * fst ot + (1 - tau (s_k s0 + i)%nat) * snd ot) (combine o t)).
Proof.
  intros warmup xs init size b st s0 s1. unfold s1, sac_run. rewrite fold_left_app. fold (run warmup st xs). fold s0. cbn [fold_left sac_fit].
  split; intros ->; [reflexivity|]. cbn [s_pi s_la s_q s_tq]. split; [|split; [|split]].
  - intros L. apply Nat.ltb_lt in L. rewrite L. auto.
  - intros L. destruct (Nat.ltb_spec warmup size); [lia|]. auto.
  - destruct (Nat.ltb warmup size); reflexivity.
  - intros i o t H1 H2. exists (soft_update (tau (s_k s0 + i)%nat) o t). split; [|reflexivity]. apply update_target_nth; assumption.
Qed.
End Run.

(** The actor loss takes, row by row, the smaller of the two critics. *)
Theorem sac_actor_loss : forall la rows, exists qs, 
  Forall2 (fun q x => (q = snd (fst x) \/ q = snd x) /\ q <= snd (fst x) /\ q <= snd x) qs (rows : list (R * R * R)) /\
  sac_loss la rows * INR (length rows) = exp la * rsum (map (fun x => fst (fst x)) rows) - rsum qs.
Proof.
  intros la rows. exists (map (fun x => Rmin (snd (fst x)) (snd x)) rows). split.
  - induction rows as [|[[l q0] q1] rows IH]; simpl; constructor; auto. simpl. split; [unfold Rmin; destruct (Rle_dec q0 q1); auto|]. split; [apply Rmin_l|apply Rmin_r].
  - destruct rows as [|x0 rows0] eqn:E; [simpl; lra|]. rewrite <- E. unfold sac_loss, lmean. rewrite map_length.
    assert (N : INR (length rows) <> 0) by (rewrite E; apply not_0_INR; simpl; lia). unfold Rdiv. rewrite Rmult_assoc, Rinv_l by exact N. rewrite Rmult_1_r.
    clear E N x0 rows0. induction rows as [|[[l q0] q1] rows IH]; simpl; [lra|]. rewrite IH. unfold rsum. lra.
Qed.

(** * Soft updates with a coefficient parameter *)
(** With a constant coefficient all models of an ensemble are blended alike. *)
Theorem soft_update_ensemble : forall c k online target, length online = length target ->
  update_target (fun _ => c) k online target = map (fun ot => soft_update c (fst ot) (snd ot)) (combine online target).
Proof.
  intros c k online. revert k. induction online as [|o l IH]; intros k [|t tl] H; try discriminate; auto.
  cbn [update_target combine map fst snd]. f_equal. apply IH. auto.
Qed.
(** With a decaying one they are not: the parameter is called once per model. *)
Theorem soft_update_ensemble_refuted : exists p vs p', linear_init 1 0 4 1 = Some p /\ p_calls p [0; 0]%nat = Some (vs, p') /\
  update_target (fun k => nth k vs 0) 0 [[1]; [1]] [[0]; [0]] = [[3 / 4]; [1 / 2]].
Proof.
  unfold linear_init. cbn [Nat.eqb].
  destruct (Rle_dec 0 ((0 - 1) / INR 4)) as [L|L]; [exfalso; simpl in L; lra|].
  eexists. eexists. eexists. split; [reflexivity|]. split; [reflexivity|].
  cbn [update_target soft_update combine map fst snd nth]. simpl INR. unfold np_clip. cbn [p_min p_max p_v0 p_n p_kind]. simpl INR. rewrite !Rmax_left by lra.
  f_equal; [|f_equal]; f_equal; field.
Qed.

(** * DDPG and TD3: delayed actor updates *)
Section Delay.
Context {A Bt : Type}.
Variable actor_step : A -> list (list R) -> Bt -> A.
Variable critic_fit : list (list R) -> (A * list (list R)) -> Bt -> list (list R).
Variable blend : nat -> A -> A -> A.
Variables (delay : nat) (tau : nat -> R).
Notation fit := (ddpg_fit actor_step critic_fit blend delay tau).
Notation run := (ddpg_run actor_step critic_fit blend delay tau).

(** the batches of the fits with an initialised memory *)
Definition batches (xs : list (bool * Bt)) : list Bt := map snd (filter fst xs).
(** every [delay]-th element, from the first *)
Definition every (n : nat) (l : list Bt) : list Bt :=
  map snd (filter (fun p => Nat.eqb (fst p mod delay) 0) (combine (seq n (length l)) l)).

Lemma every_cons : forall n b l, every n (b :: l) = (if Nat.eqb (n mod delay) 0 then [b] else []) ++ every (S n) l.
Proof. intros. unfold every. cbn [length seq combine filter fst]. destruct (Nat.eqb (n mod delay) 0); reflexivity. Qed.

Lemma every_nth : (1 <= delay)%nat -> forall l n off k, (off < delay)%nat -> ((n + off) mod delay = 0)%nat ->
  nth_error (every n l) k = nth_error l (off + k * delay).
Proof.
  intros HD. induction l as [|b l IH]; intros n off k Ho Hm.
  - unfold every. simpl. destruct k; destruct off; simpl; auto; destruct (delay + k * delay)%nat; auto.
  - rewrite every_cons. destruct (Nat.eqb_spec (n mod delay) 0) as [Z|Z].
    + assert (off = 0)%nat.
      { rewrite Nat.add_mod in Hm by lia. rewrite Z in Hm. simpl in Hm. rewrite !Nat.mod_small in Hm by (try apply Nat.mod_upper_bound; lia). auto. }
      subst off. destruct k as [|k]; [reflexivity|]. cbn [app nth_error]. rewrite (IH (S n) (delay - 1)%nat k).
      * replace (0 + S k * delay)%nat with (S (delay - 1 + k * delay)) by lia. reflexivity.
      * lia.
      * replace (S n + (delay - 1))%nat with (n + 1 * delay)%nat by lia. rewrite Nat.mod_add by lia. auto.
    + destruct off as [|off]; [rewrite Nat.add_0_r in Hm; congruence|]. cbn [app]. rewrite (IH (S n) off k); [reflexivity|lia|].
      replace (S n + off)%nat with (n + S off)%nat by lia. auto.
Qed.

Lemma ddpg_run_inv : forall xs st, d_count (run st xs) = (d_count st + length (batches xs))%nat /\
  exists cs, map snd cs = every (d_count st) (batches xs) /\
    d_pi (run st xs) = fold_left (fun a cb => actor_step a (fst cb) (snd cb)) cs (d_pi st).
Proof.
  induction xs as [|[i b] xs IH]; intros st.
  - split; [simpl; lia|]. exists []. split; reflexivity.
  - cbn [ddpg_run fold_left]. fold (run (fit st (i, b)) xs). destruct (IH (fit st (i, b))) as (C & cs & E & F). unfold ddpg_run in *.
    destruct i; cbn [ddpg_fit] in *.
    + change (batches ((true, b) :: xs)) with (b :: batches xs). cbn [d_count] in *. split; [rewrite C; simpl; lia|].
      rewrite every_cons. set (q' := critic_fit (d_q st) (d_tpi st, d_tq st) b) in *.
      destruct (Nat.eqb (d_count st mod delay) 0) eqn:M.
      * exists ((q', b) :: cs). split; [simpl; f_equal; exact E|]. rewrite F. reflexivity.
      * exists cs. split; [exact E|]. rewrite F. reflexivity.
    + change (batches ((false, b) :: xs)) with (batches xs). split; auto. exists cs. auto.
Qed.

(** From a fresh agent, the actor is trained on the batches of the 1st, (d+1)-th, (2d+1)-th, ... fits with an initialised memory, in
    order and on no other; the fit counter counts these fits. *)
Theorem ddpg_actor_schedule : forall xs st, d_count st = 0%nat -> (1 <= delay)%nat ->
  d_count (run st xs) = length (batches xs) /\
  exists cs, d_pi (run st xs) = fold_left (fun a cb => actor_step a (fst cb) (snd cb)) cs (d_pi st) /\
    length cs = ((length (batches xs) + delay - 1) / delay)%nat /\
    forall k b, nth_error (batches xs) (k * delay) = Some b <-> nth_error (map snd cs) k = Some b.
Proof.
  intros xs st C0 HD. destruct (ddpg_run_inv xs st) as (C & cs & E & F). rewrite C0 in *. split; [rewrite C; lia|]. exists cs. split; auto.
  assert (G : forall k, nth_error (map snd cs) k = nth_error (batches xs) (k * delay)).
  { intros k. rewrite E. rewrite (every_nth HD (batches xs) 0 0 k) by (try apply Nat.mod_0_l; lia). reflexivity. }
  split.
  - assert (K : forall k, (k < length cs <-> k * delay < length (batches xs))%nat).
    { intros k. rewrite <- (map_length snd cs), <- !nth_error_Some, G. tauto. }
    assert (U : ~ (length cs * delay < length (batches xs))%nat) by (rewrite <- K; lia).
    assert (V : length cs = 0%nat \/ ((length cs - 1) * delay < length (batches xs))%nat).
    { destruct (length cs) as [|c] eqn:EC; auto. right. apply K. lia. }
    destruct V as [V|V].
    + rewrite V in *. assert (length (batches xs) = 0)%nat by lia. rewrite H. symmetry. apply Nat.div_small. lia.
    + assert (length cs <> 0)%nat by (intros Z; rewrite Z in *; cbn in V; lia).
      apply (Nat.div_unique _ _ _ (length (batches xs) + delay - 1 - delay * length cs)); nia.
  - intros k b. rewrite G. tauto.
Qed.

(** What each fit of a run uses: the critics are trained on targets of the target actor and target critics before the fit, the actor (when its turn comes)
    against the new critics, then the targets move towards the new critics and the new actor. *)
Theorem ddpg_fit_order : forall xs init b st,
  let s0 := run st xs in let s1 := run st (xs ++ [(init, b)]) in
  (init = false -> s1 = s0) /\
  (init = true ->
    d_q s1 = critic_fit (d_q s0) (d_tpi s0, d_tq s0) b /\
    (d_pi s1 = actor_step (d_pi s0) (d_q s1) b \/ d_pi s1 = d_pi s0) /\
    d_tpi s1 = blend (d_k s0 + length (d_tq s0)) (d_pi s1) (d_tpi s0) /\
    forall i o t, nth_error (d_q s1) i = Some o -> nth_error (d_tq s0) i = Some t ->
      exists v, nth_error (d_tq s1) i = Some v /\ v = map (fun ot => tau (d_k s0 + i)%nat * fst ot + (1 - tau (d_k s0 + i)%nat) * snd ot) (combine o t)).
Proof.
  intros xs init b st s0 s1. unfold s1, ddpg_run. rewrite fold_left_app. fold (run st xs). fold s0. cbn [fold_left ddpg_fit].
  split; intros ->; [reflexivity|]. cbn [d_pi d_tpi d_q d_tq]. split; [|split; [|split]].
  - reflexivity.
  - destruct (Nat.eqb (d_count s0 mod delay) 0); auto.
  - destruct (Nat.eqb (d_count s0 mod delay) 0); reflexivity.
  - intros i o t H1 H2. exists (soft_update (tau (d_k s0 + i)%nat) o t). split; [|reflexivity]. apply update_target_nth; assumption.
Qed.
End Delay.

(** tanh(0) = 0 on a range of half-width one: only the offset is left *)
Example sac_log_prob_ex : sac_log_prob 1 (fun _ => 0) (fun _ => 1) (fun _ => 0) = - ln (2 * PI) / 2 - ln (1 + eps_lp).
Proof.
  unfold sac_log_prob, sm, norm_logp. cbn [seq map]. assert (T0 : tanh 0 = 0) by (unfold tanh, sinh; rewrite Ropp_0; unfold Rminus; rewrite Rplus_opp_r; unfold Rdiv; ring).
  rewrite T0, ln_1. unfold rsum. simpl. replace (1 - 0 * (0 * 1) + eps_lp) with (1 + eps_lp) by ring. field.
Qed.
(** the hypotheses of the density theorems hold for instance for the distribution function that is linear in the action *)
Example sac_log_prob_refuted_ex : ln (exp (norm_logp 0 1 0) / 10) + 1 / 2 <= sac_log_prob 1 (fun _ => 0) (fun _ => 1) (fun _ => 0).
Proof.
  assert (T0 : tanh 0 = 0) by (unfold tanh, sinh; rewrite Ropp_0; unfold Rminus; rewrite Rplus_opp_r; unfold Rdiv; ring).
  set (c := exp (norm_logp 0 1 0) / 10).
  apply (sac_log_prob_refuted 0 1 0 (-10) 10 (fun v => c * sac_action v (-10) 10) (fun a => c * a) c).
  - lra.
  - pose proof exp_le_3. lra.
  - reflexivity.
  - eapply dl_eq; [apply dl_scal; unfold sac_action; apply (dl_plus (fun v => tanh v * (1 / 2 * (10 - -10))) (fun _ => 1 / 2 * (10 + -10)) 0 ((1 - tanh 0 ^ 2) * (1 / 2 * (10 - -10))) 0); [apply dl_scal_r, tanh_deriv|apply dl_const]|reflexivity|].
    rewrite T0. unfold c. field.
  - eapply dl_eq; [apply (dl_scal c (fun a => a)); apply dl_id|reflexivity|ring].
  - rewrite T0. unfold eps_lp. rewrite Rmult_comm. apply Rmult_le_reg_l with (10 ^ 6); [apply pow_lt; lra|]. rewrite <- Rmult_assoc, Rinv_r by (apply pow_nonzero; lra). simpl. lra.
Qed.
Example sac_alpha_ex : derivable_pt_lim (alpha_loss true (-2) [1; 3]) 5 0.
Proof.
  destruct (sac_alpha_gradient true (-2) [1; 3] 5) as (g & D & _ & _ & E & _); [discriminate|]. rewrite E in D by auto.
  eapply dl_eq; [exact D|reflexivity|]. unfold lmean. simpl. lra.
Qed.
(** delay 2: of five fits, the first one without an initialised memory, the actor sees batches 2 and 4 *)
Example ddpg_schedule_ex :
  d_pi (ddpg_run (fun a _ b => a ++ [b]) (fun q _ _ => q) (fun _ _ t => t) 2 (fun _ => 0)
          (mkD [] [] [] [] 0 0) [(false, 1%nat); (true, 2%nat); (true, 3%nat); (true, 4%nat); (true, 5%nat)]) = [2; 4]%nat.
Proof. reflexivity. Qed.
Example sac_actor_loss_ex : sac_loss 0 [((1, 5), 2); ((3, 4), 6)] = -1.
Proof. unfold sac_loss, lmean. rewrite exp_0. simpl. rewrite Rmin_right, Rmin_left by lra. lra. Qed.
Example sac_warmup_ex :
  s_la (sac_run (fun (_ : nat) (_ : nat) => [0]) (fun p _ _ _ => S p) (fun la _ => la + 1) (fun q _ _ => q) 3 true 1 (fun _ => 0)
          (mkS 0%nat 0 [] [] 0) [(false, 4, 0); (true, 3, 0); (true, 4, 0)]%nat) = 0 + 1.
Proof. reflexivity. Qed.

Print Assumptions sac_log_prob_density.
Print Assumptions sac_log_prob_refuted.
Print Assumptions sac_std_bounds.
Print Assumptions sac_alpha_gradient.
Print Assumptions sac_warmup.
Print Assumptions sac_warmup_refuted.
Print Assumptions soft_update_ensemble.
Print Assumptions soft_update_ensemble_refuted.
Print Assumptions ddpg_actor_schedule.
Print Assumptions sac_fit_order.
Print Assumptions sac_actor_loss.
Print Assumptions ddpg_fit_order.

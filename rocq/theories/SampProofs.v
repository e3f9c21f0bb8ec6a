(** Proofs for C118. *)
From Coq Require Import List Arith Lia Bool Reals Lra.
From Verif Require Import Common EpisodeSpec CoreModel PgExpSpec PgExpProps SampModel SampSpec.
Import ListNotations.
Local Open Scope R_scope.

(** * Expectations *)
Lemma mean_swap : forall A B (l : list (R * A)) (m : list (R * B)) f,
  mean l (fun x => mean m (fun y => f x y)) = mean m (fun y => mean l (fun x => f x y)).
Proof.
  induction l as [|[w x] l IH]; intros m f.
  - unfold mean at 1. cbn. unfold mean. cbn. rewrite (rsum_map_ext _ _ (fun _ => 0)) by (intros; ring). rewrite rsum_map_const. ring.
  - change (w * mean m (f x) + mean l (fun x => mean m (f x)) = mean m (fun y => w * f x y + mean l (fun x => f x y))).
    rewrite mean_plus, mean_scal, IH. reflexivity.
Qed.
Lemma mean_batches_S : forall A n (l : list (R * A)) F, mean (batches (S n) l) F = mean l (fun x => mean (batches n l) (fun b => F (x :: b))).
Proof.
  intros. cbn [batches]. rewrite mean_flat_map. unfold mean at 2. apply rsum_map_ext. intros [w x] _. cbn [fst snd].
  exact (mean_map (list A) (list A) w (cons x) (batches n l) F).
Qed.
Lemma mean_batches_0 : forall A (l : list (R * A)) F, mean (batches 0 l) F = F [].
Proof. intros. unfold mean. cbn. ring. Qed.
Lemma mean_le : forall A (l : list (R * A)) f g, (forall w x, In (w, x) l -> 0 <= w) -> (forall w x, In (w, x) l -> f x <= g x) -> mean l f <= mean l g.
Proof. intros A l f g P H. unfold mean. apply rsum_map_le. intros [w x] I. cbn. apply Rmult_le_compat_l; eauto. Qed.
Lemma batches_pos : forall A n (l : list (R * A)), (forall w x, In (w, x) l -> 0 <= w) -> forall w b, In (w, b) (batches n l) -> 0 <= w.
Proof.
  induction n as [|n IH]; intros l P w b H; cbn [batches] in H.
  - destruct H as [E|[]]. injection E as <- <-. lra.
  - apply in_flat_map in H as ([v e] & Hl & H). apply in_map_iff in H as ([v' b'] & E & H). cbn in E. injection E as <- <-.
    apply Rmult_le_pos; eauto.
Qed.

(** The second moment of a sum of independent centred draws. *)
Lemma batches_square : forall A n (l : list (R * A)) Y, mean l (fun _ => 1) = 1 -> mean l Y = 0 ->
  mean (batches n l) (fun b => rsum (map Y b) ^ 2) = INR n * mean l (fun x => Y x ^ 2).
Proof.
  induction n as [|n IH]; intros l Y M Z; [rewrite mean_batches_0; cbn; ring|]. rewrite mean_batches_S, S_INR.
  rewrite (mean_ext _ _ _ (fun x => Y x ^ 2 + INR n * mean l (fun x => Y x ^ 2))).
  - rewrite mean_plus, mean_const by exact M. ring.
  - intros w x _. rewrite (mean_ext _ _ _ (fun b => Y x ^ 2 + (2 * Y x * rsum (map Y b) + rsum (map Y b) ^ 2))) by (intros; cbn [map rsum]; ring).
    rewrite !mean_plus, mean_scal, batches_sum, Z, IH, mean_const by (try apply batches_mass; assumption). ring.
Qed.

Lemma rsum_shift : forall A (X : A -> R) m b, rsum (map (fun x => X x - m) b) = rsum (map X b) - INR (length b) * m.
Proof. induction b as [|x b IH]; [cbn; ring|]. cbn [map rsum]. rewrite IH. cbn [length]. rewrite S_INR. ring. Qed.
Lemma average_mean : forall A n (l : list (R * A)) X, mean l (fun _ => 1) = 1 -> (1 <= n)%nat ->
  mean (batches n l) (fun b => average (map X b)) = mean l X.
Proof.
  intros A n l X M Hn. rewrite (mean_ext _ _ _ (fun b => / INR n * rsum (map X b))).
  - rewrite mean_scal, batches_sum by exact M. assert (0 < INR n) by (apply lt_0_INR; lia). field. lra.
  - intros w b I. destruct (batches_in _ _ _ _ _ I) as [L _]. unfold average. rewrite map_length, L. unfold Rdiv. ring.
Qed.
Lemma average_variance : forall A n (l : list (R * A)) X, mean l (fun _ => 1) = 1 -> (1 <= n)%nat ->
  mean (batches n l) (fun b => (average (map X b) - mean l X) ^ 2) = mean l (fun x => (X x - mean l X) ^ 2) / INR n.
Proof.
  intros A n l X M Hn. assert (P : 0 < INR n) by (apply lt_0_INR; lia).
  rewrite (mean_ext _ _ _ (fun b => / INR n ^ 2 * rsum (map (fun x => X x - mean l X) b) ^ 2)).
  - rewrite mean_scal, batches_square; [field; lra|exact M|].
    rewrite (mean_ext _ _ _ (fun x => X x + (- mean l X))) by (intros; ring). rewrite mean_plus, mean_const by exact M. ring.
  - intros w b I. destruct (batches_in _ _ _ _ _ I) as [L _]. unfold average. rewrite map_length, L, rsum_shift, L. field. lra.
Qed.
Lemma average_prob : forall A n (l : list (R * A)) X eps, (forall w x, In (w, x) l -> 0 <= w) -> mean l (fun _ => 1) = 1 -> (1 <= n)%nat -> 0 < eps ->
  mean (batches n l) (fun b => if Rle_dec eps (Rabs (average (map X b) - mean l X)) then 1 else 0)
  <= mean l (fun x => (X x - mean l X) ^ 2) / (INR n * eps ^ 2).
Proof.
  intros A n l X eps W M Hn He. assert (P : 0 < INR n) by (apply lt_0_INR; lia). assert (Q : 0 < eps ^ 2) by (apply pow_lt; exact He).
  replace (mean l (fun x => (X x - mean l X) ^ 2) / (INR n * eps ^ 2)) with (/ eps ^ 2 * (mean l (fun x => (X x - mean l X) ^ 2) / INR n)) by (field; split; lra).
  rewrite <- average_variance, <- mean_scal by assumption. apply mean_le; [apply batches_pos, W|].
  intros w b _. set (z := average (map X b) - mean l X). destruct (Rle_dec eps (Rabs z)) as [D|D].
  - apply (Rmult_le_reg_l (eps ^ 2)); [exact Q|]. rewrite <- Rmult_assoc, Rinv_r, Rmult_1_l, Rmult_1_r by lra.
    rewrite <- (Rabs_right (eps ^ 2)) by lra. rewrite <- (Rabs_right (z ^ 2)) by (apply Rle_ge, pow2_ge_0).
    rewrite <- !RPow_abs. apply pow_incr. rewrite (Rabs_right eps) by lra. split; [lra|exact D].
  - apply Rmult_le_pos; [left; apply Rinv_0_lt_compat, Q|apply pow2_ge_0].
Qed.

(** * The two tapes *)
Section Tapes.
Context {Oe Oa : Type}.
Variables (mue : list (R * Oe)) (mua : list (R * Oa)).
Notation E ne na := (tapes ne na mue mua).

Lemma E_ext : forall ne na f g, (forall te ta, f te ta = g te ta) -> E ne na f = E ne na g.
Proof. intros ne na f g H. unfold tapes. apply mean_ext. intros. apply mean_ext. intros. apply H. Qed.
Lemma E_pop_e : forall ne na f, E (S ne) na f = mean mue (fun w => E ne na (fun te ta => f (w :: te) ta)).
Proof. intros. unfold tapes. apply mean_batches_S. Qed.
Lemma E_pop_a : forall ne na f, E ne (S na) f = mean mua (fun w => E ne na (fun te ta => f te (w :: ta))).
Proof. intros. unfold tapes. rewrite mean_swap, mean_batches_S. apply mean_ext. intros w x _. apply mean_swap. Qed.
Lemma E_const : forall ne na c, mean mue (fun _ => 1) = 1 -> mean mua (fun _ => 1) = 1 -> E ne na (fun _ _ => c) = c.
Proof. intros. unfold tapes. rewrite mean_const; [apply mean_const|]; apply batches_mass; assumption. Qed.
End Tapes.

(** * Episodes as functions of the tapes *)
Section Walk.
Context {St Ac A0 Oe Oa : Type}.
Variables (de : Oe) (da : Oa).
Variable init : Oe -> St.
Variable out : St -> Ac -> Oe -> St * R * bool.
Variable pol : A0 -> St -> Oa -> Ac.
Notation row := (sample St Ac R unit).
Variable fit0 : A0 -> list row -> A0.
Variable h : nat.
Notation W := (s_world de da init out pol fit0 h).
Notation rn := (@run (St * list Oe) (A0 * list Oa) St Ac R unit unit).

Fixpoint ep (k : nat) (g : A0) (s : St) (te : list Oe) (ta : list Oa) : list row * list Oe * list Oa :=
  let (wa, ta1) := pop da ta in let a := pol g s wa in
  let (we, te1) := pop de te in let '(s', r, ab) := out s a we in
  match k with
  | O => ([mkS s a r s' ab true tt tt], te1, ta1)
  | S k' => if ab then ([mkS s a r s' ab true tt tt], te1, ta1)
            else let '(e, te2, ta2) := ep k' g s' te1 ta1 in (mkS s a r s' ab false tt tt :: e, te2, ta2)
  end.
Definition ep0 (g : A0) (te : list Oe) (ta : list Oa) : list row * list Oe * list Oa :=
  let (w, te1) := pop de te in ep h g (init w) te1 ta.
Fixpoint eps (n : nat) (g : A0) (te : list Oe) (ta : list Oa) : list (list row) * list Oe * list Oa :=
  match n with
  | O => ([], te, ta)
  | S n' => let '(e, te1, ta1) := ep0 g te ta in let '(es, te2, ta2) := eps n' g te1 ta1 in (e :: es, te2, ta2)
  end.
Fixpoint lrn (k m : nat) (g : A0) (te : list Oe) (ta : list Oa) : A0 * list Oe * list Oa :=
  match m with
  | O => (g, te, ta)
  | S m' => let '(es, te1, ta1) := eps k g te ta in lrn k m' (fit0 g (concat es)) te1 ta1
  end.

Lemma ep_len : forall k g s te ta, (1 <= length (fst (fst (ep k g s te ta))) <= S k)%nat.
Proof.
  induction k as [|k IH]; intros g s te ta; cbn [ep]; destruct (pop da ta) as [wa ta1], (pop de te) as [we te1], (out s (pol g s wa) we) as [[s' r] ab].
  - cbn. lia.
  - destruct ab; [cbn; lia|]. pose proof (IH g s' te1 ta1) as Q. destruct (ep k g s' te1 ta1) as [[e te2] ta2]. cbn in *. lia.
Qed.

(** ** One episode of the loop *)
Definition okl (md : option nat) (N : nat) (l : logic) (t c : nat) : Prop :=
  move_req l = MoveEpisodes /\ n_episodes l = Some N /\ tot_ep l = t /\ cur_ep l = c /\
  match md with None => fit_req l = FitNever | Some K => fit_req l = FitEpisodes /\ n_episodes_per_fit l = Some K end.
Definition due (md : option nat) (c : nat) : bool := match md with None => false | Some K => (K <=? c)%nat end.
Lemma okl_move : forall md N l t c, okl md N l t c -> move_required l = Some (t <? N)%nat.
Proof. intros md N l t c (A & B & C & D & F). unfold move_required. rewrite A, B, C. reflexivity. Qed.
Lemma okl_fit : forall md N l t c, okl md N l t c -> fit_required l = Some (due md c).
Proof. intros md N l t c (A & B & C & D & F). unfold fit_required, due. destruct md as [K|]; [destruct F as [F G]; rewrite F, G, D|rewrite F]; reflexivity. Qed.
Lemma okl_step : forall md N l t c b, okl md N l t c -> okl md N (after_step l b) (t + (if b then 1 else 0)) (c + (if b then 1 else 0)).
Proof. intros md N l t c b (A & B & C & D & F). unfold okl. cbn. rewrite C, D. repeat split; auto. Qed.
Lemma okl_after : forall md N l t c, okl md N l t c -> okl md N (after_fit l) t 0.
Proof. intros md N l t c (A & B & C & D & F). unfold okl. cbn. repeat split; auto. Qed.

(** between two episodes *)
Definition bt (r : rn) (md : option nat) (N t c : nat) (te : list Oe) (ta : list Oa) (g : A0) (d : list row) : Prop :=
  r_last r = true /\ snd (r_env r) = te /\ r_ag r = (g, ta) /\ rows (r_ds r) = d /\ okl md N (r_logic r) t c.
Definition after_ep (r : rn) (md : option nat) (N t c : nat) (te : list Oe) (ta : list Oa) (g : A0) (d : list row) : Prop :=
  if due md c then bt r md N t 0 te ta (fit0 g d) [] else bt r md N t c te ta g d.
(** in the middle of an episode *)
Definition md_ (r : rn) (md : option nat) (N t c k : nat) (s : St) (te : list Oe) (ta : list Oa) (g : A0) (d : list row) : Prop :=
  r_last r = false /\ r_env r = (s, te) /\ r_ag r = (g, ta) /\ r_obs r = Some s /\ r_ps r = Some tt /\ (r_steps r + S k = S h)%nat /\
  rows (r_ds r) = d /\ okl md N (r_logic r) t c.

(** one step from a state in which the episode is running *)
Lemma step_mid : forall cap md N t c k s te ta g d (r0 r : rn),
  (if r_last r0 then do_reset W None r0 else Some r0) = Some r ->
  r_env r = (s, te) -> r_ag r = (g, ta) -> r_obs r = Some s -> r_ps r = Some tt -> (r_steps r + S k = S h)%nat ->
  rows (r_ds r) = d -> okl md N (r_logic r) t c -> (length d < cap)%nat -> due md c = false ->
  let (wa, ta1) := pop da ta in let a := pol g s wa in
  let (we, te1) := pop de te in let '(s', rw, ab) := out s a we in
  exists r', iterate W cap None r0 = Some r' /\
    if ((match k with O => true | _ => false end) || ab)%bool then after_ep r' md N (t + 1) (c + 1) te1 ta1 g (d ++ [mkS s a rw s' ab true tt tt])
    else exists k', k = S k' /\ md_ r' md N t c k' s' te1 ta1 g (d ++ [mkS s a rw s' ab false tt tt]).
Proof.
  intros cap md N t c k s te ta g d r0 r H0 He Ha Ho Hp Hs Hd Hl Hc Hdue.
  destruct (pop da ta) as [wa ta1] eqn:Pa. destruct (pop de te) as [we te1] eqn:Pe. cbv zeta.
  destruct (out s (pol g s wa) we) as [[s' rw] ab] eqn:O.
  unfold iterate. rewrite H0. cbn [obind]. unfold do_step. rewrite Ho, Hp, Ha, He. cbn [draw s_world]. unfold s_draw. cbn [fst snd]. rewrite Pa.
  cbn [env_step s_world]. unfold s_step. cbn [fst snd]. rewrite Pe, O. cbn [prep s_world horizon obind].
  set (lst := ((S h <=? r_steps r + 1)%nat || ab)%bool).
  assert (El : lst = ((match k with O => true | _ => false end) || ab)%bool).
  { unfold lst. f_equal. destruct k; [apply Nat.leb_le; lia|apply Nat.leb_gt; lia]. }
  cbn [r_ds]. rewrite Hd. assert (Hlt : (length d <? cap)%nat = true) by (apply Nat.ltb_lt; exact Hc). rewrite Hlt. cbn [r_logic last].
  pose proof (okl_step _ _ _ _ _ lst Hl) as Hl'. rewrite (okl_fit _ _ _ _ _ Hl'). rewrite <- El. destruct lst eqn:L.
  - destruct (due md (c + 1)) eqn:D; eexists; (split; [reflexivity|]); unfold after_ep; rewrite D.
    + repeat split; try apply (okl_after _ _ _ _ _ Hl').
    + repeat split; cbn; try apply Hl'.
  - rewrite !Nat.add_0_r in *. rewrite Hdue. eexists. split; [reflexivity|].
    destruct k as [|k]; [discriminate|]. exists k. split; [reflexivity|]. repeat split; cbn; try apply Hl'. lia.
Qed.

Lemma loop_mid : forall cap md N t c, (t < N)%nat -> due md c = false ->
  forall k s te ta g d (r0 r : rn) f, (if r_last r0 then do_reset W None r0 else Some r0) = Some r ->
  r_env r = (s, te) -> r_ag r = (g, ta) -> r_obs r = Some s -> r_ps r = Some tt -> (r_steps r + S k = S h)%nat ->
  rows (r_ds r) = d -> okl md N (r_logic r) t c -> okl md N (r_logic r0) t c -> (length d + S k <= cap)%nat -> (S k <= f)%nat ->
  let '(e, te', ta') := ep k g s te ta in
  exists r', loop W f cap None r0 = loop W (f - length e) cap None r' /\ after_ep r' md N (t + 1) (c + 1) te' ta' g (d ++ e).
Proof.
  intros cap md N t c Ht Hdue. assert (Hlt : (t <? N)%nat = true) by (apply Nat.ltb_lt; exact Ht).
  induction k as [|k IH]; intros s te ta g d r0 r f H0 R2 R3 R4 R5 R6 R7 R8 R9 Hc Hf.
  - pose proof (step_mid cap md N t c 0 s te ta g d r0 r H0 R2 R3 R4 R5 R6 R7 R8 ltac:(lia) Hdue) as Q. cbn [ep].
    destruct (pop da ta) as [wa ta1], (pop de te) as [we te1]. cbv zeta in Q |- *. destruct (out s (pol g s wa) we) as [[s' rw] ab].
    destruct Q as (r' & I & B). exists r'. destruct f as [|f]; [lia|]. cbn [loop]. rewrite (okl_move _ _ _ _ _ R9).
    rewrite Hlt, I. cbn [length]. rewrite Nat.sub_succ, Nat.sub_0_r. split; [reflexivity|exact B].
  - pose proof (step_mid cap md N t c (S k) s te ta g d r0 r H0 R2 R3 R4 R5 R6 R7 R8 ltac:(lia) Hdue) as Q. cbn [ep].
    destruct (pop da ta) as [wa ta1], (pop de te) as [we te1]. cbv zeta in Q |- *. destruct (out s (pol g s wa) we) as [[s' rw] ab].
    destruct Q as (r' & I & B). destruct f as [|f]; [lia|].
    assert (Lp : loop W (S f) cap None r0 = loop W f cap None r').
    { cbn [loop]. rewrite (okl_move _ _ _ _ _ R9). rewrite Hlt, I. reflexivity. }
    rewrite Lp. cbn [orb] in B. destruct ab.
    + exists r'. cbn [length]. rewrite Nat.sub_succ, Nat.sub_0_r. split; [reflexivity|exact B].
    + destruct B as (k' & Ek & (B1 & B2 & B3 & B4 & B5 & B6 & B7 & B8)). injection Ek as <-.
      assert (H0' : (if r_last r' then do_reset W None r' else Some r') = Some r') by (rewrite B1; reflexivity).
      pose proof (IH s' te1 ta1 g _ r' r' f H0' B2 B3 B4 B5 B6 B7 B8 B8) as Q. rewrite app_length in Q. cbn [length] in Q.
      specialize (Q ltac:(lia) ltac:(lia)). destruct (ep k g s' te1 ta1) as [[e te2] ta2].
      destruct Q as (r2 & L2 & Q2). exists r2. split; [rewrite L2; cbn [length]; f_equal; lia|]. rewrite <- app_assoc in Q2. exact Q2.
Qed.

Lemma loop_ep0 : forall cap md N t c, (t < N)%nat -> due md c = false ->
  forall te ta g d r f, bt r md N t c te ta g d -> (length d + S h <= cap)%nat -> (S h <= f)%nat ->
  let '(e, te', ta') := ep0 g te ta in
  exists r', loop W f cap None r = loop W (f - length e) cap None r' /\ after_ep r' md N (t + 1) (c + 1) te' ta' g (d ++ e).
Proof.
  intros cap md N t c Ht Hdue te ta g d r f (R1 & R2 & R3 & R4 & R5) Hc Hf. unfold ep0.
  destruct (pop de te) as [w te0] eqn:P0.
  assert (H0 : exists r1, (if r_last r then do_reset W None r else Some r) = Some r1 /\ r_env r1 = (init w, te0) /\ r_ag r1 = (g, ta) /\
    r_obs r1 = Some (init w) /\ r_ps r1 = Some tt /\ (r_steps r1 + S h = S h)%nat /\ rows (r_ds r1) = d /\ okl md N (r_logic r1) t c).
  { rewrite R1. unfold do_reset. cbn [get_initial_state env_reset s_world]. unfold s_reset. rewrite R2, P0. cbn [ep_start s_world prep clear_next is_episodic].
    eexists. split; [reflexivity|]. cbn. repeat split; auto; apply R5. }
  destruct H0 as (r1 & H0 & A1 & A2 & A3 & A4 & A5 & A6 & A7).
  exact (loop_mid cap md N t c Ht Hdue h (init w) te0 ta g d r r1 f H0 A1 A2 A3 A4 A5 A6 A7 R5 Hc Hf).
Qed.

Lemma ep0_len : forall g te ta, (1 <= length (fst (fst (ep0 g te ta))) <= S h)%nat.
Proof. intros. unfold ep0. destruct (pop de te) as [w te1]. apply ep_len. Qed.

(** [n] episodes without a fit in between *)
Lemma loop_eps : forall cap md N n t c, (t + n <= N)%nat -> (forall i, (i < n)%nat -> due md (c + i) = false /\ due md (c + i + 1) = false) ->
  forall te ta g d r f, bt r md N t c te ta g d -> (length d + n * S h <= cap)%nat -> (n * S h <= f)%nat ->
  let '(es, te', ta') := eps n g te ta in
  exists r' f', loop W f cap None r = loop W f' cap None r' /\ (f - n * S h <= f')%nat /\ (length (concat es) <= n * S h)%nat /\
    bt r' md N (t + n) (c + n) te' ta' g (d ++ concat es).
Proof.
  intros cap md N. induction n as [|n IH]; intros t c Ht Hd te ta g d r f B Hc Hf; cbn [eps].
  - exists r, f. cbn. rewrite app_nil_r, !Nat.add_0_r. repeat split; try lia; apply B.
  - destruct (Hd 0%nat ltac:(lia)) as [D0 D1]. rewrite Nat.add_0_r in D0, D1.
    pose proof (loop_ep0 cap md N t c ltac:(lia) D0 te ta g d r f B ltac:(lia) ltac:(lia)) as Q.
    pose proof (ep0_len g te ta) as Le. destruct (ep0 g te ta) as [[e te1] ta1]. cbn [fst] in Le. destruct Q as (r1 & L1 & B1).
    unfold after_ep in B1. rewrite D1 in B1.
    pose proof (IH (t + 1)%nat (c + 1)%nat ltac:(lia)) as Q. specialize (Q ltac:(intros i Hi; destruct (Hd (S i) ltac:(lia)) as [X Y];
      replace (c + 1 + i)%nat with (c + S i)%nat by lia; split; assumption)).
    specialize (Q te1 ta1 g _ r1 (f - length e)%nat B1). rewrite app_length in Q. specialize (Q ltac:(lia) ltac:(lia)).
    destruct (eps n g te1 ta1) as [[es te2] ta2]. destruct Q as (r2 & f2 & L2 & F2 & C2 & B2). exists r2, f2. rewrite L1, L2.
    cbn [concat]. rewrite app_length, app_assoc. replace (t + S n)%nat with (t + 1 + n)%nat by lia. replace (c + S n)%nat with (c + 1 + n)%nat by lia.
    repeat split; try lia; apply B2.
Qed.

Lemma loop_done : forall cap md N c te ta g d r f, bt r md N N c te ta g d -> loop W f cap None r = Done r.
Proof. intros cap md N c te ta g d r f (R1 & R2 & R3 & R4 & R5). destruct f; cbn [loop]; rewrite (okl_move _ _ _ _ _ R5), Nat.ltb_irrefl; reflexivity. Qed.

Theorem evaluate_walk : forall n f s0 te ta g l, (n * S h <= f)%nat ->
  exists r, evaluate W f (s0, te) (g, ta) l None None (Some n) = Done r /\ rows (r_ds r) = concat (fst (fst (eps n g te ta))) /\ fst (r_ag r) = g.
Proof.
  intros n f s0 te ta g l Hf. unfold evaluate. cbn [capacity horizon s_world initialize_run].
  match goal with |- context [loop W f ?c None ?x] => set (cap := c); set (r0 := x) end.
  assert (B : bt r0 None n 0 0 te ta g []) by (repeat split).
  pose proof (loop_eps cap None n n 0 0 ltac:(lia) ltac:(intros; split; reflexivity) te ta g [] r0 f B ltac:(unfold cap; cbn [length]; lia) Hf) as Q.
  destruct (eps n g te ta) as [[es te'] ta']. destruct Q as (r & f' & L & _ & _ & B'). exists r. rewrite L.
  rewrite (loop_done _ _ _ _ _ _ _ _ _ _ B'). split; [reflexivity|]. destruct B' as (_ & _ & Ea & Ed & _). rewrite Ed, Ea. split; reflexivity.
Qed.

(** ** Learning *)
Lemma loop_fit : forall cap K N t, (1 <= K)%nat -> (t + K <= N)%nat ->
  forall te ta g r f, bt r (Some K) N t 0 te ta g [] -> (K * S h <= cap)%nat -> (K * S h <= f)%nat ->
  let '(es, te', ta') := eps K g te ta in
  exists r' f', loop W f cap None r = loop W f' cap None r' /\ (f - K * S h <= f')%nat /\
    bt r' (Some K) N (t + K) 0 te' ta' (fit0 g (concat es)) [].
Proof.
  intros cap K N t HK Ht te ta g r f B Hc Hf. destruct K as [|K]; [lia|].
  assert (Esn : forall n g te ta, eps (S n) g te ta = let '(es, te1, ta1) := eps n g te ta in let '(e, te2, ta2) := ep0 g te1 ta1 in (es ++ [e], te2, ta2)).
  { clear. induction n as [|n IH]; intros g te ta.
    - cbn [eps]. destruct (ep0 g te ta) as [[e te1] ta1]. reflexivity.
    - change (eps (S (S n)) g te ta) with (let '(e, te1, ta1) := ep0 g te ta in let '(es, te2, ta2) := eps (S n) g te1 ta1 in (e :: es, te2, ta2)).
      change (eps (S n) g te ta) with (let '(e, te1, ta1) := ep0 g te ta in let '(es, te2, ta2) := eps n g te1 ta1 in (e :: es, te2, ta2)).
      destruct (ep0 g te ta) as [[e te1] ta1]. rewrite IH. destruct (eps n g te1 ta1) as [[es te2] ta2]. destruct (ep0 g te2 ta2) as [[e' te3] ta3]. reflexivity. }
  pose proof (loop_eps cap (Some (S K)) N K t 0 ltac:(lia)) as Q.
  specialize (Q ltac:(intros i Hi; unfold due; split; apply Nat.leb_gt; lia) te ta g [] r f B ltac:(cbn [length]; lia) ltac:(lia)).
  rewrite Esn. destruct (eps K g te ta) as [[es te1] ta1]. destruct Q as (r1 & f1 & L1 & F1 & C1 & B1).
  assert (Dk : due (Some (S K)) (0 + K) = false) by (unfold due; apply Nat.leb_gt; lia).
  pose proof (loop_ep0 cap (Some (S K)) N (t + K) (0 + K) ltac:(lia) Dk te1 ta1 g _ r1 f1 B1 ltac:(cbn [app]; lia) ltac:(lia)) as Q.
  pose proof (ep0_len g te1 ta1) as Le. destruct (ep0 g te1 ta1) as [[e te2] ta2]. cbn [fst] in Le. destruct Q as (r2 & L2 & B2).
  exists r2, (f1 - length e)%nat. rewrite L1, L2. split; [reflexivity|]. split; [lia|].
  unfold after_ep in B2. assert (Dk' : due (Some (S K)) (0 + K + 1) = true) by (unfold due; apply Nat.leb_le; lia). rewrite Dk' in B2.
  rewrite concat_app. cbn [concat]. rewrite app_nil_r. replace (t + S K)%nat with (t + K + 1)%nat by lia. exact B2.
Qed.

Lemma loop_fits : forall cap K N, (1 <= K)%nat -> (K * S h <= cap)%nat -> forall m t, (t + m * K <= N)%nat ->
  forall te ta g r f, bt r (Some K) N t 0 te ta g [] -> (m * K * S h <= f)%nat ->
  let '(g', te', ta') := lrn K m g te ta in
  exists r' f', loop W f cap None r = loop W f' cap None r' /\ (f - m * K * S h <= f')%nat /\ bt r' (Some K) N (t + m * K) 0 te' ta' g' [].
Proof.
  intros cap K N HK Hc. induction m as [|m IH]; intros t Ht te ta g r f B Hf; cbn [lrn].
  - exists r, f. cbn. rewrite Nat.add_0_r. repeat split; try lia; apply B.
  - pose proof (loop_fit cap K N t HK ltac:(lia) te ta g r f B Hc ltac:(lia)) as Q. destruct (eps K g te ta) as [[es te1] ta1].
    destruct Q as (r1 & f1 & L1 & F1 & B1).
    pose proof (IH (t + K)%nat ltac:(lia) te1 ta1 _ r1 f1 B1 ltac:(lia)) as Q. destruct (lrn K m (fit0 g (concat es)) te1 ta1) as [[g' te2] ta2].
    destruct Q as (r2 & f2 & L2 & F2 & B2). exists r2, f2. rewrite L1, L2. replace (t + S m * K)%nat with (t + K + m * K)%nat by lia. repeat split; try lia; apply B2.
Qed.

Theorem learn_walk : forall K m q f s0 te ta g l, (1 <= K)%nat -> (q < K)%nat -> ((m * K + q) * S h <= f)%nat ->
  exists r, learn W f (s0, te) (g, ta) l None (Some (m * K + q)%nat) None (Some K) = Done r /\ fst (r_ag r) = fst (fst (lrn K m g te ta)).
Proof.
  intros K m q f s0 te ta g l HK Hq Hf. unfold learn. cbn [initialize_learn capacity horizon s_world initialize_run].
  match goal with |- context [loop W f ?c None ?x] => set (cap := c); set (r0 := x) end.
  set (N := (m * K + q)%nat) in *.
  assert (B : bt r0 (Some K) N 0 0 te ta g []) by (repeat split).
  pose proof (loop_fits cap K N HK ltac:(unfold cap; lia) m 0 ltac:(lia) te ta g r0 f B ltac:(lia)) as Q.
  destruct (lrn K m g te ta) as [[g' te1] ta1]. destruct Q as (r1 & f1 & L1 & F1 & B1).
  pose proof (loop_eps cap (Some K) N q (0 + m * K) 0 ltac:(lia) ltac:(intros i Hi; unfold due; split; apply Nat.leb_gt; lia) te1 ta1 g' [] r1 f1 B1
    ltac:(unfold cap; cbn [length]; nia) ltac:(lia)) as Q.
  destruct (eps q g' te1 ta1) as [[es te2] ta2]. destruct Q as (r2 & f2 & L2 & F2 & C2 & B2). exists r2. rewrite L1, L2.
  change (0 + m * K + q)%nat with N in B2. rewrite (loop_done _ _ _ _ _ _ _ _ _ _ B2). split; [reflexivity|].
  destruct B2 as (_ & _ & Ea & _). rewrite Ea. reflexivity.
Qed.

(** * Distribution of the walks *)
Variable acts : list Ac.
Variable kern : St -> Ac -> list (R * St * R * bool).
Variable starts : list (R * St).
Variable pi : A0 -> St -> Ac -> R.
Variables (mue : list (R * Oe)) (mua : list (R * Oa)).
Hypothesis Me : mean mue (fun _ => 1) = 1.
Hypothesis Ma : mean mua (fun _ => 1) = 1.
Hypothesis Hpol : forall g s f, mean mua (fun w => f (pol g s w)) = rsum (map (fun a => pi g s a * f a) acts).
Hypothesis Hout : forall s a f, mean mue (fun w => f (out s a w)) = rsum (map (fun k => let '(p, s', r, ab) := k in p * f (s', r, ab)) (kern s a)).
Hypothesis Hinit : forall f, mean mue (fun w => f (init w)) = mean starts f.
Notation E ne na := (tapes ne na mue mua).
Notation paths := (paths acts kern pi).
Notation epis := (epis acts kern starts pi).

Lemma mean_paths : forall g k s f,
  mean (paths g k s) f = rsum (map (fun a => pi g s a * rsum (map (fun x => let '(p, s', r, ab) := x in p *
    match k with
    | O => f [mkS s a r s' ab true tt tt]
    | S k' => if ab : bool then f [mkS s a r s' ab true tt tt] else mean (paths g k' s') (fun e => f (mkS s a r s' ab false tt tt :: e))
    end) (kern s a))) acts).
Proof.
  intros g k s f. assert (P : paths g k s = flat_map (fun a => flat_map (fun x =>
    let '(p, s', r, ab) := x in
    match k with
    | O => [(pi g s a * p, [mkS s a r s' ab true tt tt])]
    | S k' => if ab : bool then [(pi g s a * p, [mkS s a r s' ab true tt tt])]
              else map (fun we => (pi g s a * p * fst we, mkS s a r s' ab false tt tt :: snd we)) (paths g k' s')
    end) (kern s a)) acts) by (destruct k; reflexivity).
  rewrite P. clear P. rewrite mean_flat_map. apply rsum_map_ext. intros a _. rewrite mean_flat_map, <- rsum_map_scal. apply rsum_map_ext.
  intros [[[p s'] r] ab] _. destruct k as [|k]; [rewrite mean_one; ring|]. destruct ab; [rewrite mean_one; ring|].
  rewrite (mean_map _ _ (pi g s a * p) (cons (mkS s a r s' false false tt tt)) (paths g k s') f). apply Rmult_assoc.
Qed.
Lemma mean_epis : forall g k f, mean (epis g k) f = mean starts (fun s => mean (paths g k s) f).
Proof.
  intros. unfold SampSpec.epis. rewrite mean_flat_map. unfold mean at 2. apply rsum_map_ext. intros [w s] _. cbn [fst snd].
  exact (mean_map _ _ w (fun e => e) (paths g k s) f).
Qed.

Lemma kern_mass : forall s a, rsum (map (fun x => let '(p, s', r, ab) := x in p) (kern s a)) = 1.
Proof.
  intros s a. rewrite <- Me. rewrite (Hout s a (fun _ => 1)). apply rsum_map_ext. intros [[[p s'] r] ab] _. ring.
Qed.
Lemma paths_mass : forall k g s, mean (paths g k s) (fun _ => 1) = 1.
Proof.
  induction k as [|k IH]; intros g s; rewrite mean_paths;
  (rewrite (rsum_map_ext _ _ (fun a => pi g s a * 1)); [rewrite <- (Hpol g s (fun _ => 1)); exact Ma|]); intros a _;
  f_equal; (eapply eq_trans; [|exact (kern_mass s a)]); apply rsum_map_ext; intros [[[p s'] r] ab] _; [ring|destruct ab; [ring|rewrite IH; ring]].
Qed.
Lemma epis_mass : forall k g, mean (epis g k) (fun _ => 1) = 1.
Proof.
  intros. rewrite mean_epis. rewrite (mean_ext _ _ _ (fun _ => 1)) by (intros; apply paths_mass).
  rewrite <- (Hinit (fun _ => 1)). exact Me.
Qed.

Lemma ep_exp : forall k g s ne0 na0 (K : list row -> list Oe -> list Oa -> R) (G : list row -> R),
  (forall e ne na, (ne0 <= ne)%nat -> (na0 <= na)%nat -> E ne na (K e) = G e) ->
  forall ne na, (ne0 + S k <= ne)%nat -> (na0 + S k <= na)%nat ->
  E ne na (fun te ta => let '(e, te', ta') := ep k g s te ta in K e te' ta') = mean (paths g k s) G.
Proof.
  induction k as [|k IH]; intros g s ne0 na0 K G HK ne na Hne Hna; rewrite mean_paths; (destruct ne as [|ne]; [lia|]; destruct na as [|na]; [lia|]);
  rewrite E_pop_a.
  - rewrite <- (Hpol g s (fun a => rsum (map (fun x => let '(p, s', r, ab) := x in p * G [mkS s a r s' ab true tt tt]) (kern s a)))).
    apply mean_ext. intros w wa _. rewrite E_pop_e.
    set (a := pol g s wa). eapply eq_trans; [|exact (Hout s a (fun o => let '(s', r, ab) := o in G [mkS s a r s' ab true tt tt]))]. apply mean_ext. intros w' we _. cbn [ep pop]. fold a. destruct (out s a we) as [[s' r] ab]. apply HK; lia.
  - rewrite <- (Hpol g s (fun a => rsum (map (fun x => let '(p, s', r, ab) := x in p *
        (if ab : bool then G [mkS s a r s' ab true tt tt] else mean (paths g k s') (fun e => G (mkS s a r s' ab false tt tt :: e)))) (kern s a)))).
    apply mean_ext. intros w wa _. rewrite E_pop_e.
    set (a := pol g s wa). eapply eq_trans; [|exact (Hout s a (fun o => let '(s', r, ab) := o in
      if ab : bool then G [mkS s a r s' ab true tt tt] else mean (paths g k s') (fun e => G (mkS s a r s' ab false tt tt :: e))))]. apply mean_ext. intros w' we _. cbn [ep pop]. fold a. destruct (out s a we) as [[s' r] ab]. destruct ab; [apply HK; lia|].
    rewrite <- (IH g s' ne0 na0 (fun e => K (mkS s a r s' false false tt tt :: e)) (fun e => G (mkS s a r s' false false tt tt :: e))
      ltac:(intros; apply HK; assumption) ne na ltac:(lia) ltac:(lia)).
    apply E_ext. intros te ta. destruct (ep k g s' te ta) as [[e te2] ta2]. reflexivity.
Qed.

Lemma ep0_exp : forall g ne0 na0 (K : list row -> list Oe -> list Oa -> R) (G : list row -> R),
  (forall e ne na, (ne0 <= ne)%nat -> (na0 <= na)%nat -> E ne na (K e) = G e) ->
  forall ne na, (ne0 + S (S h) <= ne)%nat -> (na0 + S h <= na)%nat ->
  E ne na (fun te ta => let '(e, te', ta') := ep0 g te ta in K e te' ta') = mean (epis g h) G.
Proof.
  intros g ne0 na0 K G HK ne na Hne Hna. destruct ne as [|ne]; [lia|]. rewrite E_pop_e, mean_epis, <- Hinit. apply mean_ext. intros w we _.
  unfold ep0. cbn [pop]. apply (ep_exp h g (init we) ne0 na0 K G HK); lia.
Qed.

Lemma eps_exp : forall n g ne0 na0 (K : list (list row) -> list Oe -> list Oa -> R) (G : list (list row) -> R),
  (forall es ne na, (ne0 <= ne)%nat -> (na0 <= na)%nat -> E ne na (K es) = G es) ->
  forall ne na, (ne0 + n * (h + 2) <= ne)%nat -> (na0 + n * (h + 1) <= na)%nat ->
  E ne na (fun te ta => let '(es, te', ta') := eps n g te ta in K es te' ta') = mean (batches n (epis g h)) G.
Proof.
  induction n as [|n IH]; intros g ne0 na0 K G HK ne na Hne Hna.
  - rewrite mean_batches_0. apply HK; lia.
  - rewrite mean_batches_S.
    eapply eq_trans; [|apply (ep0_exp g (ne0 + n * (h + 2)) (na0 + n * (h + 1)) (fun e te ta => let '(es, te', ta') := eps n g te ta in K (e :: es) te' ta')
      (fun e => mean (batches n (epis g h)) (fun b => G (e :: b)))) with (ne := ne) (na := na)]; [| |lia|lia].
    + apply E_ext. intros te ta. cbn [eps]. destruct (ep0 g te ta) as [[e te1] ta1]. destruct (eps n g te1 ta1) as [[es te2] ta2]. reflexivity.
    + intros e ne' na' H1 H2. apply (IH g ne0 na0 (fun es => K (e :: es))); [intros; apply HK; assumption|exact H1|exact H2].
Qed.

Lemma lrn_exp : forall k m g ne na (F : A0 -> R), (m * (k * (h + 2)) <= ne)%nat -> (m * (k * (h + 1)) <= na)%nat ->
  E ne na (fun te ta => F (fst (fst (lrn k m g te ta)))) = on_policy acts kern starts pi fit0 k h m F g.
Proof.
  induction m as [|m IH]; intros g ne na F Hne Hna; [cbn; apply E_const; assumption|]. cbn [on_policy].
  eapply eq_trans; [|apply (eps_exp k g (m * (k * (h + 2))) (m * (k * (h + 1))) (fun es te ta => F (fst (fst (lrn k m (fit0 g (concat es)) te ta))))
    (fun b => on_policy acts kern starts pi fit0 k h m F (fit0 g (concat b)))) with (ne := ne) (na := na)]; [| |lia|lia].
  - apply E_ext. intros te ta. cbn [lrn]. destruct (eps k g te ta) as [[es te1] ta1]. reflexivity.
  - intros es ne' na' H1 H2. apply IH; assumption.
Qed.

(** Shape of the episodes *)
Lemma paths_episode : forall k g s w e, In (w, e) (paths g k s) -> is_episode last e.
Proof.
  assert (One : forall x : row, last x = true -> is_episode last [x]) by (intros x L; exists [], x; repeat split; auto).
  induction k as [|k IH]; intros g s w e H; cbn [SampSpec.paths] in H; apply in_flat_map in H as (a & _ & H); apply in_flat_map in H as ([[[p s'] r] ab] & _ & H).
  - destruct H as [X|[]]. injection X as <- <-. apply One. reflexivity.
  - destruct ab; [destruct H as [X|[]]; injection X as <- <-; apply One; reflexivity|].
    apply in_map_iff in H as ([w' e'] & X & H). cbn [fst snd] in X. injection X as <- <-.
    destruct (IH _ _ _ _ H) as (b & x & -> & L & F). exists (mkS s a r s' false false tt tt :: b), x. repeat split; auto.
Qed.
Lemma epis_episode : forall k g w e, In (w, e) (epis g k) -> is_episode last e.
Proof.
  intros k g w e H. unfold SampSpec.epis in H. apply in_flat_map in H as ([ws s] & _ & H). apply in_map_iff in H as ([we e'] & X & H).
  cbn [fst snd] in X. injection X as <- <-. apply (paths_episode _ _ _ _ _ H).
Qed.

(** Expected return *)
Lemma paths_gain : forall gamma k g s, mean (paths g k s) (gain gamma) = value acts kern pi gamma g k s.
Proof.
  induction k as [|k IH]; intros g s; rewrite mean_paths; cbn [value]; apply rsum_map_ext; intros a _; f_equal; apply rsum_map_ext; intros [[[p s'] r] ab] _.
  - cbn. ring.
  - destruct ab; [cbn; ring|]. cbn [gain reward]. rewrite mean_plus, mean_scal, IH, mean_const by apply paths_mass. ring.
Qed.
Lemma epis_gain : forall gamma k g, mean (epis g k) (gain gamma) = expected_return acts kern starts pi gamma k g.
Proof. intros. rewrite mean_epis. unfold expected_return. apply mean_ext. intros. apply paths_gain. Qed.
End Walk.

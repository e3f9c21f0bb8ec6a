(** C102: Q-learning run by [Core] learns the optimal values. *)
From Coq Require Import List Arith Lia Bool Reals Lra ZArith.
From Verif Require Import Common ParamModel PolicyModel PolicyProofs TdModel TdSpec TdProofs CoreTdModel ConvProps.
From Verif Require CoreModel.
Import ListNotations.
Local Open Scope R_scope.

(** ** What a run is, without the machinery of the core *)
(** Situation before a step: agent, state of the environment, whether the previous step was the
    last of its episode, steps made in the episode. *)
Record sit := mkSit { z_ag : qagent; z_env : nat; z_last : bool; z_steps : nat }.

Section Run.
Variable (k : nat) (gamma eps : R) (e : denv) (s0 : nat) (hor : option nat).
Variable (u : nat -> R) (c r : nat -> nat).

(** State and number of steps of the episode in which the next action is taken. *)
Definition here (z : sit) : nat := if z_last z then s0 else z_env z.
Definition since (z : sit) : nat := if z_last z then O else z_steps z.
Definition ends (n : nat) (ab : bool) : bool := (match hor with Some h => (h <=? n + 1)%nat | None => false end) || ab.

Definition act (z : sit) : nat :=
  let t := q_draws (z_ag z) in eg_draw (row (q_tab (z_ag z)) (here z)) eps (u t) (c t) (r t).
Definition smp (z : sit) : sample :=
  {| x_s := here z; x_a := act z; x_r := d_r e (here z) (act z); x_s' := d_s e (here z) (act z);
     x_abs := d_abs e (here z) (act z) |}.

Definition next (z : sit) : sit :=
  let x := smp z in
  let a := z_ag z in
  mkSit (match p_call (q_rate a) (x_s x * k + x_a x)%nat with
         | Some (al, rt) => mkQA (ql_update gamma al (q_tab a) x) rt (q_draws a + 1) (q_ok a)
         | None => mkQA (q_tab a) (q_rate a) (q_draws a + 1) false
         end) (x_s' x) (ends (since z) (x_abs x)) (since z + 1).

Definition sits (a0 : qagent) (e0 : nat) (t : nat) : sit := Nat.iter t next (mkSit a0 e0 true 0).

Notation W := (q_world k gamma eps e s0 hor u c r).

(** The run of the core is that sequence. *)
Definition matches (N : nat) (z : sit) (xs : list sample) (t : nat) (R0 : @CoreModel.run nat qagent nat nat R unit unit) : Prop :=
  CoreModel.r_env R0 = z_env z /\ CoreModel.r_ag R0 = z_ag z /\ CoreModel.r_last R0 = z_last z /\
  CoreModel.r_ds R0 = CoreModel.mkD [] [] /\
  (z_last z = false -> CoreModel.r_obs R0 = Some (z_env z) /\ CoreModel.r_ps R0 = Some tt /\ CoreModel.r_steps R0 = z_steps z) /\
  map of_core (CoreModel.samples_of (CoreModel.r_log R0)) = xs /\
  exists te ce, CoreModel.r_logic R0 = CoreModel.mkL CoreModel.FitSteps CoreModel.MoveSteps (Some N) None (Some 1%nat) None te t ce 0.

Lemma samples_app : forall (l1 l2 : list (CoreModel.event nat nat R unit unit)),
  CoreModel.samples_of (l1 ++ l2) = CoreModel.samples_of l1 ++ CoreModel.samples_of l2.
Proof. intros. unfold CoreModel.samples_of. apply flat_map_app. Qed.

Lemma iterate_matches : forall N z xs t R0, matches N z xs t R0 ->
  exists R1, CoreModel.iterate W 1 None R0 = Some R1 /\ matches N (next z) (xs ++ [smp z]) (S t) R1.
Proof.
  intros N z xs t R0 (E1 & E2 & E3 & E4 & E5 & E6 & te & ce & E7).
  destruct R0 as [en ag lg ob ps st la ds log]. cbn -[CoreModel.samples_of] in E1, E2, E3, E4, E5, E6, E7. subst en ag la ds lg.
  assert (K : exists R1 log1, (if z_last z then CoreModel.do_reset W None
        (CoreModel.mkR (z_env z) (z_ag z) (CoreModel.mkL CoreModel.FitSteps CoreModel.MoveSteps (Some N) None (Some 1%nat) None te t ce 0)
           ob ps st (z_last z) (CoreModel.mkD [] []) log)
      else Some (CoreModel.mkR (z_env z) (z_ag z) (CoreModel.mkL CoreModel.FitSteps CoreModel.MoveSteps (Some N) None (Some 1%nat) None te t ce 0)
           ob ps st (z_last z) (CoreModel.mkD [] []) log)) = Some R1 /\
      R1 = CoreModel.mkR (here z) (z_ag z) (CoreModel.mkL CoreModel.FitSteps CoreModel.MoveSteps (Some N) None (Some 1%nat) None te t ce 0)
        (Some (here z)) (Some tt) (since z) (z_last z) (CoreModel.mkD [] []) log1 /\
      map of_core (CoreModel.samples_of log1) = xs).
  { unfold here, since. destruct (z_last z) eqn:ZL.
    - eexists. exists (log ++ [CoreModel.EvReset None s0 tt tt]). split; [reflexivity|]. split; [reflexivity|].
      rewrite samples_app, map_app, E6. apply app_nil_r.
    - destruct (E5 eq_refl) as (-> & -> & ->). eexists. eexists. split; [reflexivity|]. split; [reflexivity|]. exact E6. }
  destruct K as (R1 & log1 & K1 & -> & K3). unfold CoreModel.iterate, obind.
  cbn [CoreModel.r_last]. rewrite K1. unfold CoreModel.do_step. cbn [CoreModel.r_obs CoreModel.r_ps CoreModel.draw q_world q_draw CoreModel.r_ag CoreModel.env_step CoreModel.r_env CoreModel.prep].
  change (eg_draw (row (q_tab (z_ag z)) (here z)) eps (u (q_draws (z_ag z))) (c (q_draws (z_ag z))) (r (q_draws (z_ag z)))) with (act z).
  destruct (e (here z) (act z)) as [[rw s'] ab] eqn:EE.
  cbn [CoreModel.r_steps CoreModel.r_logic CoreModel.r_ds CoreModel.r_log CoreModel.rows length Nat.ltb Nat.leb CoreModel.last CoreModel.horizon].
  cbn -[q_fit Nat.add]. rewrite (Nat.add_comm 0 1). cbn -[q_fit Nat.add].
  eexists. split; [reflexivity|].
  assert (ES : smp z = of_core (CoreModel.mkS (here z) (act z) rw s' ab
       ((match hor with Some h => (h <=? since z + 1)%nat | None => false end) || ab) tt tt)).
  { unfold smp, d_r, d_s, d_abs. rewrite EE. reflexivity. }
  unfold matches. cbn -[q_fit Nat.add of_core CoreModel.samples_of next].
  split; [unfold next; rewrite ES; reflexivity|].
  split. { unfold q_fit, next. rewrite ES. cbn -[Nat.add]. destruct (p_call _ _) as [[al rt]|]; reflexivity. }
  split. { unfold next, ends. rewrite ES. reflexivity. }
  split; [reflexivity|].
  split. { intros _. unfold next. rewrite ES. auto. }
  split. { rewrite !samples_app, !map_app, K3, ES. cbn [CoreModel.samples_of flat_map map app]. rewrite app_nil_r. reflexivity. }
  replace (S t) with (t + 1)%nat by lia. do 2 eexists. reflexivity.
Qed.

Lemma loop_matches : forall N m fuel z xs t R0, (t + m = N)%nat -> (m <= fuel)%nat -> matches N z xs t R0 ->
  exists R1, CoreModel.loop W fuel 1 None R0 = CoreModel.Done R1 /\
    matches N (Nat.iter m next z) (xs ++ map (fun i => smp (Nat.iter i next z)) (seq 0 m)) N R1.
Proof.
  intros N. induction m as [|m IH]; intros fuel z xs t R0 HT HF M.
  - exists R0. rewrite app_nil_r. cbn [Nat.iter nat_rect]. replace N with t in * by lia. split; [|exact M].
    destruct M as (_ & _ & _ & _ & _ & _ & te & ce & EL). 
    destruct fuel; cbn [CoreModel.loop]; rewrite EL; unfold CoreModel.move_required; cbn [CoreModel.move_req CoreModel.n_steps CoreModel.tot_st];
    rewrite Nat.ltb_irrefl; reflexivity.
  - destruct fuel as [|fuel]; [lia|]. destruct (iterate_matches N z xs t R0 M) as (R1 & I1 & M1).
    destruct (IH fuel (next z) _ (S t) R1 ltac:(lia) ltac:(lia) M1) as (R2 & L2 & M2).
    exists R2. split.
    + cbn [CoreModel.loop]. destruct M as (_ & _ & _ & _ & _ & _ & te & ce & EL). rewrite EL.
      unfold CoreModel.move_required. cbn [CoreModel.move_req CoreModel.n_steps CoreModel.tot_st].
      rewrite (proj2 (Nat.ltb_lt t N)) by lia. rewrite I1. exact L2.
    + assert (SW : forall i y, Nat.iter (S i) next y = Nat.iter i next (next y)).
      { clear. induction i; intros y; [reflexivity|]. change (next (Nat.iter (S i) next y) = next (Nat.iter i next (next y))).
        rewrite IHi. reflexivity. }
      rewrite SW. cbn [seq map]. rewrite <- seq_shift, map_map. cbn [Nat.iter nat_rect] in *.
      rewrite <- app_assoc in M2. cbn [app] in M2.
      rewrite (map_ext _ (fun i => smp (Nat.iter i next (next z)))); [exact M2|]. intros i. f_equal. apply SW.
Qed.

Lemma learn_is_sits : forall N fuel e0 a0 l, (N <= fuel)%nat ->
  exists R1, CoreModel.learn W fuel e0 a0 l (Some N) None (Some 1%nat) None = CoreModel.Done R1 /\
    CoreModel.r_ag R1 = z_ag (sits a0 e0 N) /\
    map of_core (CoreModel.samples_of (CoreModel.r_log R1)) = map (fun t => smp (sits a0 e0 t)) (seq 0 N).
Proof.
  intros N fuel e0 a0 l HF. unfold CoreModel.learn. cbn [CoreModel.initialize_learn CoreModel.capacity].
  unfold CoreModel.initialize_run. cbn.
  destruct (loop_matches N N fuel (mkSit a0 e0 true 0) [] 0 (CoreModel.start e0 a0
     (CoreModel.mkL CoreModel.FitSteps CoreModel.MoveSteps (Some N) None (Some 1%nat) None 0 0 0 0)) ltac:(lia) HF) as (R1 & L & M).
  - unfold matches, CoreModel.start. cbn. repeat split; try discriminate. do 2 eexists. reflexivity.
  - exists R1. split; [exact L|]. destruct M as (_ & MA & _ & _ & _ & MX & _). split; [exact MA|exact MX].
Qed.

End Run.

(** ** Hypotheses in the user's terms *)
(** Pairs met when the actions [w] are taken from state [s], [m] steps into an episode; after
    the end of an episode the next one starts in [s0].  (Without horizon the step counter stays 0.) *)
Definition tick (hor : option nat) (m : nat) : nat := match hor with Some _ => S m | None => O end.
Definition cstep (e : denv) (s0 : nat) (hor : option nat) (p : nat * nat) (a : nat) : nat * nat :=
  if ends hor (snd p) (d_abs e (fst p) a) then (s0, O) else (d_s e (fst p) a, tick hor (snd p)).
Fixpoint met (e : denv) (s0 : nat) (hor : option nat) (p : nat * nat) (w : list nat) : list (nat * nat) :=
  match w with [] => [] | a :: w' => (fst p, a) :: met e s0 hor (cstep e s0 hor p a) w' end.
Definition in_horizon (hor : option nat) (m : nat) : Prop := match hor with Some h => (m < h)%nat | None => m = O end.

(** From everywhere every pair can be reached. *)
Definition connected (lv : list nat) (k : nat) (e : denv) (s0 : nat) (hor : option nat) : Prop :=
  forall s m s' a', In s lv -> in_horizon hor m -> In s' lv -> (a' < k)%nat ->
    exists w, Forall (fun b => (b < k)%nat) w /\ In (s', a') (met e s0 hor (s, m) w).

(** The random numbers: every finite sequence of actions is tried, again and again.  (With
    independent uniform draws and 0 < eps this has probability one.) *)
Definition explores (k : nat) (eps : R) (u : nat -> R) (r : nat -> nat) : Prop :=
  forall w, Forall (fun b => (b < k)%nat) w -> forall T, exists t, (T <= t)%nat /\
    forall j, (j < length w)%nat -> u (t + j)%nat < eps /\ r (t + j)%nat = nth j w O.

(** A learning rate as in the examples of the library: constant, or decaying with the number of
    visits of the pair to an exponent of at most one; not used before. *)
Definition suitable_rate (n k : nat) (rt : param) : Prop :=
  exists v0, 0 < v0 <= 1 /\
    ((exists ex, 0 <= ex <= 1 /\ rt = decay_init v0 ex None None (n * k)) \/ rt = param_init v0 None None 1).

(** ** Learning rates *)
Definition rate_state (n k : nat) (v0 : R) (cnt : nat -> nat -> nat) (rt : param) : Prop :=
  (exists ex l, 0 <= ex <= 1 /\ rt = mkP v0 None None l (KDecay ex) /\ length l = (n * k)%nat /\
     forall s a, (s < n)%nat -> (a < k)%nat -> nth (s * k + a) l O = cnt s a) \/
  (exists j, rt = mkP v0 None None [j] KConst).

Lemma idx_lt : forall n k s a, (s < n)%nat -> (a < k)%nat -> (s * k + a < n * k)%nat.
Proof. intros. nia. Qed.
Lemma idx_inj : forall k s a s' a', (a < k)%nat -> (a' < k)%nat -> (s * k + a = s' * k + a')%nat -> s = s' /\ a = a'.
Proof.
  intros k s a s' a' H H' E. assert (s = s') by (assert (K := Nat.div_unique (s * k + a) k s a H); assert (K' := Nat.div_unique (s' * k + a') k s' a' H'); rewrite K, K'; [rewrite E; reflexivity|lia|lia]).
  subst. split; [reflexivity|lia].
Qed.

Lemma rate_call : forall n k v0 cnt rt s a, 0 < v0 <= 1 -> rate_state n k v0 cnt rt -> (s < n)%nat -> (a < k)%nat ->
  exists al rt', p_call rt (s * k + a) = Some (al, rt') /\
    rate_state n k v0 (fun s' a' => ((if pair_eqb (s, a) (s', a') then 1 else 0) + cnt s' a')%nat) rt' /\
    v0 / INR (S (cnt s a)) <= al <= 1.
Proof.
  intros n k v0 cnt rt s a V0 [(ex & l & Hex & -> & Ll & Hl)|(j & ->)] Hs Ha.
  - pose proof (idx_lt n k s a Hs Ha) as Hi. pose proof (Hl s a Hs Ha) as Hc.
    set (i := (s * k + a)%nat) in *.
    assert (TP : tbl_pos (length l) i = i).
    { unfold tbl_pos. destruct (length l =? 1)%nat eqn:E1; [apply Nat.eqb_eq in E1; lia|reflexivity]. }
    assert (NE : nth_error l i = Some (cnt s a)) by (rewrite <- Hc; apply List.nth_error_nth'; lia).
    exists (v0 / Rpower (INR (Nat.max (cnt s a + 1) 1)) ex), (mkP v0 None None (setnth l i (cnt s a + 1)%nat) (KDecay ex)).
    split; [|split].
    + unfold p_call, p_update, tbl_get, tbl_set. cbn [p_n]. rewrite TP, NE. cbn [obind]. rewrite Common.upd_Some by lia. cbn [obind].
      unfold p_get, p_compute, tbl_get. cbn [p_kind p_n p_min p_max p_v0 np_clip]. rewrite Common.setnth_length, TP.
      rewrite Common.nth_error_setnth_eq by lia. reflexivity.
    + left. exists ex, (setnth l i (cnt s a + 1)%nat). split; [exact Hex|]. split; [reflexivity|].
      split; [rewrite Common.setnth_length; exact Ll|]. intros s' a' Hs' Ha'.
      destruct (pair_eqb (s, a) (s', a')) eqn:P.
      * apply pair_eqb_spec in P. injection P as <- <-. fold i. rewrite Common.nth_setnth_eq by lia. lia.
      * rewrite Common.nth_setnth_neq; [apply Hl; auto|]. intros E. apply idx_inj in E as [-> ->]; auto.
        rewrite (proj2 (pair_eqb_spec _ _)) in P by reflexivity. discriminate.
    + replace (Nat.max (cnt s a + 1) 1) with (S (cnt s a)) by lia.
      assert (I1 : 1 <= INR (S (cnt s a))) by (rewrite S_INR; pose proof (pos_INR (cnt s a)); lra).
      assert (P1 : 1 <= Rpower (INR (S (cnt s a))) ex).
      { rewrite <- (Rpower_O (INR (S (cnt s a)))) at 1 by lra. apply Rle_Rpower; lra. }
      assert (P2 : Rpower (INR (S (cnt s a))) ex <= INR (S (cnt s a))).
      { rewrite <- (Rpower_1 (INR (S (cnt s a)))) at 2 by lra. apply Rle_Rpower; lra. }
      split.
      * apply Rmult_le_compat_l; [lra|]. apply Rinv_le_contravar; lra.
      * assert (/ Rpower (INR (S (cnt s a))) ex <= 1) by (rewrite <- Rinv_1; apply Rinv_le_contravar; lra).
        assert (0 < / Rpower (INR (S (cnt s a))) ex) by (apply Rinv_0_lt_compat; lra).
        unfold Rdiv. nra.
  - exists v0, (mkP v0 None None [(j + 1)%nat] KConst). split; [reflexivity|]. split; [right; eauto|].
    assert (I1 : 1 <= INR (S (cnt s a))) by (rewrite S_INR; pose proof (pos_INR (cnt s a)); lra).
    split; [|lra]. assert (/ INR (S (cnt s a)) <= 1) by (rewrite <- Rinv_1; apply Rinv_le_contravar; lra).
    assert (0 < / INR (S (cnt s a))) by (apply Rinv_0_lt_compat; lra). unfold Rdiv. nra.
Qed.

(** ** The learning run *)
Section Learn.
Variables (n k : nat) (lv : list nat) (gamma eps : R) (e : denv) (s0 : nat) (hor : option nat).
Variables (u : nat -> R) (c r : nat -> nat) (a0 : qagent) (e0 : nat) (v0 : R).
Hypothesis IN : forall s, In s lv -> (s < n)%nat.
Hypothesis CL : closed lv k e.
Hypothesis S0 : In s0 lv.
Hypothesis K1 : (1 <= k)%nat.
Hypothesis RK : forall t, (r t < k)%nat.
Hypothesis SH : shaped n k (q_tab a0).
Hypothesis OK : q_ok a0 = true.
Hypothesis V0 : 0 < v0 <= 1.
Hypothesis RT : rate_state n k v0 (fun _ _ => O) (q_rate a0).

Notation Z t := (sits k gamma eps e s0 hor u c r a0 e0 t).
Notation X t := (smp eps e s0 u c r (Z t)).
Notation nxt := (next k gamma eps e s0 hor u c r).

Definition al (t : nat) : R :=
  match p_call (q_rate (z_ag (Z t))) (x_s (X t) * k + x_a (X t))%nat with Some (v, _) => v | None => 0 end.

Lemma act_lt : forall z, shaped n k (q_tab (z_ag z)) -> In (here s0 z) lv -> (act eps s0 u c r z < k)%nat.
Proof.
  intros z Sh Hl. unfold act, eg_draw. destruct (Rlt_dec _ _); [apply RK|].
  pose proof (row_length n k _ _ Sh (IN _ Hl)) as LR.
  assert (A : forall b, In b (argmaxs (row (q_tab (z_ag z)) (here s0 z))) -> (b < k)%nat).
  { intros b Hb. unfold argmaxs in Hb. apply filter_In in Hb as [Hb _]. apply in_seq in Hb. lia. }
  destruct (argmaxs _) as [|b [|b' m]].
  - destruct (c (q_draws (z_ag z))); cbn; lia.
  - apply A. left. reflexivity.
  - destruct (nth_in_or_default (c (q_draws (z_ag z))) (b :: b' :: m) O) as [I| ->]; [apply A, I|lia].
Qed.

Lemma run_inv : forall t,
  shaped n k (q_tab (z_ag (Z t))) /\ q_draws (z_ag (Z t)) = (q_draws a0 + t)%nat /\ q_ok (z_ag (Z t)) = true /\
  rate_state n k v0 (fun s a => visits (fun i => X i) s a t) (q_rate (z_ag (Z t))) /\ In (here s0 (Z t)) lv.
Proof.
  induction t as [|t (I1 & I2 & I3 & I4 & I5)].
  - unfold sits. cbn [Nat.iter nat_rect z_ag]. rewrite Nat.add_0_r. split; [exact SH|]. split; [reflexivity|]. split; [exact OK|]. split; [exact RT|exact S0].
  - pose proof (act_lt (Z t) I1 I5) as AK.
    destruct (rate_call n k v0 _ _ (here s0 (Z t)) (act eps s0 u c r (Z t)) V0 I4 (IN _ I5) AK) as (v & rt & PC & RS & _).
    change (Z (S t)) with (nxt (Z t)). unfold next. cbn [z_ag z_env z_last].
    change (x_s (X t)) with (here s0 (Z t)). change (x_a (X t)) with (act eps s0 u c r (Z t)). rewrite PC.
    cbn [q_tab q_draws q_ok q_rate]. split; [apply tset_shaped; exact I1|]. split; [lia|]. split; [exact I3|].
    split; [exact RS|].
    unfold here at 1. cbn [z_last z_env]. destruct (ends hor (since (Z t)) (x_abs (X t))) eqn:EN; [exact S0|].
    cbn [x_s']. apply CL; auto. unfold ends in EN. apply orb_false_iff in EN as [_ EN]. exact EN.
Qed.

Lemma run_step : forall t, 0 <= al t <= 1 /\ follows lv k e (X t) /\
  q_tab (z_ag (Z (S t))) = ql_update gamma (al t) (q_tab (z_ag (Z t))) (X t) /\
  v0 / INR (S (visits (fun i => X i) (x_s (X t)) (x_a (X t)) t)) <= al t.
Proof.
  intros t. destruct (run_inv t) as (I1 & I2 & I3 & I4 & I5). pose proof (act_lt (Z t) I1 I5) as AK.
  destruct (rate_call n k v0 _ _ (here s0 (Z t)) (act eps s0 u c r (Z t)) V0 I4 (IN _ I5) AK) as (v & rt & PC & _ & B1 & B2).
  assert (EA : al t = v).
  { unfold al. change (x_s (X t)) with (here s0 (Z t)). change (x_a (X t)) with (act eps s0 u c r (Z t)). rewrite PC. reflexivity. }
  rewrite EA. split.
  { split; [|exact B2]. eapply Rle_trans; [|exact B1]. apply Rlt_le, Rdiv_lt_0_compat; [lra|apply lt_0_INR; lia]. }
  split. { split; [exact I5|]. split; [exact AK|]. cbn [smp x_r x_s' x_abs x_s x_a]. unfold d_r, d_s, d_abs.
    destruct (e _ _) as [[? ?] ?]. reflexivity. }
  split; [|exact B1].
  change (Z (S t)) with (nxt (Z t)). unfold next at 1. cbn [z_ag].
  change (x_s (X t)) with (here s0 (Z t)). change (x_a (X t)) with (act eps s0 u c r (Z t)). rewrite PC. reflexivity.
Qed.

(** *** Exploration meets every pair *)
Definition cfg (z : sit) : nat * nat := (here s0 z, match hor with Some _ => since z | None => O end).

Lemma cfg_next : forall z, cfg (nxt z) = cstep e s0 hor (cfg z) (act eps s0 u c r z).
Proof.
  intros z. unfold cfg, cstep, here, since, next. cbn [z_last z_env z_steps fst snd]. cbn [smp x_abs x_s'].
  fold (here s0 z). fold (since z).
  assert (E : ends hor (match hor with Some _ => since z | None => O end) (d_abs e (here s0 z) (act eps s0 u c r z)) =
              ends hor (since z) (d_abs e (here s0 z) (act eps s0 u c r z))) by (unfold ends; destruct hor; reflexivity).
  rewrite E. destruct (ends hor (since z) _); [destruct hor; reflexivity|].
  unfold tick. destruct hor; [f_equal; lia|reflexivity].
Qed.

Fixpoint crun (p : nat * nat) (w : list nat) : nat * nat := match w with [] => p | a :: w' => crun (cstep e s0 hor p a) w' end.

Lemma met_app : forall w w' p, met e s0 hor p (w ++ w') = met e s0 hor p w ++ met e s0 hor (crun p w) w'.
Proof. induction w as [|a w IH]; intros w' p; [reflexivity|]. cbn [app met crun]. rewrite IH. reflexivity. Qed.

Hypothesis H0 : hor <> Some O.
Definition good (p : nat * nat) : Prop := In (fst p) lv /\ in_horizon hor (snd p).
Lemma crun_good : forall w p, good p -> Forall (fun b => (b < k)%nat) w -> good (crun p w).
Proof.
  induction w as [|a w IH]; intros p G F; [exact G|]. apply Forall_cons_iff in F as [Fa F]. cbn [crun]. apply IH; [|exact F].
  destruct G as [G1 G2]. unfold cstep. destruct (ends hor (snd p) (d_abs e (fst p) a)) eqn:EN.
  - split; [exact S0|]. unfold in_horizon. cbn [snd]. destruct hor as [[|h]|]; [congruence|lia|reflexivity].
  - unfold ends in EN. apply orb_false_iff in EN as [EH EA]. split; [apply CL; auto|].
    unfold in_horizon, tick in *. cbn [snd]. destruct hor as [h|]; [|reflexivity].
    apply Nat.leb_gt in EH. lia.
Qed.

Lemma universal_word : connected lv k e s0 hor -> forall s a, In s lv -> (a < k)%nat ->
  forall l, Forall good l -> exists w, Forall (fun b => (b < k)%nat) w /\ forall p, In p l -> In (s, a) (met e s0 hor p w).
Proof.
  intros CO s a Hs Ha. induction l as [|p l IH]; intros F; [exists []; split; [constructor|intros p []]|].
  apply Forall_cons_iff in F as [Fp F]. destruct (IH F) as (w & Fw & Hw).
  pose proof (crun_good w p Fp Fw) as [G1 G2]. destruct (crun p w) as [s1 m1] eqn:EC. cbn [fst snd] in G1, G2.
  destruct (CO s1 m1 s a G1 G2 Hs Ha) as (w' & Fw' & Hw'). exists (w ++ w'). split; [apply Forall_app; auto|].
  intros p' [<-|Hp]; rewrite met_app; apply in_or_app; [right; rewrite EC; exact Hw'|left; auto].
Qed.

Lemma block : forall w t, (forall j, (j < length w)%nat ->
     u (q_draws a0 + (t + j))%nat < eps /\ r (q_draws a0 + (t + j))%nat = nth j w O) ->
  forall s a, In (s, a) (met e s0 hor (cfg (Z t)) w) -> exists j, (j < length w)%nat /\ x_s (X (t + j)) = s /\ x_a (X (t + j)) = a.
Proof.
  induction w as [|b w IH]; intros t H s a I; [destruct I|].
  assert (AB : act eps s0 u c r (Z t) = b).
  { destruct (H O ltac:(cbn; lia)) as [U1 R1]. rewrite Nat.add_0_r in U1, R1. cbn [nth] in R1.
    unfold act. destruct (run_inv t) as (_ & -> & _). unfold eg_draw. destruct (Rlt_dec _ _); [exact R1|contradiction]. }
  destruct I as [I|I].
  - injection I as I1 I2. exists O. rewrite Nat.add_0_r. split; [cbn; lia|]. split; [exact I1|]. cbn [smp x_a]. rewrite AB. exact I2.
  - rewrite <- AB in I. rewrite <- cfg_next in I. change (nxt (Z t)) with (Z (S t)) in I.
    destruct (IH (S t)) with (s := s) (a := a) as (j & Hj & E); [|exact I|].
    + intros j Hj. specialize (H (S j) ltac:(cbn; lia)). cbn [nth] in H. replace (t + S j)%nat with (S t + j)%nat in H by lia. exact H.
    + exists (S j). replace (t + S j)%nat with (S t + j)%nat by lia. split; [cbn; lia|exact E].
Qed.

Lemma cfg_good : forall t, good (cfg (Z t)).
Proof.
  induction t as [|t IH].
  - split; [exact S0|]. unfold cfg, in_horizon, since, sits. cbn. destruct hor as [[|h]|]; [congruence|lia|reflexivity].
  - change (Z (S t)) with (nxt (Z t)). rewrite cfg_next.
    apply (crun_good [act eps s0 u c r (Z t)] (cfg (Z t)) IH). constructor; [|constructor].
    destruct (run_inv t) as (I1 & _ & _ & _ & I5). apply act_lt; auto.
Qed.

Lemma explored : connected lv k e s0 hor -> explores k eps u r -> visited_forever lv k (fun t => X t).
Proof.
  intros CO EX s a Hs Ha T.
  set (all := list_prod lv (seq 0 (match hor with Some h => h | None => 1%nat end))).
  assert (GA : forall p, In p all <-> good p).
  { intros [s1 m1]. unfold all, good, in_horizon. rewrite in_prod_iff, in_seq. cbn [fst snd]. destruct hor; intuition lia. }
  destruct (universal_word CO s a Hs Ha all) as (w & Fw & Hw); [apply Forall_forall; intros p Hp; apply GA; exact Hp|].
  destruct (EX w Fw (q_draws a0 + T)%nat) as (t & Ht & E).
  destruct (block w (t - q_draws a0)) with (s := s) (a := a) as (j & Hj & E1 & E2).
  - intros j Hj. replace (q_draws a0 + (t - q_draws a0 + j))%nat with (t + j)%nat by lia. apply E. exact Hj.
  - apply Hw, GA, cfg_good.
  - exists (t - q_draws a0 + j)%nat. split; [lia|]. split; [exact E1|exact E2].
Qed.

End Learn.

(** ** The theorems *)
(** The table after [learn(n_steps=N, n_steps_per_fit=1)] is the initial table updated with each
    transition, in order, once; every transition is a reaction of the environment. *)
Theorem core_q_learning_run : forall n k lv gamma eps e s0 hor u c r a0 e0 l N fuel,
  (forall s, In s lv -> (s < n)%nat) -> closed lv k e -> In s0 lv -> (1 <= k)%nat -> (forall t, (r t < k)%nat) ->
  shaped n k (q_tab a0) -> q_ok a0 = true -> suitable_rate n k (q_rate a0) -> (N <= fuel)%nat ->
  exists R1 rates, CoreModel.learn (q_world k gamma eps e s0 hor u c r) fuel e0 a0 l (Some N) None (Some 1%nat) None = CoreModel.Done R1 /\
    q_ok (CoreModel.r_ag R1) = true /\
    (let xs := map of_core (CoreModel.samples_of (CoreModel.r_log R1)) in
     length xs = N /\ length rates = N /\ Forall (follows lv k e) xs /\ Forall (fun v => 0 <= v <= 1) rates /\
     q_tab (CoreModel.r_ag R1) = fold_left (fun Q p => ql_update gamma (snd p) Q (fst p)) (combine xs rates) (q_tab a0)).
Proof.
  intros n k lv gamma eps e s0 hor u c r a0 e0 l N fuel IN CL S0 K1 RK SH OK (v0 & V0 & SR) HF.
  assert (RT : rate_state n k v0 (fun _ _ => O) (q_rate a0)).
  { destruct SR as [(ex & Hex & ->)| ->].
    - left. exists ex, (repeat O (n * k)). split; [exact Hex|]. split; [reflexivity|]. split; [apply repeat_length|].
      intros s a _ _. apply nth_repeat.
    - right. exists O. reflexivity. }
  destruct (learn_is_sits k gamma eps e s0 hor u c r N fuel e0 a0 l HF) as (R1 & L & MA & MX).
  exists R1, (map (al k gamma eps e s0 hor u c r a0 e0) (seq 0 N)). split; [exact L|].
  pose proof (run_inv n k lv gamma eps e s0 hor u c r a0 e0 v0 IN CL S0 K1 RK SH OK V0 RT) as RI.
  pose proof (run_step n k lv gamma eps e s0 hor u c r a0 e0 v0 IN CL S0 K1 RK SH OK V0 RT) as RS.
  rewrite MA. split; [apply (RI N)|]. cbv zeta. rewrite MX, !map_length, seq_length.
  split; [reflexivity|]. split; [reflexivity|].
  split. { apply Forall_forall. intros x Hx. apply in_map_iff in Hx as (t & <- & _). apply RS. }
  split. { apply Forall_forall. intros x Hx. apply in_map_iff in Hx as (t & <- & _). apply RS. }
  clear L MA MX HF. induction N as [|N IH]; [reflexivity|].
  destruct (RS N) as (_ & _ & -> & _). rewrite IH, seq_S, !map_app. cbn [map plus].
  assert (CA : forall (A B : Type) (l1 : list A) (l2 : list B) x y, length l1 = length l2 ->
     combine (l1 ++ [x]) (l2 ++ [y]) = combine l1 l2 ++ [(x, y)]).
  { clear. intros A B. induction l1 as [|z l1 IH]; destruct l2 as [|z' l2]; intros x y H; cbn in H; try discriminate; [reflexivity|].
    cbn [app combine]. rewrite IH by lia. reflexivity. }
  rewrite CA, fold_left_app by (rewrite !map_length; reflexivity). reflexivity.
Qed.

(** Trained for long enough, the agent knows the optimal values and acts optimally when greedy. *)
Theorem core_q_learning_converges : forall n k lv gamma eps e s0 hor u c r a0 e0 q,
  0 <= gamma < 1 -> (forall s, In s lv -> (s < n)%nat) -> closed lv k e -> In s0 lv -> (1 <= k)%nat -> hor <> Some O ->
  connected lv k e s0 hor -> (forall t, (r t < k)%nat) -> explores k eps u r ->
  shaped n k (q_tab a0) -> q_ok a0 = true -> suitable_rate n k (q_rate a0) ->
  optimal_values lv k gamma e q ->
  let trained l N fuel := CoreModel.learn (q_world k gamma eps e s0 hor u c r) fuel e0 a0 l (Some N) None (Some 1%nat) None in
  (forall d, 0 < d -> exists N0, forall l N fuel, (N0 <= N)%nat -> (N <= fuel)%nat ->
     exists R1, trained l N fuel = CoreModel.Done R1 /\
       forall s a, In s lv -> (a < k)%nat -> Rabs (tget (q_tab (CoreModel.r_ag R1)) s a - q s a) < d) /\
  (exists N0, forall l N fuel, (N0 <= N)%nat -> (N <= fuel)%nat ->
     exists R1, trained l N fuel = CoreModel.Done R1 /\
       forall s a, In s lv -> In a (argmaxs (row (q_tab (CoreModel.r_ag R1)) s)) -> is_max k (q s) (q s a)).
Proof.
  intros n k lv gamma eps e s0 hor u c r a0 e0 q G IN CL S0 K1 H0 CO RK EX SH OK (v0 & V0 & SR) OV trained.
  assert (RT : rate_state n k v0 (fun _ _ => O) (q_rate a0)).
  { destruct SR as [(ex & Hex & ->)| ->].
    - left. exists ex, (repeat O (n * k)). split; [exact Hex|]. split; [reflexivity|]. split; [apply repeat_length|].
      intros s a _ _. apply nth_repeat.
    - right. exists O. reflexivity. }
  pose proof (run_step n k lv gamma eps e s0 hor u c r a0 e0 v0 IN CL S0 K1 RK SH OK V0 RT) as RS.
  pose proof (explored n k lv gamma eps e s0 hor u c r a0 e0 v0 IN CL S0 K1 RK SH OK V0 RT H0 CO EX) as VF.
  destruct (q_learning_converges n lv k gamma e q (al k gamma eps e s0 hor u c r a0 e0)
     (fun t => smp eps e s0 u c r (sits k gamma eps e s0 hor u c r a0 e0 t))
     (fun t => q_tab (z_ag (sits k gamma eps e s0 hor u c r a0 e0 t))) G IN CL OV SH) as [CV (N0 & HN)].
  - intros t. destruct (RS t) as (A & B & C & _). auto.
  - apply (decaying_rates_diverge lv k _ _ v0); [apply V0|exact VF|]. intros t. apply RS.
  - split.
    + intros d Hd. destruct (CV d Hd) as (N1 & HN1). exists N1. intros l N fuel HN' HF.
      destruct (learn_is_sits k gamma eps e s0 hor u c r N fuel e0 a0 l HF) as (R1 & L & MA & _).
      exists R1. split; [exact L|]. rewrite MA. apply (HN1 N HN').
    + exists N0. intros l N fuel HN' HF.
      destruct (learn_is_sits k gamma eps e s0 hor u c r N fuel e0 a0 l HF) as (R1 & L & MA & _).
      exists R1. split; [exact L|]. rewrite MA. apply (HN N HN').
Qed.

(** ** The hypotheses can be met *)
(** Sequences that try everything exist: block i (of length i+1) holds the digits of i in base k. *)
Definition bstep (p : nat * nat) : nat * nat := if (snd p =? fst p)%nat then (S (fst p), O) else (fst p, S (snd p)).
Definition bpos (t : nat) : nat * nat := Nat.iter t bstep (O, O).
Definition digit (k i j : nat) : nat := ((i / k ^ j) mod k)%nat.
Fixpoint word_code (k : nat) (w : list nat) : nat := match w with [] => O | a :: w' => (a + k * word_code k w')%nat end.

Lemma bpos_block : forall i, exists b, (i <= b)%nat /\ forall j, (j <= i)%nat -> bpos (b + j) = (i, j).
Proof.
  assert (IN1 : forall b i, bpos b = (i, O) -> forall j, (j <= i)%nat -> bpos (b + j) = (i, j)).
  { intros b i E. induction j as [|j IH]; intros H; [rewrite Nat.add_0_r; exact E|].
    rewrite Nat.add_succ_r. change (bpos (S (b + j))) with (bstep (bpos (b + j))). rewrite IH by lia.
    unfold bstep. cbn [fst snd]. rewrite (proj2 (Nat.eqb_neq j i)) by lia. reflexivity. }
  induction i as [|i (b & Hb & IH)].
  - exists O. split; [lia|]. apply IN1. reflexivity.
  - exists (S (b + i)). split; [lia|]. apply IN1.
    change (bpos (S (b + i))) with (bstep (bpos (b + i))). rewrite IH by lia. unfold bstep. cbn [fst snd].
    rewrite Nat.eqb_refl. reflexivity.
Qed.

Lemma digit_code : forall k w M j, (1 <= k)%nat -> Forall (fun b => (b < k)%nat) w -> (j < length w)%nat ->
  digit k (word_code k w + k ^ length w * M) j = nth j w O.
Proof.
  intros k. induction w as [|a w IH]; intros M j K1 F Hj; [cbn in Hj; lia|].
  apply Forall_cons_iff in F as [Fa F]. cbn [word_code length].
  replace (a + k * word_code k w + k ^ S (length w) * M)%nat
    with (a + (word_code k w + k ^ length w * M) * k)%nat by (cbn [Nat.pow]; nia).
  unfold digit in *. destruct j as [|j].
  - cbn [Nat.pow nth]. rewrite Nat.div_1_r, Nat.mod_add by lia. apply Nat.mod_small. exact Fa.
  - cbn [Nat.pow nth]. rewrite <- Nat.div_div; [|lia|apply Nat.pow_nonzero; lia].
    rewrite Nat.div_add by lia. rewrite (Nat.div_small a k) by lia. cbn [plus]. apply IH; auto. cbn [length] in Hj. lia.
Qed.

Theorem exploration_possible : forall k eps, (1 <= k)%nat -> 0 < eps ->
  exists u r, (forall t, (r t < k)%nat) /\ explores k eps u r.
Proof.
  intros k eps K1 E. exists (fun _ => 0), (fun t => digit k (fst (bpos t)) (snd (bpos t))). split.
  - intros t. apply Nat.mod_upper_bound. lia.
  - intros w F T. set (i := (word_code k w + k ^ length w * (T + length w))%nat).
    assert (P : (1 <= k ^ length w)%nat) by (assert (k ^ length w <> 0)%nat by (apply Nat.pow_nonzero; lia); lia).
    assert (Hi : (T + length w <= i)%nat) by (unfold i; nia).
    destruct (bpos_block i) as (b & Hb & HB). exists b. split; [lia|]. intros j Hj. split; [exact E|].
    rewrite HB by lia. cbn [fst snd]. unfold i. apply digit_code; auto.
Qed.

(** The environment of [ConvProps.optimal_ex], episodes cut after three steps, learning rate
    1 / (visits of the pair). *)
Definition ex_agent : qagent := mkQA (tconst 3 2 0) (decay_init 1 1 None None 6) 0 true.

Example connected_ex : connected [0; 1]%nat 2 ex_env 0 (Some 3%nat).
Proof.
  intros s m s' a' [<-|[<-|[]]] Hm [<-|[<-|[]]] Ha; cbn in Hm.
  - exists [a']. split; [auto|]. left. reflexivity.
  - destruct m as [|[|[|m]]]; [exists [1; a']%nat|exists [1; a']%nat|exists [0; 1; a']%nat|lia]; (split; [auto|]); cbn; auto.
  - exists [0; a']%nat. split; [auto|]. unfold met, cstep, ends. cbn [fst snd]. rewrite orb_true_r. cbn. auto.
  - exists [a']. split; [auto|]. left. reflexivity.
Qed.

Example core_learns_ex : exists u r, forall c d, 0 < d -> exists N0, forall l N fuel, (N0 <= N)%nat -> (N <= fuel)%nat ->
  exists R1, CoreModel.learn (q_world 2 (1 / 2) (1 / 10) ex_env 0 (Some 3%nat) u c r) fuel O ex_agent l (Some N) None (Some 1%nat) None
    = CoreModel.Done R1 /\ Rabs (tget (q_tab (CoreModel.r_ag R1)) 1 0 - 4) < d.
Proof.
  destruct (exploration_possible 2 (1 / 10)) as (u & r & RK & EX); [lia|lra|]. exists u, r. intros c d Hd.
  destruct (core_q_learning_converges 3 2 [0; 1]%nat (1 / 2) (1 / 10) ex_env 0 (Some 3%nat) u c r ex_agent O
     (fun s _ => match s with O => 2 | _ => 4 end)) as [CV _]; auto; try lra; try discriminate.
  - intros s [<-|[<-|[]]]; lia.
  - apply optimal_ex.
  - left. reflexivity.
  - apply connected_ex.
  - apply tconst_shaped.
  - exists 1. split; [lra|]. left. exists 1. split; [lra|reflexivity].
  - apply optimal_ex.
  - destruct (CV d Hd) as (N0 & HN). exists N0. intros l N fuel H1 H2. destruct (HN l N fuel H1 H2) as (R1 & L & B).
    exists R1. split; [exact L|]. apply (B 1%nat O); [right; left; reflexivity|lia].
Qed.

Print Assumptions core_q_learning_run.
Print Assumptions core_q_learning_converges.
Print Assumptions exploration_possible.

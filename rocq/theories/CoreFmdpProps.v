(** C113: Q-learning run by [Core] in a [FiniteMDP]. *)
From Coq Require Import List Arith Lia Bool Reals Lra ZArith.
From Verif Require Import Common ParamModel PolicyModel PolicyProofs TdModel TdSpec TdProofs CoreTdModel FmdpModel CoreFmdpModel ConvProps StochSpec StochProofs StochProps.
From Verif Require CoreModel CoreTdProps FmdpSpec FmdpProps.
Import ListNotations.
Local Open Scope R_scope.

(** ** What a run is *)
Record sit {En : Type} := mkSit { z_ag : qagent; z_env : En; z_obs : nat; z_last : bool; z_steps : nat }.
Arguments sit : clear implicits.

Section Run.
Context {En : Type}.
Variable (k : nat) (gamma eps : R) (hor : option nat).
Variable (u : nat -> R) (c r : nat -> nat).
Variable ereset : En -> option nat -> En * nat.
Variable estep : En -> nat -> En * nat * R * bool.

Definition here (z : sit En) : En * nat := if z_last z then ereset (z_env z) None else (z_env z, z_obs z).
Definition since (z : sit En) : nat := if z_last z then O else z_steps z.
Definition act (z : sit En) : nat :=
  let t := q_draws (z_ag z) in eg_draw (row (q_tab (z_ag z)) (snd (here z))) eps (u t) (c t) (r t).
Definition res (z : sit En) : En * nat * R * bool := estep (fst (here z)) (act z).
Definition smp (z : sit En) : sample :=
  {| x_s := snd (here z); x_a := act z; x_r := snd (fst (res z)); x_s' := snd (fst (fst (res z))); x_abs := snd (res z) |}.

Definition next (z : sit En) : sit En :=
  let x := smp z in
  let a := z_ag z in
  mkSit En (match p_call (q_rate a) (x_s x * k + x_a x)%nat with
         | Some (al, rt) => mkQA (ql_update gamma al (q_tab a) x) rt (q_draws a + 1) (q_ok a)
         | None => mkQA (q_tab a) (q_rate a) (q_draws a + 1) false
         end) (fst (fst (fst (res z)))) (x_s' x) (CoreTdProps.ends hor (since z) (x_abs x)) (since z + 1).

Definition sits (a0 : qagent) (e0 : En) (t : nat) : sit En := Nat.iter t next (mkSit En a0 e0 0 true 0).

Notation W := (g_world k gamma eps hor u c r ereset estep).

Definition matches (N : nat) (z : sit En) (xs : list sample) (t : nat) (R0 : @CoreModel.run En qagent nat nat R unit unit) : Prop :=
  CoreModel.r_env R0 = z_env z /\ CoreModel.r_ag R0 = z_ag z /\ CoreModel.r_last R0 = z_last z /\
  CoreModel.r_ds R0 = CoreModel.mkD [] [] /\
  (z_last z = false -> CoreModel.r_obs R0 = Some (z_obs z) /\ CoreModel.r_ps R0 = Some tt /\ CoreModel.r_steps R0 = z_steps z) /\
  map of_core (CoreModel.samples_of (CoreModel.r_log R0)) = xs /\
  exists te ce, CoreModel.r_logic R0 = CoreModel.mkL CoreModel.FitSteps CoreModel.MoveSteps (Some N) None (Some 1%nat) None te t ce 0.

Lemma iterate_matches : forall N z xs t R0, matches N z xs t R0 ->
  exists R1, CoreModel.iterate W 1 None R0 = Some R1 /\ matches N (next z) (xs ++ [smp z]) (S t) R1.
Proof.
  intros N z xs t R0 (E1 & E2 & E3 & E4 & E5 & E6 & te & ce & E7).
  destruct R0 as [en ag lg ob ps st la ds log]. cbn -[CoreModel.samples_of] in E1, E2, E3, E4, E5, E6, E7. subst en ag la ds lg.
  assert (K : exists R1 log1, (if z_last z then CoreModel.do_reset W None
        (CoreModel.mkR (z_env z) (z_ag z) (CoreModel.mkL CoreModel.FitSteps CoreModel.MoveSteps (Some N) None (Some 1%nat) None te t ce 0)
           ob ps st (z_last z) (CoreModel.mkD [] []) log)
      else Some (CoreModel.mkR (z_env z) (z_ag z) (CoreModel.mkL CoreModel.FitSteps CoreModel.MoveSteps (Some N) None (Some 1%nat) None te t ce 0)
           ob ps st (z_last z) (CoreModel.mkD [] []) log)) = Some R1 /\
      R1 = CoreModel.mkR (fst (here z)) (z_ag z) (CoreModel.mkL CoreModel.FitSteps CoreModel.MoveSteps (Some N) None (Some 1%nat) None te t ce 0)
        (Some (snd (here z))) (Some tt) (since z) (z_last z) (CoreModel.mkD [] []) log1 /\
      map of_core (CoreModel.samples_of log1) = xs).
  { unfold here, since. destruct (z_last z) eqn:ZL.
    - unfold CoreModel.do_reset. cbn. destruct (ereset (z_env z) None) as [en s] eqn:ER. cbn -[CoreModel.samples_of].
      eexists. exists (log ++ [CoreModel.EvReset None s tt tt]). split; [reflexivity|]. split; [reflexivity|].
      rewrite CoreTdProps.samples_app, map_app, E6. apply app_nil_r.
    - destruct (E5 eq_refl) as (-> & -> & ->). eexists. eexists. split; [reflexivity|]. split; [reflexivity|]. exact E6. }
  destruct K as (R1 & log1 & K1 & -> & K3). unfold CoreModel.iterate, obind.
  cbn [CoreModel.r_last]. rewrite K1. unfold CoreModel.do_step. cbn [CoreModel.r_obs CoreModel.r_ps CoreModel.draw g_world q_draw CoreModel.r_ag CoreModel.env_step CoreModel.r_env CoreModel.prep].
  change (eg_draw (row (q_tab (z_ag z)) (snd (here z))) eps (u (q_draws (z_ag z))) (c (q_draws (z_ag z))) (r (q_draws (z_ag z)))) with (act z).
  change (estep (fst (here z)) (act z)) with (res z).
  destruct (res z) as [[[en' s'] rw] ab] eqn:EE.
  cbn [CoreModel.r_steps CoreModel.r_logic CoreModel.r_ds CoreModel.r_log CoreModel.rows length Nat.ltb Nat.leb CoreModel.last CoreModel.horizon].
  cbn -[q_fit Nat.add]. rewrite (Nat.add_comm 0 1). cbn -[q_fit Nat.add].
  eexists. split; [reflexivity|].
  assert (ES : smp z = of_core (CoreModel.mkS (snd (here z)) (act z) rw s' ab
       ((match hor with Some h => (h <=? since z + 1)%nat | None => false end) || ab) tt tt)).
  { unfold smp. rewrite EE. reflexivity. }
  unfold matches. cbn -[q_fit Nat.add of_core CoreModel.samples_of next].
  split; [unfold next; rewrite EE; reflexivity|].
  split. { unfold q_fit, next. rewrite ES. cbn -[Nat.add]. destruct (p_call _ _) as [[al rt]|]; reflexivity. }
  split. { unfold next, CoreTdProps.ends. rewrite ES. reflexivity. }
  split; [reflexivity|].
  split. { intros _. unfold next. rewrite ES. auto. }
  split. { rewrite !CoreTdProps.samples_app, !map_app, K3, ES. cbn [CoreModel.samples_of flat_map map app]. rewrite app_nil_r. reflexivity. }
  replace (S t) with (t + 1)%nat by lia. do 2 eexists. reflexivity.
Qed.

Lemma loop_matches : forall N m fuel z xs t R0, (t + m = N)%nat -> (m <= fuel)%nat -> matches N z xs t R0 ->
  exists R1, CoreModel.loop W fuel 1 None R0 = CoreModel.Done R1 /\
    matches N (Nat.iter m next z) (xs ++ map (fun i => smp (Nat.iter i next z)) (seq 0 m)) N R1.
Proof.
  intros N. induction m as [|m IH]; intros fuel z xs t R0 HT HF M.
  - exists R0. rewrite app_nil_r. cbn [Nat.iter nat_rect]. replace N with t in * by lia. split; [|exact M].
    destruct M as (_ & _ & _ & _ & _ & _ & te & ce & EL).
    destruct fuel; cbn [CoreModel.loop]; rewrite EL; unfold CoreModel.move_required; cbn [CoreModel.move_req CoreModel.n_steps CoreModel.tot_st];
    rewrite Nat.ltb_irrefl; reflexivity.
  - destruct fuel as [|fuel]; [lia|]. destruct (iterate_matches N z xs t R0 M) as (R1 & I1 & M1).
    destruct (IH fuel (next z) _ (S t) R1 ltac:(lia) ltac:(lia) M1) as (R2 & L2 & M2).
    exists R2. split.
    + cbn [CoreModel.loop]. destruct M as (_ & _ & _ & _ & _ & _ & te & ce & EL). rewrite EL.
      unfold CoreModel.move_required. cbn [CoreModel.move_req CoreModel.n_steps CoreModel.tot_st].
      rewrite (proj2 (Nat.ltb_lt t N)) by lia. rewrite I1. exact L2.
    + assert (SW : forall i y, Nat.iter (S i) next y = Nat.iter i next (next y)).
      { clear. induction i; intros y; [reflexivity|]. change (next (Nat.iter (S i) next y) = next (Nat.iter i next (next y))).
        rewrite IHi. reflexivity. }
      rewrite SW. cbn [seq map]. rewrite <- seq_shift, map_map. cbn [Nat.iter nat_rect] in *.
      rewrite <- app_assoc in M2. cbn [app] in M2.
      rewrite (map_ext _ (fun i => smp (Nat.iter i next (next z)))); [exact M2|]. intros i. f_equal. apply SW.
Qed.

Lemma learn_is_sits : forall N fuel e0 a0 l, (N <= fuel)%nat ->
  exists R1, CoreModel.learn W fuel e0 a0 l (Some N) None (Some 1%nat) None = CoreModel.Done R1 /\
    CoreModel.r_ag R1 = z_ag (sits a0 e0 N) /\ CoreModel.r_env R1 = z_env (sits a0 e0 N) /\
    map of_core (CoreModel.samples_of (CoreModel.r_log R1)) = map (fun t => smp (sits a0 e0 t)) (seq 0 N).
Proof.
  intros N fuel e0 a0 l HF. unfold CoreModel.learn. cbn [CoreModel.initialize_learn CoreModel.capacity].
  unfold CoreModel.initialize_run. cbn.
  destruct (loop_matches N N fuel (mkSit En a0 e0 0 true 0) [] 0 (CoreModel.start e0 a0
     (CoreModel.mkL CoreModel.FitSteps CoreModel.MoveSteps (Some N) None (Some 1%nat) None 0 0 0 0)) ltac:(lia) HF) as (R1 & L & M).
  - unfold matches, CoreModel.start. cbn. repeat split; try discriminate. do 2 eexists. reflexivity.
  - exists R1. split; [exact L|]. destruct M as (ME & MA & _ & _ & _ & MX & _). split; [exact MA|]. split; [exact ME|exact MX].
Qed.
End Run.

(** ** The learning rate 1/n *)
Definition avg_state (n k : nat) (cnt : nat -> nat -> nat) (rt : param) : Prop :=
  exists l, rt = mkP 1 None None l (KDecay 1) /\ length l = (n * k)%nat /\
    forall s a, (s < n)%nat -> (a < k)%nat -> nth (s * k + a) l O = cnt s a.

Lemma avg_call : forall n k cnt rt s a, avg_state n k cnt rt -> (s < n)%nat -> (a < k)%nat ->
  exists rt', p_call rt (s * k + a) = Some (/ INR (S (cnt s a)), rt') /\
    avg_state n k (fun s' a' => ((if pair_eqb (s, a) (s', a') then 1 else 0) + cnt s' a')%nat) rt'.
Proof.
  intros n k cnt rt s a (l & -> & Ll & Hl) Hs Ha.
  pose proof (CoreTdProps.idx_lt n k s a Hs Ha) as Hi. pose proof (Hl s a Hs Ha) as Hc.
  set (i := (s * k + a)%nat) in *.
  assert (TP : tbl_pos (length l) i = i).
  { unfold tbl_pos. destruct (length l =? 1)%nat eqn:E1; [apply Nat.eqb_eq in E1; lia|reflexivity]. }
  assert (NE : nth_error l i = Some (cnt s a)) by (rewrite <- Hc; apply List.nth_error_nth'; lia).
  exists (mkP 1 None None (setnth l i (cnt s a + 1)%nat) (KDecay 1)). split.
  - unfold p_call, p_update, tbl_get, tbl_set. cbn [p_n]. rewrite TP, NE. cbn [obind]. rewrite Common.upd_Some by lia. cbn [obind].
    unfold p_get, p_compute, tbl_get. cbn [p_kind p_n p_min p_max p_v0 np_clip]. rewrite Common.setnth_length, TP.
    rewrite Common.nth_error_setnth_eq by lia. cbn [obind].
    replace (Nat.max (cnt s a + 1) 1) with (S (cnt s a)) by lia. rewrite Rpower_1 by (apply lt_0_INR; lia).
    unfold Rdiv. rewrite Rmult_1_l. reflexivity.
  - exists (setnth l i (cnt s a + 1)%nat). split; [reflexivity|].
    split; [rewrite Common.setnth_length; exact Ll|]. intros s' a' Hs' Ha'.
    destruct (pair_eqb (s, a) (s', a')) eqn:P.
    + apply pair_eqb_spec in P. injection P as <- <-. fold i. rewrite Common.nth_setnth_eq by lia. lia.
    + rewrite Common.nth_setnth_neq; [apply Hl; auto|]. intros E. apply CoreTdProps.idx_inj in E as [-> ->]; auto.
      rewrite (proj2 (pair_eqb_spec _ _)) in P by reflexivity. discriminate.
Qed.

(** ** The run of a finite MDP *)
(** The environment as a list of outcomes: outcome j is the move to state j. *)
Definition fmdp_env (n k : nat) (p rw : nat -> nat -> nat -> R) : senv := fun s a =>
  map (fun j => mkO (p s a j) (rw s a j) j (negb (any_row n k p j))) (seq 0 n).
(** The states in which actions are taken. *)
Definition live (n k : nat) (p : nat -> nat -> nat -> R) : list nat := filter (any_row n k p) (seq 0 n).

Lemma live_iff : forall n k p s, In s (live n k p) <-> (s < n)%nat /\ any_row n k p s = true.
Proof. intros. unfold live. rewrite filter_In, in_seq. intuition lia. Qed.

Lemma fmdp_nth : forall n k p rw s a j, (j < n)%nat ->
  nth j (fmdp_env n k p rw s a) o_dflt = mkO (p s a j) (rw s a j) j (negb (any_row n k p j)).
Proof.
  intros n k p rw s a j Hj. unfold fmdp_env.
  rewrite (nth_indep _ o_dflt ((fun j => mkO (p s a j) (rw s a j) j (negb (any_row n k p j))) O)) by (rewrite map_length, seq_length; exact Hj).
  rewrite (map_nth (fun j => mkO (p s a j) (rw s a j) j (negb (any_row n k p j)))), seq_nth by exact Hj. reflexivity.
Qed.

Lemma live_row : forall n k p s a, FmdpProps.wf_mdp n k p -> In s (live n k p) -> (a < k)%nat -> FmdpSpec.distribution n (p s a).
Proof.
  intros n k p s a WF Hs Ha. apply live_iff in Hs as [Hn Hr]. destruct (WF s Hn) as [D|T]; [apply D, Ha|].
  apply FmdpProps.any_row_iff in T. congruence.
Qed.

Lemma fmdp_env_ok : forall n k p rw, FmdpProps.wf_mdp n k p -> senv_ok (live n k p) k (fmdp_env n k p rw).
Proof.
  intros n k p rw WF s a Hs Ha. destruct (live_row n k p s a WF Hs Ha) as (D1 & D2 & _). split.
  - intros o Ho. unfold fmdp_env in Ho. apply in_map_iff in Ho as (j & <- & Hj). apply in_seq in Hj. cbn [o_p o_abs o_s]. split; [apply D1; lia|].
    intros A. apply negb_false_iff in A. apply live_iff. split; [lia|exact A].
  - unfold fmdp_env. rewrite map_map. cbn [o_p]. exact D2.
Qed.

Section Fmdp.
Variables (n k : nat) (p rw : nat -> nat -> nat -> R) (gamma eps : R) (hor : option nat).
Variables (u : nat -> R) (c r : nat -> nat) (b : nat -> nat) (w : nat -> nat -> nat -> nat).
Variables (a0 : qagent) (e0 : fenv).
Notation lv := (live n k p).
Notation e := (fmdp_env n k p rw).
Hypothesis WF : FmdpProps.wf_mdp n k p.
Hypothesis BL : forall t, In (b t) lv.
Hypothesis WO : forall t s a, In s lv -> (a < k)%nat -> choice_ok n (p s a) (w t s a).
Hypothesis K1 : (1 <= k)%nat.
Hypothesis RK : forall t, (r t < k)%nat.
Hypothesis SH : shaped n k (q_tab a0).
Hypothesis OK : q_ok a0 = true.
Hypothesis OKE : f_ok e0 = true.
Hypothesis RT : q_rate a0 = decay_init 1 1 None None (n * k).

Notation Z t := (sits k gamma eps hor u c r (f_reset b) (f_step n k p rw w) a0 e0 t).
Notation X t := (smp eps u c r (f_reset b) (f_step n k p rw w) (Z t)).
Notation nxt := (next k gamma eps hor u c r (f_reset b) (f_step n k p rw w)).
Notation hr z := (here (f_reset b) z).
Notation ac z := (act eps u c r (f_reset b) z).
Notation rs z := (res eps u c r (f_reset b) (f_step n k p rw w) z).

Lemma act_lt : forall z, shaped n k (q_tab (z_ag z)) -> (snd (hr z) < n)%nat -> (ac z < k)%nat.
Proof.
  intros z Sh Hl. unfold act, eg_draw. destruct (Rlt_dec _ _); [apply RK|].
  pose proof (row_length n k _ _ Sh Hl) as LR.
  assert (A : forall x, In x (argmaxs (row (q_tab (z_ag z)) (snd (hr z)))) -> (x < k)%nat).
  { intros x Hb. unfold argmaxs in Hb. apply filter_In in Hb as [Hb _]. apply in_seq in Hb. lia. }
  destruct (argmaxs _) as [|x [|b' m]].
  - destruct (c (q_draws (z_ag z))); cbn; lia.
  - apply A. left. reflexivity.
  - destruct (nth_in_or_default (c (q_draws (z_ag z))) (x :: b' :: m) O) as [I| ->]; [apply A, I|lia].
Qed.

(** What one step of the environment does. *)
Lemma res_ok : forall z, In (snd (hr z)) lv -> f_s (fst (hr z)) = snd (hr z) -> f_ok (fst (hr z)) = true -> (ac z < k)%nat ->
  let j := w (f_clock (fst (hr z))) (snd (hr z)) (ac z) in
  (j < n)%nat /\ rs z = (mkF j (f_clock (fst (hr z)) + 1) true, j, rw (snd (hr z)) (ac z) j, negb (any_row n k p j)).
Proof.
  intros z HL ES EO HA j. destruct (WO (f_clock (fst (hr z))) _ _ HL HA) as [W1 W2]. split; [exact W1|].
  unfold res, f_step. rewrite ES. fold j. unfold fmdp_step.
  destruct (live_row n k p _ _ WF HL HA) as (_ & D & _). fold (row_total n (p (snd (hr z)) (ac z))) in D.
  destruct (Req_EM_T _ _) as [|NE]; [|contradiction]. rewrite EO. reflexivity.
Qed.

Lemma run_inv : forall t,
  shaped n k (q_tab (z_ag (Z t))) /\ q_ok (z_ag (Z t)) = true /\ f_ok (z_env (Z t)) = true /\
  avg_state n k (fun s a => visits (fun i => X i) s a t) (q_rate (z_ag (Z t))) /\
  In (snd (hr (Z t))) lv /\ f_s (fst (hr (Z t))) = snd (hr (Z t)) /\ f_ok (fst (hr (Z t))) = true.
Proof.
  induction t as [|t (I1 & I2 & I3 & I4 & I5 & I6 & I7)].
  - unfold sits. cbn [Nat.iter nat_rect z_ag z_env]. split; [exact SH|]. split; [exact OK|]. split; [exact OKE|].
    split. { exists (repeat O (n * k)). split; [exact RT|]. split; [apply repeat_length|]. intros s a _ _. apply nth_repeat. }
    unfold here. cbn. split; [apply BL|]. split; [reflexivity|exact OKE].
  - assert (Hn : (snd (hr (Z t)) < n)%nat) by (apply live_iff in I5; tauto).
    pose proof (act_lt (Z t) I1 Hn) as AK.
    destruct (avg_call n k _ _ (snd (hr (Z t))) (ac (Z t)) I4 Hn AK) as (rt & PC & RS).
    destruct (res_ok (Z t) I5 I6 I7 AK) as [J1 J2].
    change (Z (S t)) with (nxt (Z t)). unfold next. cbn [z_ag z_env z_last].
    change (x_s (X t)) with (snd (hr (Z t))). change (x_a (X t)) with (ac (Z t)). rewrite PC.
    cbn [q_tab q_draws q_ok q_rate]. split; [apply tset_shaped; exact I1|]. split; [exact I2|].
    split; [rewrite J2; reflexivity|]. split; [exact RS|].
    unfold here. cbn [z_last z_env z_obs]. destruct (CoreTdProps.ends hor (since (Z t)) (x_abs (X t))) eqn:EN.
    + cbn [f_reset fst snd f_s f_ok]. split; [apply BL|]. split; [reflexivity|]. rewrite J2. reflexivity.
    + cbn [fst snd smp x_s']. rewrite J2. cbn [fst snd f_s f_ok]. split; [|auto].
      unfold CoreTdProps.ends in EN. apply orb_false_iff in EN as [_ EN]. cbn [smp x_abs] in EN. rewrite J2 in EN. cbn [snd] in EN.
      apply negb_false_iff in EN. apply live_iff. auto.
Qed.

Definition al (t : nat) : R := / INR (S (visits (fun i => X i) (x_s (X t)) (x_a (X t)) t)).

Lemma run_step : forall t, is_outcome lv k e (X t) (x_s' (X t)) /\
  q_tab (z_ag (Z (S t))) = ql_update gamma (al t) (q_tab (z_ag (Z t))) (X t).
Proof.
  intros t. destruct (run_inv t) as (I1 & I2 & I3 & I4 & I5 & I6 & I7).
  assert (Hn : (snd (hr (Z t)) < n)%nat) by (apply live_iff in I5; tauto).
  pose proof (act_lt (Z t) I1 Hn) as AK.
  destruct (avg_call n k _ _ (snd (hr (Z t))) (ac (Z t)) I4 Hn AK) as (rt & PC & RS).
  destruct (res_ok (Z t) I5 I6 I7 AK) as [J1 J2]. split.
  - split; [exact I5|]. split; [exact AK|].
    assert (EJ : x_s' (X t) = w (f_clock (fst (hr (Z t)))) (snd (hr (Z t))) (ac (Z t))) by (cbn [smp x_s']; rewrite J2; reflexivity).
    rewrite EJ. split; [unfold fmdp_env; rewrite map_length, seq_length; exact J1|]. rewrite fmdp_nth by exact J1. cbn [o_r o_s o_abs].
    cbn [smp x_s x_a x_r x_s' x_abs]. rewrite J2. cbn [fst snd]. auto.
  - change (Z (S t)) with (nxt (Z t)). unfold next at 1. cbn [z_ag]. unfold al.
    change (x_s (X t)) with (snd (hr (Z t))). change (x_a (X t)) with (ac (Z t)). rewrite PC. reflexivity.
Qed.
End Fmdp.

(** The agent trained by [learn(n_steps=N, n_steps_per_fit=1)] in a FiniteMDP goes through one
    sequence of transitions, whatever N is; if in that sequence every live pair occurs again and
    again and is followed by each state with the frequency given by the matrix [p], the table
    converges to the optimal values and the greedy actions become optimal. *)
Theorem core_q_learning_finite_mdp : forall n k p rw gamma eps hor u c r b w a0 e0 q,
  0 <= gamma < 1 -> FmdpProps.wf_mdp n k p -> (1 <= k)%nat ->
  (forall t, (b t < n)%nat /\ ~ FmdpProps.terminal n k p (b t)) ->
  (forall t s a, (s < n)%nat -> ~ FmdpProps.terminal n k p s -> (a < k)%nat -> choice_ok n (p s a) (w t s a)) ->
  (forall t, (r t < k)%nat) ->
  shaped n k (q_tab a0) -> q_ok a0 = true -> f_ok e0 = true -> q_rate a0 = decay_init 1 1 None None (n * k) ->
  s_optimal (live n k p) k gamma (fmdp_env n k p rw) q ->
  let trained l N fuel := CoreModel.learn (f_world n k p rw gamma eps hor u c r b w) fuel e0 a0 l (Some N) None (Some 1%nat) None in
  exists xs,
    (forall l N fuel, (N <= fuel)%nat -> exists R1, trained l N fuel = CoreModel.Done R1 /\
       q_ok (CoreModel.r_ag R1) = true /\ f_ok (CoreModel.r_env R1) = true /\
       map of_core (CoreModel.samples_of (CoreModel.r_log R1)) = map xs (seq 0 N)) /\
    (visited_forever (live n k p) k xs ->
     (forall s a j, (s < n)%nat -> ~ FmdpProps.terminal n k p s -> (a < k)%nat -> (j < n)%nat ->
        forall d, 0 < d -> exists N, forall t, (N <= t)%nat ->
          Rabs (INR (met_outcome xs (fun i => x_s' (xs i)) s a j t) / INR (visits xs s a t) - p s a j) < d) ->
     (forall d, 0 < d -> exists N0, forall l N fuel, (N0 <= N)%nat -> (N <= fuel)%nat ->
        exists R1, trained l N fuel = CoreModel.Done R1 /\
          forall s a, In s (live n k p) -> (a < k)%nat -> Rabs (tget (q_tab (CoreModel.r_ag R1)) s a - q s a) < d) /\
     (exists N0, forall l N fuel, (N0 <= N)%nat -> (N <= fuel)%nat ->
        exists R1, trained l N fuel = CoreModel.Done R1 /\
          forall s a, In s (live n k p) -> In a (argmaxs (row (q_tab (CoreModel.r_ag R1)) s)) -> is_max k (q s) (q s a))).
Proof.
  intros n k p rw gamma eps hor u c r b w a0 e0 q G WF K1 HB HW RK SH OK OKE RT OV trained.
  assert (LV : forall s, In s (live n k p) <-> (s < n)%nat /\ ~ FmdpProps.terminal n k p s).
  { intros s. rewrite live_iff, <- FmdpProps.any_row_iff. destruct (any_row n k p s); intuition congruence. }
  assert (BL : forall t, In (b t) (live n k p)) by (intros t; apply LV, HB).
  assert (WO : forall t s a, In s (live n k p) -> (a < k)%nat -> choice_ok n (p s a) (w t s a)).
  { intros t s a Hs Ha. apply LV in Hs as [H1 H2]. apply HW; auto. }
  pose proof (run_inv n k p rw gamma eps hor u c r b w a0 e0 WF BL WO K1 RK SH OK OKE RT) as RI.
  pose proof (run_step n k p rw gamma eps hor u c r b w a0 e0 WF BL WO K1 RK SH OK OKE RT) as RS.
  exists (fun t => smp eps u c r (f_reset b) (f_step n k p rw w) (sits k gamma eps hor u c r (f_reset b) (f_step n k p rw w) a0 e0 t)).
  split.
  - intros l N fuel HF.
    destruct (learn_is_sits k gamma eps hor u c r (f_reset b) (f_step n k p rw w) N fuel e0 a0 l HF) as (R1 & L & MA & ME & MX).
    exists R1. split; [exact L|]. rewrite MA, ME. destruct (RI N) as (_ & I2 & I3 & _). split; [exact I2|]. split; [exact I3|exact MX].
  - intros VF FR.
    destruct (q_learning_averages n (live n k p) k gamma (fmdp_env n k p rw) q (al n k p rw gamma eps hor u c r b w a0 e0)
       (fun t => smp eps u c r (f_reset b) (f_step n k p rw w) (sits k gamma eps hor u c r (f_reset b) (f_step n k p rw w) a0 e0 t))
       (fun t => x_s' (smp eps u c r (f_reset b) (f_step n k p rw w) (sits k gamma eps hor u c r (f_reset b) (f_step n k p rw w) a0 e0 t)))
       (fun t => q_tab (z_ag (sits k gamma eps hor u c r (f_reset b) (f_step n k p rw w) a0 e0 t)))) as [CV (N0 & HN)];
      [exact G|intros s Hs; apply LV in Hs; tauto|apply fmdp_env_ok, WF|exact OV|exact SH|exact RS|intros t; reflexivity|exact VF| |].
    + intros s a j Hs Ha Hj d Hd. unfold fmdp_env in Hj. rewrite map_length, seq_length in Hj. apply LV in Hs as [H1 H2].
      destruct (FR s a j H1 H2 Ha Hj d Hd) as (N & HN). exists N. intros t Ht. rewrite fmdp_nth by exact Hj. apply (HN t Ht).
    + split.
      * intros d Hd. destruct (CV d Hd) as (N1 & HN1). exists N1. intros l N fuel HN' HF.
        destruct (learn_is_sits k gamma eps hor u c r (f_reset b) (f_step n k p rw w) N fuel e0 a0 l HF) as (R1 & L & MA & _).
        exists R1. split; [exact L|]. rewrite MA. apply (HN1 N HN').
      * exists N0. intros l N fuel HN' HF.
        destruct (learn_is_sits k gamma eps hor u c r (f_reset b) (f_step n k p rw w) N fuel e0 a0 l HF) as (R1 & L & MA & _).
        exists R1. split; [exact L|]. rewrite MA. apply (HN N HN').
Qed.

(** ** A coin, thrown by a FiniteMDP *)
(** From state 0 the only action leads to the terminal states 1 (reward 0) and 2 (reward 1), with
    probability 1/2 each; they come in turn. *)
Definition coin_p (s a j : nat) : R := if Nat.eqb s 0 && (Nat.eqb j 1 || Nat.eqb j 2) then 1 / 2 else 0.
Definition coin_r (s a j : nat) : R := if Nat.eqb j 2 then 1 else 0.
Definition coin_w (t s a : nat) : nat := (1 + toss_at (t / 2))%nat.
Definition coin_a0 : qagent := mkQA (tconst 3 1 0) (decay_init 1 1 None None (3 * 1)) 0 true.
Definition coin_e0 : fenv := mkF 0 0 true.

Lemma coin_any : any_row 3 1 coin_p 0 = true /\ any_row 3 1 coin_p 1 = false /\ any_row 3 1 coin_p 2 = false.
Proof.
  unfold any_row, coin_p. cbn. destruct (Req_EM_T (1 / 2) 0) as [E|_]; [lra|].
  destruct (Req_EM_T 0 0) as [_|E]; [|contradiction]. auto.
Qed.

Example coin_core_ex : forall d, 0 < d -> exists N0, forall l N fuel, (N0 <= N)%nat -> (N <= fuel)%nat ->
  exists R1, CoreModel.learn (f_world 3 1 coin_p coin_r (1 / 2) 0 None (fun _ => 1) (fun _ => O) (fun _ => O) (fun _ => O) coin_w)
      fuel coin_e0 coin_a0 l (Some N) None (Some 1%nat) None = CoreModel.Done R1 /\
    Rabs (tget (q_tab (CoreModel.r_ag R1)) 0 0 - 1 / 2) < d.
Proof.
  intros d Hd. destruct coin_any as (A0 & A1 & A2).
  assert (LI : live 3 1 coin_p = [0%nat]) by (unfold live; cbn [seq filter]; rewrite A0, A1, A2; reflexivity).
  assert (TM : forall s, ~ FmdpProps.terminal 3 1 coin_p s -> (s < 3)%nat -> s = 0%nat).
  { intros s T L. destruct s as [|[|[|s]]]; [reflexivity| | |lia]; exfalso; apply T; apply FmdpProps.any_row_iff; assumption. }
  assert (WF : FmdpProps.wf_mdp 3 1 coin_p).
  { intros s Hs. destruct s as [|s].
    - left. intros a _. split; [intros j _; unfold coin_p; cbn [Nat.eqb andb]; destruct (_ || _); lra|].
      split; [unfold coin_p; cbn; lra|]. intros j Hj. unfold coin_p. destruct j as [|[|[|j]]]; try lia. reflexivity.
    - right. intros a j _ _. reflexivity. }
  assert (OV : s_optimal (live 3 1 coin_p) 1 (1 / 2) (fmdp_env 3 1 coin_p coin_r) (fun _ _ => 1 / 2)).
  { rewrite LI. exists (fun _ => 1 / 2). split.
    - intros s _. split; [exists O; split; [lia|reflexivity]|intros; lra].
    - intros s a [<-|[]] Ha. unfold fmdp_env. cbn [seq map o_p o_r o_abs o_s]. rewrite A0, A1, A2.
      unfold coin_p, coin_r. cbn. lra. }
  destruct (core_q_learning_finite_mdp 3 1 coin_p coin_r (1 / 2) 0 None (fun _ => 1) (fun _ => O) (fun _ => O) (fun _ => O) coin_w
     coin_a0 coin_e0 (fun _ _ => 1 / 2)) as (xs & P1 & P2).
  - lra.
  - exact WF.
  - lia.
  - intros t. split; [lia|]. intros T. apply FmdpProps.any_row_iff in T. congruence.
  - intros t s a Hs T _. rewrite (TM s T Hs). unfold coin_w, toss_at, choice_ok, coin_p. destruct (Nat.even _); cbn; split; try lia; lra.
  - intros t. lia.
  - split; [reflexivity|]. intros x Hx. apply repeat_spec in Hx. subst x. reflexivity.
  - reflexivity.
  - reflexivity.
  - reflexivity.
  - exact OV.
  - (* the transitions of the run *)
    set (st := f_step 3 1 coin_p coin_r coin_w). set (rst := f_reset (fun _ : nat => O)).
    set (Z := sits 1 (1 / 2) 0 None (fun _ => 1) (fun _ => O) (fun _ => O) rst st coin_a0 coin_e0).
    assert (XS : forall t, xs t = smp 0 (fun _ => 1) (fun _ => O) (fun _ => O) rst st (Z t)).
    { intros t. destruct (P1 (CoreModel.mkL CoreModel.FitSteps CoreModel.MoveSteps None None None None 0 0 0 0) (S t) (S t) (Nat.le_refl _)) as (R1 & L1 & _ & _ & M1).
      destruct (learn_is_sits 1 (1 / 2) 0 None (fun _ => 1) (fun _ => O) (fun _ => O) rst st (S t) (S t) coin_e0 coin_a0
         (CoreModel.mkL CoreModel.FitSteps CoreModel.MoveSteps None None None None 0 0 0 0) (Nat.le_refl _)) as (R2 & L2 & _ & _ & M2).
      assert (R1 = R2) by (unfold rst, st, f_world in *; rewrite L1 in L2; injection L2; auto). subst R2.
      rewrite M1 in M2. rewrite !seq_S, !map_app in M2. apply app_inj_tail in M2 as [_ M2]. exact M2. }
    assert (ZI : forall t, z_last (Z t) = true /\ f_clock (z_env (Z t)) = (2 * t)%nat /\ f_ok (z_env (Z t)) = true /\ shaped 3 1 (q_tab (z_ag (Z t)))).
    { pose proof (run_inv 3 1 coin_p coin_r (1 / 2) 0 None (fun _ => 1) (fun _ => O) (fun _ => O) (fun _ => O) coin_w coin_a0 coin_e0 WF) as RI.
      assert (RI' : forall t, shaped 3 1 (q_tab (z_ag (Z t)))).
      { intros t. apply RI; try reflexivity; try (intros; lia).
        - intros _. rewrite LI. left. reflexivity.
        - intros t' s a Hs _. rewrite LI in Hs. destruct Hs as [<-|[]]. unfold coin_w, toss_at, choice_ok, coin_p. destruct (Nat.even _); cbn; split; try lia; lra.
        - split; [reflexivity|]. intros x Hx. apply repeat_spec in Hx. subst x. reflexivity. }
      induction t as [|t (I1 & I2 & I3 & I4)]; [split; [reflexivity|]; split; [reflexivity|]; split; [reflexivity|apply RI']|].
      assert (RE : res 0 (fun _ => 1) (fun _ => O) (fun _ => O) rst st (Z t) =
         (mkF (1 + toss_at t) (2 * t + 2) true, (1 + toss_at t)%nat, coin_r 0 0 (1 + toss_at t), true)).
      { unfold res, here. rewrite I1. unfold rst, f_reset, st, f_step. cbn [fst f_s f_clock f_ok]. rewrite I2, I3.
        unfold coin_w. replace ((2 * t + 1) / 2)%nat with t by (apply (Nat.div_unique (2 * t + 1) 2 t 1); lia).
        unfold fmdp_step. assert (RT1 : forall a, row_total 3 (coin_p 0 a) = 1) by (intros a; unfold row_total, coin_p; cbn; lra). rewrite RT1.
        destruct (Req_EM_T 1 1) as [_|E]; [|contradiction].
        replace (any_row 3 1 coin_p (1 + toss_at t)) with false by (unfold toss_at; destruct (Nat.even t); [symmetry; exact A1|symmetry; exact A2]).
        cbn [negb]. replace (2 * t + 1 + 1)%nat with (2 * t + 2)%nat by lia. reflexivity. }
      change (Z (S t)) with (next 1 (1 / 2) 0 None (fun _ => 1) (fun _ => O) (fun _ => O) rst st (Z t)).
      split. { unfold next. cbn [z_last smp x_abs]. rewrite RE. reflexivity. }
      split. { unfold next. cbn [z_env]. rewrite RE. cbn. lia. }
      split. { unfold next. cbn [z_env]. rewrite RE. reflexivity. }
      exact (RI' (S t)). }
    assert (XE : forall t, x_s (xs t) = 0%nat /\ x_a (xs t) = 0%nat /\ x_s' (xs t) = (1 + toss_at t)%nat).
    { intros t. destruct (ZI t) as (I1 & I2 & I3 & I4). rewrite XS. cbn [smp x_s x_a x_s'].
      assert (HE : here rst (Z t) = (mkF 0 (2 * t + 1) true, 0%nat)).
      { unfold here. rewrite I1. unfold rst, f_reset. rewrite I2, I3. reflexivity. }
      assert (AE : act 0 (fun _ => 1) (fun _ => O) (fun _ => O) rst (Z t) = 0%nat).
      { pose proof (act_lt 3 1 0 (fun _ => 1) (fun _ => O) (fun _ => O) (fun _ => O) (Nat.le_refl _) (fun _ => Nat.lt_0_1) (Z t) I4) as AL.
        fold rst in AL. rewrite HE in AL. cbn [snd] in AL. specialize (AL ltac:(lia)). lia. }
      rewrite HE. split; [reflexivity|]. split; [exact AE|]. unfold res. rewrite HE, AE. unfold st, f_step. cbn [fst f_s f_clock f_ok].
      unfold coin_w. replace ((2 * t + 1) / 2)%nat with t by (apply (Nat.div_unique (2 * t + 1) 2 t 1); lia).
      unfold fmdp_step. assert (RT1 : row_total 3 (coin_p 0 0) = 1) by (unfold row_total, coin_p; cbn; lra). rewrite RT1.
      destruct (Req_EM_T 1 1) as [_|E]; [|contradiction]. reflexivity. }
    assert (VI : forall t, visits xs 0 0 t = t).
    { induction t as [|t IH]; [reflexivity|]. cbn [visits]. rewrite IH. destruct (XE t) as (-> & -> & _). reflexivity. }
    assert (ME : forall j t, met_outcome xs (fun i => x_s' (xs i)) 0 0 (S j) t = met_outcome coin_xs toss_at 0 0 j t).
    { intros j. induction t as [|t IH]; [reflexivity|]. cbn [met_outcome]. rewrite IH. destruct (XE t) as (-> & -> & ->). reflexivity. }
    assert (M0 : forall t, met_outcome xs (fun i => x_s' (xs i)) 0 0 0 t = 0%nat).
    { induction t as [|t IH]; [reflexivity|]. cbn [met_outcome]. rewrite IH. destruct (XE t) as (-> & -> & ->). reflexivity. }
    destruct P2 as [P2 _].
    + rewrite LI. intros s a [<-|[]] Ha T. exists T. split; [lia|]. destruct (XE T) as (-> & -> & _). split; [reflexivity|lia].
    + intros s a j Hs T Ha Hj d' Hd'. rewrite (TM s T Hs). replace a with 0%nat by lia. destruct j as [|j].
      * exists O. intros t _. rewrite M0. unfold coin_p. cbn. unfold Rdiv. rewrite Rmult_0_l, Rminus_0_r, Rabs_R0. exact Hd'.
      * destruct (coin_fair 0%nat 0%nat j (or_introl eq_refl) ltac:(lia) ltac:(cbn; lia) d' Hd') as (N & HN). exists N. intros t Ht.
        specialize (HN t Ht). rewrite coin_visits in HN. rewrite ME, VI.
        replace (coin_p 0 0 (S j)) with (o_p (nth j (coin 0%nat 0%nat) o_dflt)); [exact HN|].
        destruct j as [|[|j]]; [reflexivity|reflexivity|lia].
    + destruct (P2 d Hd) as (N0 & HN). exists N0. intros l N fuel H1 H2. destruct (HN l N fuel H1 H2) as (R1 & L1 & C1).
      exists R1. split; [exact L1|]. apply C1; [rewrite LI; left; reflexivity|lia].
Qed.

Print Assumptions core_q_learning_finite_mdp.

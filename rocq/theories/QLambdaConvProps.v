(** Q(lambda) on deterministic environments (algorithms/value/td/q_lambda.py 36-50, with the traces
    of utils/eligibility_trace.py): without traces it converges like Q-learning, with traces the
    conditions under which Q-learning converges do not suffice. *)
From Coq Require Import List Arith ZArith Lia Reals Lra Psatz Bool.
From Verif Require Import Common PolicyModel PolicySpec PolicyProofs TdModel TdSpec TdProofs TdProps ConvProps DoubleConvProps.
Import ListNotations.
Local Open Scope R_scope.

(** An episode starts at the first sample and after each absorbing one; episode_start resets the
    traces (q_lambda.py 47-50). *)
Definition starts (xs : nat -> sample) (t : nat) : bool := match t with O => true | S t' => x_abs (xs t') end.
Definition begin_episode (b : bool) (st : table * table) : table * table := if b then (fst st, trace_reset (snd st)) else st.

(** Within an episode each sample begins where the previous one ended. *)
Definition chained (xs : nat -> sample) : Prop := forall t, x_abs (xs t) = false -> x_s (xs (S t)) = x_s' (xs t).

Definition q_lambda_run (n : nat) (lv : list nat) (k : nat) (kd : trace_kind) (gamma lam : R) (e : denv) (al : nat -> R)
    (xs : nat -> sample) (st : nat -> table * table) : Prop :=
  shaped n k (fst (st O)) /\ shaped n k (snd (st O)) /\
  forall t, 0 <= al t <= 1 /\ follows lv k e (xs t) /\
    st (S t) = q_lambda_update kd gamma (al t) lam (begin_episode (starts xs t) (st t)) (xs t).

(** ** Without traces *)
Lemma ql_step_zero : forall n k kd gamma al qn Q e x, shaped n k Q -> shaped n k e ->
  (forall s a, (s < n)%nat -> (a < k)%nat -> tget e s a = 0) -> sample_ok n k x ->
  let st := lambda_update kd gamma al 0 qn (Q, e) x in
  fst st = tset Q (x_s x) (x_a x) (tget Q (x_s x) (x_a x) + al * (x_r x + gamma * qn - tget Q (x_s x) (x_a x))) /\
  shaped n k (snd st) /\ (forall s a, (s < n)%nat -> (a < k)%nat -> tget (snd st) s a = 0).
Proof.
  intros n k kd gamma al qn Q e x HQ He Z HS st.
  destruct (lambda_run_inv n k kd gamma al 0 qn Q e x [] HQ He HS) as (A & B & C & D).
  { intros. rewrite Z by auto. destruct kd; reflexivity. }
  fold st in A, B, C, D. split; [|split; auto].
  - apply (table_ext n k); auto; [apply tset_shaped; auto|]. intros s a Hs Ha. rewrite D by auto.
    destruct HS as (X1 & X2 & X3).
    destruct (pair_eq_dec (s, a) (x_s x, x_a x)) as [E|NE].
    + inversion E; subst. rewrite (tget_tset_eq n k) by auto.
      destruct kd; cbn [trace_spec rep_trace acc_trace]; rewrite (proj2 (pair_eqb_spec _ _) eq_refl); simpl; ring.
    + rewrite tget_tset_neq by exact NE.
      destruct kd; cbn [trace_spec rep_trace acc_trace]; destruct (pair_eqb _ _) eqn:P; try ring;
        apply pair_eqb_spec in P; congruence.
  - intros s a Hs Ha. rewrite C by auto. rewrite Rmult_0_r. destruct kd; cbn [trace_spec rep_trace acc_trace];
      destruct (pair_eqb _ _); simpl; ring.
Qed.

Theorem q_lambda_zero_converges : forall n lv k kd gamma e q al xs st,
  0 <= gamma < 1 -> (forall s, In s lv -> (s < n)%nat) -> closed lv k e -> optimal_values lv k gamma e q ->
  (forall s a, In s lv -> (a < k)%nat -> (d_s e s a < n)%nat) ->
  q_lambda_run n lv k kd gamma 0 e al xs st -> rates_diverge lv k al xs ->
  (forall eps, 0 < eps -> exists T, forall t, (T <= t)%nat -> forall s a, In s lv -> (a < k)%nat ->
     Rabs (tget (fst (st t)) s a - q s a) < eps) /\
  (exists T, forall t, (T <= t)%nat -> forall s a, In s lv -> In a (argmaxs (row (fst (st t)) s)) -> is_max k (q s) (q s a)).
Proof.
  intros n lv k kd gamma e q al xs st G IN CL OV DS (S0 & E0 & ST) RD.
  assert (OK : forall t, sample_ok n k (xs t)).
  { intros t. destruct (ST t) as (_ & F & _). destruct (follows_ok _ _ _ _ F) as ((A & B) & _ & Es & _).
    split; [auto|]. split; [exact B|]. rewrite Es. apply DS; auto. }
  assert (K : forall t, shaped n k (fst (st t)) /\ shaped n k (snd (begin_episode (starts xs t) (st t))) /\
    (forall s a, (s < n)%nat -> (a < k)%nat -> tget (snd (begin_episode (starts xs t) (st t))) s a = 0) /\
    shaped n k (fst (st (S t))) /\ shaped n k (snd (st (S t))) /\ (forall s a, (s < n)%nat -> (a < k)%nat -> tget (snd (st (S t))) s a = 0) /\
    fst (st (S t)) = ql_update gamma (al t) (fst (st t)) (xs t)).
  { assert (STEP : forall t, shaped n k (fst (st t)) -> shaped n k (snd (begin_episode (starts xs t) (st t))) ->
      (forall s a, (s < n)%nat -> (a < k)%nat -> tget (snd (begin_episode (starts xs t) (st t))) s a = 0) ->
      shaped n k (fst (st (S t))) /\ shaped n k (snd (st (S t))) /\ (forall s a, (s < n)%nat -> (a < k)%nat -> tget (snd (st (S t))) s a = 0) /\
      fst (st (S t)) = ql_update gamma (al t) (fst (st t)) (xs t)).
    { intros t H1 H2 H3. destruct (ST t) as (_ & _ & E). rewrite E. unfold q_lambda_update.
      replace (begin_episode (starts xs t) (st t)) with (fst (st t), snd (begin_episode (starts xs t) (st t))).
      2: { unfold begin_episode. destruct (starts xs t); cbn [fst snd]; [reflexivity|]. destruct (st t); reflexivity. }
      cbn [fst].
      destruct (ql_step_zero n k kd gamma (al t) (if x_abs (xs t) then 0 else qmax (row (fst (st t)) (x_s' (xs t))))
        (fst (st t)) (snd (begin_episode (starts xs t) (st t))) (xs t) H1 H2 H3 (OK t)) as (A & B & C).
      split; [rewrite A; apply tset_shaped; exact H1|]. split; [exact B|]. split; [exact C|]. rewrite A. reflexivity. }
    assert (RS : forall b u, shaped n k (snd u) -> (b = true \/ forall s a, (s < n)%nat -> (a < k)%nat -> tget (snd u) s a = 0) ->
      shaped n k (snd (begin_episode b u)) /\ (forall s a, (s < n)%nat -> (a < k)%nat -> tget (snd (begin_episode b u)) s a = 0)).
    { intros b u H1 H2. destruct (trace_reset_spec n k _ H1) as [SE ZE]. unfold begin_episode. destruct b; cbn [snd]; [auto|].
      destruct H2 as [|H2]; [discriminate|auto]. }
    induction t as [|t (_ & _ & _ & I1 & I2 & I3 & _)].
    - destruct (RS (starts xs 0) (st O) E0 (or_introl eq_refl)) as [R1 R2].
      split; [exact S0|]. split; [exact R1|]. split; [exact R2|]. apply STEP; auto.
    - destruct (RS (starts xs (S t)) (st (S t)) I2 (or_intror I3)) as [R1 R2].
      split; [exact I1|]. split; [exact R1|]. split; [exact R2|]. apply STEP; auto. }
  apply (q_learning_converges n lv k gamma e q al xs (fun t => fst (st t))); auto.
  intros t. destruct (ST t) as (A & F & _). destruct (K t) as (_ & _ & _ & _ & _ & _ & E). auto.
Qed.

(** ** With traces *)
(** One decision state: actions 0, 1 and 2 stay there with reward 0, action 3 ends the episode with
    reward 20.  With gamma = 9/10 the optimal values are 18, 18, 18 and 20. *)
Definition tr_env : denv := fun _ a => if (a =? 3)%nat then (20, 1%nat, true) else (0, O, false).
Definition tr_sample (a : nat) : sample :=
  {| x_s := O; x_a := a; x_r := d_r tr_env O a; x_s' := d_s tr_env O a; x_abs := d_abs tr_env O a |}.
Definition tr_q (s a : nat) : R := if (a =? 3)%nat then 20 else 18.

(** The actions and their learning rates: seven moves from the table of zeros, then a cycle of ten. *)
Definition tr_start : list (nat * R) :=
  [(3%nat, 1); (0%nat, 17/18); (3%nat, 1); (1%nat, 1); (3%nat, 1); (2%nat, 1); (3%nat, 1)].
Definition tr_cycle : list (nat * R) :=
  [(1%nat, 1); (2%nat, 1); (0%nat, 67930489/103563279); (0%nat, 1); (0%nat, 1); (2%nat, 1); (1%nat, 1); (3%nat, 1); (2%nat, 1); (3%nat, 1)].
Definition tr_move (t : nat) : nat * R :=
  if (t <? 7)%nat then nth t tr_start (O, 1) else nth ((t - 7) mod 10) tr_cycle (O, 1).
Definition tr_xs (t : nat) : sample := tr_sample (fst (tr_move t)).
Definition tr_al (t : nat) : R := snd (tr_move t).

Fixpoint tr_st (t : nat) : table * table :=
  match t with
  | O => (tconst 2 4 0, tconst 2 4 0)
  | S t' => q_lambda_update Replacing (9 / 10) (tr_al t') 1 (begin_episode (starts tr_xs t') (tr_st t')) (tr_xs t')
  end.

Definition mk (a b c d : R) : table := [[a; b; c; d]; [0; 0; 0; 0]].
Definition tr_first (j : nat) : table * table :=
  match j with
  | 0%nat => (mk 0 0 0 0, mk 0 0 0 0)
  | 1%nat => (mk 0 0 0 20, mk 0 0 0 (9/10))
  | 2%nat => (mk 17 0 0 20, mk (9/10) 0 0 0)
  | 3%nat => (mk 17 0 0 20, mk (81/100) 0 0 (9/10))
  | 4%nat => (mk 17 18 0 20, mk 0 (9/10) 0 0)
  | 5%nat => (mk 17 18 0 20, mk 0 (81/100) 0 (9/10))
  | 6%nat => (mk 17 18 18 20, mk 0 0 (9/10) 0)
  | _ => (mk 17 18 18 20, mk 0 0 (81/100) (9/10))
  end.
Definition tr_state (j : nat) : table * table :=
  match j with
  | 0%nat => (mk 17 18 18 20, mk 0 0 (81/100) (9/10))
  | 1%nat => (mk 17 18 18 20, mk 0 (9/10) 0 0)
  | 2%nat => (mk 17 18 18 20, mk 0 (81/100) (9/10) 0)
  | 3%nat => (mk (1828506232/103563279) (2369336689/127855900) (2139196069/115070310) 20, mk (9/10) (729/1000) (81/100) 0)
  | 4%nat => (mk 18 (24014062/1278559) (217126558/11507031) 20, mk (9/10) (6561/10000) (729/1000) 0)
  | 5%nat => (mk 18 (24014062/1278559) (217126558/11507031) 20, mk (9/10) (59049/100000) (6561/10000) 0)
  | 6%nat => (mk (22014062/1278559) (23357962/1278559) 18 20, mk (81/100) (531441/1000000) (9/10) 0)
  | 7%nat => (mk 17 18 (22704552/1278559) 20, mk (729/1000) (9/10) (81/100) 0)
  | 8%nat => (mk 17 18 (22704552/1278559) 20, mk (6561/10000) (81/100) (729/1000) (9/10))
  | 9%nat => (mk 17 18 18 20, mk 0 0 (9/10) 0)
  | _ => (mk 0 0 0 0, mk 0 0 0 0)
  end.

Lemma qmax_exit : forall a b c, a <= 20 -> b <= 20 -> c <= 20 -> qmax [a; b; c; 20] = 20.
Proof.
  intros a b c A B C. cbn. apply Rmax_right. repeat apply Rmax_lub; assumption.
Qed.
Ltac tr_step := unfold q_lambda_update, lambda_update, begin_episode, trace_update, trace_reset, tadd_scaled, tscale, tr_sample, d_r, d_s, d_abs,
    tset, tget, row, mk; cbn [fst snd x_s x_a x_r x_s' x_abs nth setnth tr_env Nat.eqb map combine];
  try (rewrite qmax_exit by lra); repeat (f_equal; try lra).

Lemma tr_first_next : forall j, (j < 7)%nat ->
  q_lambda_update Replacing (9 / 10) (snd (nth j tr_start (O, 1))) 1
    (begin_episode (match j with O => true | S i => (fst (nth i tr_start (O, 1%R)) =? 3)%nat end) (tr_first j)) (tr_sample (fst (nth j tr_start (O, 1))))
  = tr_first (S j).
Proof.
  intros j Hj. do 7 (destruct j as [|j]; [cbn [nth tr_start fst snd tr_first Nat.eqb]; tr_step|]). lia.
Qed.
Lemma tr_next : forall j, (j < 10)%nat ->
  q_lambda_update Replacing (9 / 10) (snd (nth j tr_cycle (O, 1))) 1
    (begin_episode (match j with O => true | S i => (fst (nth i tr_cycle (O, 1%R)) =? 3)%nat end) (tr_state j)) (tr_sample (fst (nth j tr_cycle (O, 1))))
  = tr_state (S j mod 10).
Proof.
  intros j Hj. do 10 (destruct j as [|j]; [cbn [nth tr_cycle fst snd tr_state Nat.eqb Nat.modulo Nat.divmod Nat.sub]; tr_step|]). lia.
Qed.

Lemma tr_abs : forall a, x_abs (tr_sample a) = (a =? 3)%nat.
Proof. intros a. cbn. unfold d_abs, tr_env. destruct (a =? 3)%nat; reflexivity. Qed.
Lemma tr_begins : forall t, (t <= 7)%nat -> tr_st t = tr_first t.
Proof.
  induction t as [|t IH]; intros Ht; [reflexivity|]. cbn [tr_st]. rewrite IH by lia.
  rewrite <- (tr_first_next t) by lia. unfold tr_xs, tr_al.
  replace (tr_move t) with (nth t tr_start (O, 1)). 2: { unfold tr_move. replace (t <? 7)%nat with true by (symmetry; apply Nat.ltb_lt; lia). reflexivity. }
  f_equal. f_equal. unfold starts. destruct t as [|t]; [reflexivity|]. rewrite tr_abs. unfold tr_move.
  replace (t <? 7)%nat with true by (symmetry; apply Nat.ltb_lt; lia). reflexivity.
Qed.
Lemma tr_cycles : forall t, tr_st (7 + t) = tr_state (t mod 10).
Proof.
  induction t as [|t IH].
  - rewrite tr_begins by lia. reflexivity.
  - replace (7 + S t)%nat with (S (7 + t)) by lia. cbn [tr_st]. rewrite IH.
    assert (ML : (t mod 10 < 10)%nat) by (apply Nat.mod_upper_bound; lia).
    assert (MV : forall u, tr_move (7 + u) = nth (u mod 10) tr_cycle (O, 1)).
    { intros u. unfold tr_move. replace (7 + u <? 7)%nat with false by (symmetry; apply Nat.ltb_ge; lia).
      replace (7 + u - 7)%nat with u by lia. reflexivity. }
    replace (S t mod 10)%nat with (S (t mod 10) mod 10)%nat.
    2: { rewrite <- (Nat.add_1_r t), <- (Nat.add_1_r (t mod 10)). apply Nat.add_mod_idemp_l. lia. }
    rewrite <- tr_next by exact ML. unfold tr_xs, tr_al. rewrite MV. f_equal. f_equal.
    destruct t as [|t]; [reflexivity|]. replace (7 + S t)%nat with (S (7 + t)) by lia. cbn [starts]. rewrite tr_abs, MV.
    destruct (S t mod 10)%nat as [|i] eqn:EI.
    + replace (t mod 10)%nat with 9%nat; [reflexivity|]. pose proof (Nat.div_mod t 10 ltac:(lia)). pose proof (Nat.div_mod (S t) 10 ltac:(lia)).
      pose proof (Nat.mod_upper_bound t 10 ltac:(lia)). lia.
    + replace (t mod 10)%nat with i; [reflexivity|]. pose proof (Nat.div_mod t 10 ltac:(lia)). pose proof (Nat.div_mod (S t) 10 ltac:(lia)).
      pose proof (Nat.mod_upper_bound t 10 ltac:(lia)). pose proof (Nat.mod_upper_bound (S t) 10 ltac:(lia)). lia.
Qed.

Lemma tr_move_ok : forall t, (fst (tr_move t) < 4)%nat /\ 65 / 100 <= snd (tr_move t) <= 1.
Proof.
  intros t. unfold tr_move. destruct (t <? 7)%nat eqn:L.
  - apply Nat.ltb_lt in L. do 7 (destruct t as [|t]; [cbn; split; [lia|lra]|]). lia.
  - assert (ML : ((t - 7) mod 10 < 10)%nat) by (apply Nat.mod_upper_bound; lia). generalize dependent ((t - 7) mod 10)%nat.
    intros j Hj. do 10 (destruct j as [|j]; [cbn; split; [lia|lra]|]). lia.
Qed.
Lemma tr_facts : closed [0]%nat 4 tr_env /\ optimal_values [0]%nat 4 (9 / 10) tr_env tr_q /\ chained tr_xs /\
  q_lambda_run 2 [0]%nat 4 Replacing (9 / 10) 1 tr_env tr_al tr_xs tr_st /\ rates_diverge [0]%nat 4 tr_al tr_xs.
Proof.
  split; [|split; [|split; [|split]]].
  - intros s a [<-|[]] Ha. unfold d_abs, d_s, tr_env. destruct (a =? 3)%nat; cbn; auto; discriminate.
  - intros s a [<-|[]] Ha. unfold d_r, d_s, d_abs, tr_env, tr_q. destruct (a =? 3)%nat eqn:E.
    + exists 0. cbn. split; [lra|]. split; [reflexivity|discriminate].
    + exists 20. cbn. split; [lra|]. split; [discriminate|]. intros _. split; [exists 3%nat; split; [lia|reflexivity]|].
      intros b _. destruct b as [|[|[|[|b]]]]; cbn; lra.
  - intros t Ab. unfold tr_xs in *. rewrite tr_abs in Ab. cbn [tr_sample x_s x_s']. unfold d_s, tr_env. rewrite Ab. reflexivity.
  - split; [apply tconst_shaped|]. split; [apply tconst_shaped|]. intros t. destruct (tr_move_ok t) as [A B].
    split; [unfold tr_al; lra|]. split; [|reflexivity]. split; [left; reflexivity|]. split; [exact A|].
    unfold tr_xs, tr_sample. cbn [x_r x_s' x_abs x_s x_a]. unfold d_r, d_s, d_abs. destruct (tr_env _ _) as [[? ?] ?]. reflexivity.
  - apply (decaying_rates_diverge _ 4 _ _ (65 / 100)); [lra| |].
    + intros s a [<-|[]] Ha T.
      exists (7 + (match a with O => 2 | 1 => 0 | 2 => 1 | _ => 7 end + T * 10))%nat. split; [lia|]. split; [reflexivity|].
      unfold tr_xs, tr_move. cbn [tr_sample x_a].
      match goal with |- context [(7 + ?u <? 7)%nat] => replace (7 + u <? 7)%nat with false by (symmetry; apply Nat.ltb_ge; lia);
        replace (7 + u - 7)%nat with u by lia end.
      rewrite Nat.mod_add by lia. destruct a as [|[|[|[|a]]]]; try reflexivity. lia.
    + intros t. destruct (tr_move_ok t) as [_ B]. fold (tr_al t) in B. set (v := visits _ _ _ _).
      assert (1 <= INR (S v)) by (rewrite S_INR; pose proof (pos_INR v); lra).
      eapply Rle_trans; [|apply B]. unfold Rdiv at 1. rewrite <- (Rmult_1_r (65 / 100)) at 2. apply Rmult_le_compat_l; [lra|].
      rewrite <- Rinv_1. apply Rinv_le_contravar; lra.
Qed.

(** The first loop action stays one below its optimal value at the start of every cycle. *)
Lemma tr_stuck : forall m, tget (fst (tr_st (7 + m * 10))) 0 0 = 17.
Proof. intros m. rewrite tr_cycles, Nat.mod_mul by lia. reflexivity. Qed.

Theorem q_lambda_convergence_refuted : ~ (forall n lv k gamma lam e q al xs st,
  0 <= gamma < 1 -> 0 <= lam <= 1 -> (forall s, In s lv -> (s < n)%nat) -> closed lv k e -> optimal_values lv k gamma e q ->
  chained xs -> q_lambda_run n lv k Replacing gamma lam e al xs st -> rates_diverge lv k al xs ->
  fst (st O) = tconst n k 0 -> (forall t, 1 / 2 <= al t) ->
  forall eps, 0 < eps -> exists T, forall t, (T <= t)%nat -> forall s a, In s lv -> (a < k)%nat -> Rabs (tget (fst (st t)) s a - q s a) < eps).
Proof.
  intros H. destruct tr_facts as (CL & OV & CH & RUN & RD).
  destruct (H 2%nat [0]%nat 4%nat (9 / 10) 1 tr_env tr_q tr_al tr_xs tr_st) with (eps := 1) as (T & HT); auto; try lra.
  - intros s [<-|[]]. lia.
  - intros t. destruct (tr_move_ok t) as [_ B]. unfold tr_al. lra.
  - specialize (HT (7 + T * 10)%nat ltac:(lia) O O ltac:(cbn; auto) ltac:(lia)). rewrite tr_stuck in HT.
    unfold tr_q in HT. cbn in HT. apply Rabs_def2 in HT. lra.
Qed.

(** ** Concrete cases *)
(** The same moves without traces lead to the optimal value; with traces they do not. *)
Fixpoint tr_zero (t : nat) : table * table :=
  match t with
  | O => (tconst 2 4 0, tconst 2 4 0)
  | S t' => q_lambda_update Replacing (9 / 10) (tr_al t') 0 (begin_episode (starts tr_xs t') (tr_zero t')) (tr_xs t')
  end.
Example traces_ex : (forall eps, 0 < eps -> exists T, forall t, (T <= t)%nat -> Rabs (tget (fst (tr_zero t)) 0 0 - 18) < eps) /\
  tr_st 13 = (mk (22014062/1278559) (23357962/1278559) 18 20, mk (81/100) (531441/1000000) (9/10) 0).
Proof.
  split; [|replace 13%nat with (7 + 6)%nat by reflexivity; rewrite tr_cycles; reflexivity]. intros eps He. destruct tr_facts as (CL & OV & CH & (R1 & R2 & R3) & RD).
  destruct (q_lambda_zero_converges 2 [0]%nat 4 Replacing (9 / 10) tr_env tr_q tr_al tr_xs tr_zero) as [CV _]; auto; try lra.
  - intros s [<-|[]]. lia.
  - intros s a _ _. unfold d_s, tr_env. destruct (a =? 3)%nat; cbn; lia.
  - split; [apply tconst_shaped|]. split; [apply tconst_shaped|]. intros t. destruct (R3 t) as (A & F & _). auto.
  - destruct (CV eps He) as (T & HT). exists T. intros t Ht. apply (HT t Ht O O); cbn; auto.
Qed.

Print Assumptions q_lambda_zero_converges.
Print Assumptions q_lambda_convergence_refuted.

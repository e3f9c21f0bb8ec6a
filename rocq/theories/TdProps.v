(** Theorems C25, C26, C27, C57, C58: temporal-difference learning. *)
From Coq Require Import List Arith Lia Reals Bool Lra Psatz Relations.
From Verif Require Import Common PolicyModel PolicySpec PolicyProofs TdModel TdSpec TdProofs.
Import ListNotations.

(** * C25 *)

(** Q-learning moves the visited entry, and no other, towards reward + gamma times
    the largest value of the next state, or the reward alone when absorbing. *)
Theorem q_learning_update : forall n k gamma al Q x, shaped n k Q -> sample_ok n k x ->
  shaped n k (ql_update gamma al Q x) /\
  exists v, moved gamma al v Q (ql_update gamma al Q x) x /\
    (x_abs x = true -> v = 0%R) /\
    (x_abs x = false -> (exists b, b < k /\ tget Q (x_s' x) b = v) /\ forall b, b < k -> (tget Q (x_s' x) b <= v)%R).
Proof.
  intros n k gamma al Q x H HS. unfold ql_update. split; [apply tset_shaped; auto|].
  eexists. split; [apply (moved_tset n k); auto|]. destruct HS as (A & B & C).
  split; intros E; rewrite E; auto.
  pose proof (row_length _ _ _ _ H C) as L.
  assert (NE : row Q (x_s' x) <> []) by (intros X; rewrite X in L; simpl in L; lia).
  destruct (qmax_spec _ NE) as [I M]. split.
  - apply (In_nth _ _ 0%R) in I. destruct I as (b & Hb & E'). exists b. split; [lia|exact E'].
  - intros b Hb. apply M. unfold tget. apply nth_In. lia.
Qed.

(** SARSA bootstraps from the drawn action. *)
Theorem sarsa_update_spec : forall n k gamma al a' Q x, shaped n k Q -> sample_ok n k x ->
  shaped n k (sarsa_update gamma al a' Q x) /\
  moved gamma al (if x_abs x then 0 else tget Q (x_s' x) a')%R Q (sarsa_update gamma al a' Q x) x.
Proof. intros n k gamma al a' Q x H HS. unfold sarsa_update. split; [apply tset_shaped; auto|apply (moved_tset n k); auto]. Qed.

(** Expected SARSA bootstraps from the expectation under the policy. *)
Theorem expected_sarsa_update_spec : forall n k gamma al pi Q x, shaped n k Q -> sample_ok n k x -> length pi = k ->
  shaped n k (esarsa_update gamma al pi Q x) /\
  moved gamma al (if x_abs x then 0 else rsum (map (fun b => nth b pi 0 * tget Q (x_s' x) b) (seq 0 k)))%R
    Q (esarsa_update gamma al pi Q x) x.
Proof.
  intros n k gamma al pi Q x H HS HP. unfold esarsa_update. split; [apply tset_shaped; auto|].
  assert (E : dot (row Q (x_s' x)) pi = rsum (map (fun b => nth b pi 0 * tget Q (x_s' x) b)%R (seq 0 k))).
  { destruct HS as (_ & _ & C). rewrite dot_comm, dot_nth; rewrite ?(row_length _ _ _ _ H C), HP; auto. }
  rewrite <- E. apply (moved_tset n k); auto.
Qed.

(** Double Q-learning changes one entry of one table, towards the value given by the
    other table to a maximising action of the first. *)
Theorem double_q_update : forall n k gamma al (sec : bool) c Q1 Q2 x, shaped n k Q1 -> shaped n k Q2 -> sample_ok n k x ->
  (x_abs x = false -> c < length (argmaxs (row (if sec then Q2 else Q1) (x_s' x)))) ->
  let P := dq_update gamma al sec c (Q1, Q2) x in
  let Qi := if sec then Q2 else Q1 in let Qj := if sec then Q1 else Q2 in
  (if sec then fst P else snd P) = Qj /\
  exists v, moved gamma al v Qi (if sec then snd P else fst P) x /\ shaped n k (if sec then snd P else fst P) /\
    (x_abs x = true -> v = 0%R) /\
    (x_abs x = false -> exists b, b < k /\ v = tget Qj (x_s' x) b /\
       forall b', b' < k -> (tget Qi (x_s' x) b' <= tget Qi (x_s' x) b)%R).
Proof.
  intros n k gamma al sec c Q1 Q2 x H1 H2 HS Hc. cbv zeta. set (Qi := if sec then Q2 else Q1) in *.
  assert (HI : shaped n k Qi) by (unfold Qi; destruct sec; auto).
  assert (K : x_abs x = false -> forall b', b' < k -> (tget Qi (x_s' x) b' <= tget Qi (x_s' x) (nth c (argmaxs (row Qi (x_s' x))) 0%nat))%R /\
                         nth c (argmaxs (row Qi (x_s' x))) 0 < k).
  { intros E. specialize (Hc E). destruct HS as (A & B & C). pose proof (row_length _ _ _ _ HI C) as L.
    pose proof (nth_In _ 0 Hc) as I. apply argmaxs_In in I;
      [|intros X; rewrite X in L; simpl in L; lia]. destruct I as [I1 I2]. intros b' Hb'. split; [|lia].
    apply I2. lia. }
  assert (Hk : 0 < k) by (destruct HS; lia).
  unfold dq_update. destruct sec; simpl fst; simpl snd; (split; [reflexivity|]); eexists;
    (split; [apply (moved_tset n k); auto|]); (split; [apply tset_shaped; auto|]); split; intros E; rewrite E; auto;
    (eexists; split; [|split; [reflexivity|]]); try (intros b' Hb'; apply K; auto); apply (K E 0 Hk).
Qed.

(** Maxmin Q-learning: only the drawn table changes, in the visited entry; the
    bootstrap is the largest over the actions of the smallest value over the tables. *)
Theorem maxmin_q_update : forall n k gamma al i Qs x, (forall Q, In Q Qs -> shaped n k Q) -> i < length Qs -> sample_ok n k x ->
  let Qs' := mm_update gamma al i Qs x in
  length Qs' = length Qs /\ (forall j, j <> i -> nth j Qs' [] = nth j Qs []) /\
  (forall Q, In Q Qs' -> shaped n k Q) /\
  exists v, moved gamma al v (nth i Qs []) (nth i Qs' []) x /\
    (x_abs x = true -> v = 0%R) /\
    (x_abs x = false ->
       (exists b Q, b < k /\ In Q Qs /\ v = tget Q (x_s' x) b /\ forall Q', In Q' Qs -> (v <= tget Q' (x_s' x) b)%R) /\
       forall b, b < k -> exists Q, In Q Qs /\ (tget Q (x_s' x) b <= v)%R).
Proof.
  intros n k gamma al i Qs x H Hi HS Qs'. unfold Qs', mm_update.
  assert (HI : shaped n k (nth i Qs [])) by (apply H, nth_In; auto).
  split; [apply Common.setnth_length|]. split; [intros j Hj; apply nth_setnth_neq; auto|]. split.
  - intros Q HQ. rewrite setnth_split in HQ by auto. apply in_app_or in HQ. destruct HQ as [HQ|[HQ|HQ]].
    + apply H. rewrite <- (firstn_skipn i Qs). apply in_or_app; auto.
    + subst Q. apply tset_shaped; auto.
    + apply H. rewrite <- (firstn_skipn (S i) Qs). apply in_or_app; auto.
  - rewrite nth_setnth_eq by auto. eexists. split; [apply (moved_tset n k); auto|].
    destruct HS as (A & B & C). split; intros E; rewrite E; auto.
    assert (NE : Qs <> []) by (destruct Qs; simpl in Hi; [lia|discriminate]).
    destruct (ens_min_spec n k Qs (x_s' x) NE H C) as [L M].
    assert (NE' : ens_min Qs (x_s' x) <> []) by (intros X; rewrite X in L; simpl in L; lia).
    destruct (qmax_spec _ NE') as [I J]. split.
    + apply (In_nth _ _ 0%R) in I. destruct I as (b & Hb & E'). destruct (M b) as [(Q & I1 & I2) I3]; [lia|].
      exists b, Q. rewrite <- E'. split; [lia|]. auto.
    + intros b Hb. destruct (M b Hb) as [(Q & I1 & I2) _]. exists Q. split; auto. rewrite <- I2. apply J.
      apply nth_In. lia.
Qed.

(** Speedy Q-learning changes only the visited entry and remembers the previous
    table; when the two tables agree on the next state it is Q-learning. *)
Theorem speedy_q_update : forall n k gamma al Q old x, shaped n k Q -> sample_ok n k x ->
  let P := speedy_update gamma al (Q, old) x in
  snd P = Q /\ shaped n k (fst P) /\
  (forall s a, (s, a) <> (x_s x, x_a x) -> tget (fst P) s a = tget Q s a) /\
  (x_abs x = true \/ row old (x_s' x) = row Q (x_s' x) -> fst P = ql_update gamma al Q x).
Proof.
  intros n k gamma al Q old x H HS P. unfold P, speedy_update. cbn [fst snd]. split; auto.
  split; [apply tset_shaped; auto|]. split; [intros; apply tget_tset_neq; auto|].
  intros D. unfold ql_update. f_equal. destruct (x_abs x); [ring|]. destruct D as [D|D]; [discriminate|]. rewrite D. ring.
Qed.

(** R-learning changes the visited entry, and the average reward exactly when the
    visited action is maximal after the update. *)
Theorem r_learning_update : forall n k al beta Q rho x, shaped n k Q -> sample_ok n k x ->
  let P := rl_update al beta (Q, rho) x in
  shaped n k (fst P) /\
  exists v, ((x_abs x = true /\ v = 0%R) \/ (x_abs x = false /\ maximal (row Q (x_s' x)) (nth 0 (argmaxs (row Q (x_s' x))) 0) /\
                  v = tget Q (x_s' x) (nth 0 (argmaxs (row Q (x_s' x))) 0))) /\
  tget (fst P) (x_s x) (x_a x) = ((1 - al) * tget Q (x_s x) (x_a x) + al * (x_r x - rho + v))%R /\
  (forall s a, (s, a) <> (x_s x, x_a x) -> tget (fst P) s a = tget Q s a) /\
  ((forall b, b < k -> (tget (fst P) (x_s x) b <= tget (fst P) (x_s x) (x_a x))%R) ->
     snd P = ((1 - beta) * rho + beta * (x_r x + v - tget (fst P) (x_s x) (x_a x)))%R) /\
  ((exists b, b < k /\ (tget (fst P) (x_s x) (x_a x) < tget (fst P) (x_s x) b)%R) -> snd P = rho).
Proof.
  intros n k al beta Q rho x H (A & B & C) P.
  set (v := if x_abs x then 0%R else qmax (row Q (x_s' x))).
  set (Q' := tset Q (x_s x) (x_a x) (tget Q (x_s x) (x_a x) + al * (x_r x - rho + v - tget Q (x_s x) (x_a x)))%R).
  assert (H' : shaped n k Q') by (apply tset_shaped; auto).
  change (fst P) with Q'. split; auto. exists v.
  assert (G : tget Q' (x_s x) (x_a x) = (tget Q (x_s x) (x_a x) + al * (x_r x - rho + v - tget Q (x_s x) (x_a x)))%R)
    by (apply (tget_tset_eq n k); auto).
  assert (SP : snd P = if Req_EM_T (tget Q' (x_s x) (x_a x)) (qmax (row Q' (x_s x)))
                       then (rho + beta * (x_r x + v - qmax (row Q' (x_s x)) - rho))%R else rho).
  { rewrite G. reflexivity. }
  pose proof (row_length _ _ _ _ H' A) as L'.
  assert (NE' : row Q' (x_s x) <> []) by (intros X; rewrite X in L'; simpl in L'; lia).
  destruct (qmax_spec _ NE') as [I M].
  split.
  { unfold v. destruct (x_abs x); [left; auto|right]. split; auto.
    pose proof (row_length _ _ _ _ H C) as L.
    assert (NE : row Q (x_s' x) <> []) by (intros X; rewrite X in L; simpl in L; lia).
    assert (J : In (nth 0 (argmaxs (row Q (x_s' x))) 0) (argmaxs (row Q (x_s' x)))).
    { apply nth_In. pose proof (argmaxs_nonempty _ NE). destruct (argmaxs (row Q (x_s' x))); [congruence|simpl; lia]. }
    apply argmaxs_In in J; auto. split; auto. destruct J as [J1 J2]. destruct (qmax_spec _ NE) as [I1 M1].
    apply Rle_antisym; [|apply M1; apply nth_In; auto].
    apply (In_nth _ _ 0%R) in I1. destruct I1 as (b & Hb & <-). apply J2; auto. }
  split; [rewrite G; ring|]. split; [intros; apply tget_tset_neq; auto|]. split.
  - intros Mx. rewrite SP. assert (E : tget Q' (x_s x) (x_a x) = qmax (row Q' (x_s x))).
    { apply Rle_antisym; [apply M; unfold tget; apply nth_In; lia|].
      apply (In_nth _ _ 0%R) in I. destruct I as (b & Hb & <-). apply Mx. lia. }
    destruct (Req_EM_T _ _); [|contradiction]. rewrite E. ring.
  - intros (b & Hb & Lt). rewrite SP. destruct (Req_EM_T _ _) as [E|]; auto.
    assert (tget Q' (x_s x) b <= qmax (row Q' (x_s x)))%R by (apply M; unfold tget; apply nth_In; lia). lra.
Qed.

(** With an absorbing sample the result does not depend on the next state, on the
    action drawn there or on the policy there, for any of the algorithms. *)
Definition same_but_next (x y : sample) : Prop :=
  x_s x = x_s y /\ x_a x = x_a y /\ x_r x = x_r y /\ x_abs x = true /\ x_abs y = true.

Theorem td_absorbing_no_bootstrap : forall x y gamma al, same_but_next x y ->
  (forall Q, ql_update gamma al Q x = ql_update gamma al Q y) /\
  (forall Q a b, sarsa_update gamma al a Q x = sarsa_update gamma al b Q y) /\
  (forall Q p q, esarsa_update gamma al p Q x = esarsa_update gamma al q Q y) /\
  (forall Q s c d, dq_update gamma al s c Q x = dq_update gamma al s d Q y) /\
  (forall Q i, mm_update gamma al i Q x = mm_update gamma al i Q y) /\
  (forall Q, speedy_update gamma al Q x = speedy_update gamma al Q y) /\
  (forall Q be, rl_update al be Q x = rl_update al be Q y) /\
  (forall Q be o a b, rq_update gamma al be o a Q x = rq_update gamma al be o b Q y) /\
  (forall Q i j, wq_update gamma al i Q x = wq_update gamma al j Q y) /\
  (forall Q k l a b, sarsa_lambda_update k gamma al l a Q x = sarsa_lambda_update k gamma al l b Q y) /\
  (forall Q k l, q_lambda_update k gamma al l Q x = q_lambda_update k gamma al l Q y) /\
  (forall Q k l r p q, sarsa_cont_update gamma al l r true k p Q = sarsa_cont_update gamma al l r true k q Q) /\
  (forall Q k l r p q, true_online_update gamma al l r true k p Q = true_online_update gamma al l r true k q Q).
Proof.
  intros [s a r s1 b1] [s2 a2 r2 s3 b2] gamma al (A & B & C & D & E). simpl in *. subst.
  repeat split; try (intros [? ?]; reflexivity); intros; try reflexivity; destruct Q; try reflexivity.
Qed.

(** * C26 *)

(** One update of one of the single-table algorithms with admissible inputs. *)
Inductive td_step (n k : nat) (gamma Rm : R) : table -> table -> Prop :=
| td_ql : forall al Q x, sample_ok n k x -> (0 <= al <= 1)%R -> (- Rm <= x_r x <= Rm)%R ->
    td_step n k gamma Rm Q (ql_update gamma al Q x)
| td_sarsa : forall al a Q x, sample_ok n k x -> (0 <= al <= 1)%R -> (- Rm <= x_r x <= Rm)%R ->
    td_step n k gamma Rm Q (sarsa_update gamma al a Q x)
| td_esarsa : forall al pi Q x, sample_ok n k x -> (0 <= al <= 1)%R -> (- Rm <= x_r x <= Rm)%R ->
    distribution pi -> length pi = k -> td_step n k gamma Rm Q (esarsa_update gamma al pi Q x)
| td_wq : forall al idx st x, sample_ok n k x -> (0 <= al <= 1)%R -> (- Rm <= x_r x <= Rm)%R ->
    Forall (fun i => i < k) idx -> idx <> [] -> td_step n k gamma Rm (w_Q st) (w_Q (wq_update gamma al idx st x)).

Lemma wq_weights_dist : forall k idx, Forall (fun i => i < k) idx -> idx <> [] ->
  distribution (wq_weights k idx) /\ length (wq_weights k idx) = k.
Proof.
  intros k idx F NE. unfold wq_weights. split; [|rewrite map_length, seq_length; auto].
  assert (P : (0 < INR (length idx))%R) by (apply lt_0_INR; destruct idx; [congruence|simpl; lia]). split.
  - intros x Hx. apply in_map_iff in Hx. destruct Hx as (a & <- & _).
    apply Rmult_le_pos; [apply pos_INR|left; apply Rinv_0_lt_compat; auto].
  - rewrite (rsum_map_ext _ _ (fun a => / INR (length idx) * INR (count_occ Nat.eq_dec idx a))%R) by (intros; unfold Rdiv; ring).
    rewrite (rsum_map_scal _ (fun a => INR (count_occ Nat.eq_dec idx a))).
    assert (E : rsum (map (fun a => INR (count_occ Nat.eq_dec idx a)) (seq 0 k)) = INR (length idx)); [|rewrite E; field; lra].
    clear NE P. induction F as [|i idx Hi F IH].
    + simpl. rewrite (rsum_map_const _ 0%R). ring.
    + cbn [length]. rewrite S_INR, <- IH.
      rewrite (rsum_map_ext _ _ (fun a => INR (count_occ Nat.eq_dec idx a) + (if Nat.eq_dec i a then 1 else 0))%R).
      2:{ intros a _. simpl. destruct (Nat.eq_dec i a); [rewrite S_INR; ring|ring]. }
      rewrite (rsum_map_plus _ (fun a => INR (count_occ Nat.eq_dec idx a))). f_equal.
      replace k with (i + (1 + (k - i - 1))) by lia. rewrite seq_app, map_app, rsum_app. simpl.
      destruct (Nat.eq_dec i i); [|congruence].
      rewrite (rsum_map_ext _ _ (fun _ => 0%R) (seq 0 i)).
      2:{ intros a Ha. apply in_seq in Ha. destruct (Nat.eq_dec i a); [lia|auto]. }
      rewrite (rsum_map_ext _ _ (fun _ => 0%R) (seq (S i) _)).
      2:{ intros a Ha. apply in_seq in Ha. destruct (Nat.eq_dec i a); [lia|auto]. }
      rewrite !rsum_map_const. ring.
Qed.

Theorem td_values_bounded : forall n k gamma Rm B Q0 Q, (0 <= gamma < 1)%R -> (B = Rm / (1 - gamma))%R ->
  shaped n k Q0 -> within B Q0 -> clos_refl_trans table (td_step n k gamma Rm) Q0 Q -> shaped n k Q /\ within B Q.
Proof.
  intros n k gamma Rm B Q0 Q Hg EB H W R. apply clos_rt_rtn1 in R.
  assert (HB : (Rm + gamma * B <= B)%R) by (right; subst B; field; lra).
  induction R as [|Q1 Q2 S _ IH]; auto. destruct IH as [IH1 IH2].
  pose proof (within_nonneg _ _ IH2) as B0.
  destruct S as [al Q1 x HS Ha Hr|al a Q1 x HS Ha Hr|al pi Q1 x HS Ha Hr [D1 D2] HP|al idx st x HS Ha Hr F NE].
  - split; [apply tset_shaped; auto|]. eapply moved_within; [apply (moved_tset n k); auto|..]; eauto; try lra.
    destruct (x_abs x); [lra|]. apply qmax_within; auto.
  - split; [apply tset_shaped; auto|]. eapply moved_within; [apply (moved_tset n k); auto|..]; eauto; try lra.
    destruct (x_abs x); [lra|]. apply IH2.
  - split; [apply tset_shaped; auto|]. eapply moved_within; [apply (moved_tset n k); auto|..]; eauto; try lra.
    destruct (x_abs x); [lra|]. destruct (dot_convex (row Q1 (x_s' x)) pi B) as [L U]; auto.
    { intros y Hy. apply (within_row _ _ _ _ IH2 Hy). }
    { rewrite HP. apply row_length with (n := n); auto. apply HS. }
    rewrite D2 in L, U. lra.
  - split; [apply tset_shaped; auto|]. eapply moved_within; [apply (moved_tset n k); auto|..]; eauto; try lra.
    destruct (x_abs x); [lra|]. unfold wq_next. pose proof (row_length _ _ _ _ IH1 (proj2 (proj2 HS))) as L. rewrite L.
    destruct (wq_weights_dist k idx F NE) as [[D1 D2] D3]. rewrite dot_comm.
    destruct (dot_convex (row (w_Q st) (x_s' x)) (wq_weights k idx) B) as [L1 U1]; auto.
    { intros y Hy. apply (within_row _ _ _ _ IH2 Hy). } { lia. }
    rewrite D2 in L1, U1. lra.
Qed.

Theorem double_q_values_bounded : forall n k gamma Rm B xs Q, (0 <= gamma < 1)%R -> (B = Rm / (1 - gamma))%R ->
  shaped n k (fst Q) -> shaped n k (snd Q) -> within B (fst Q) -> within B (snd Q) ->
  Forall (fun t : (R * bool * nat) * sample => sample_ok n k (snd t) /\ (0 <= fst (fst (fst t)) <= 1)%R /\ (- Rm <= x_r (snd t) <= Rm)%R) xs ->
  let Q' := fold_left (fun Q t => dq_update gamma (fst (fst (fst t))) (snd (fst (fst t))) (snd (fst t)) Q (snd t)) xs Q in
  within B (fst Q') /\ within B (snd Q').
Proof.
  intros n k gamma Rm B xs Q Hg EB. assert (HB : (Rm + gamma * B <= B)%R) by (right; subst B; field; lra).
  revert Q. induction xs as [|[[[al sec] c] x] xs IH]; intros Q H1 H2 W1 W2 F Q'; [split; auto|].
  inversion F as [|? ? (HS & Ha & Hr) F']; subst. unfold Q'. cbn [fold_left fst snd] in *.
  pose proof (within_nonneg _ _ W1) as B0.
  apply IH; auto; unfold dq_update; destruct sec; cbn [fst snd]; auto; try (apply tset_shaped; auto);
    (eapply moved_within; [apply (moved_tset n k); auto|..]; eauto; try lra; destruct (x_abs x); [lra|]); auto.
Qed.

Theorem maxmin_q_values_bounded : forall n k gamma Rm B xs Qs, (0 <= gamma < 1)%R -> (B = Rm / (1 - gamma))%R ->
  (forall Q, In Q Qs -> shaped n k Q /\ within B Q) ->
  Forall (fun t : (R * nat) * sample => sample_ok n k (snd t) /\ snd (fst t) < length Qs /\ (0 <= fst (fst t) <= 1)%R /\ (- Rm <= x_r (snd t) <= Rm)%R) xs ->
  forall Q, In Q (fold_left (fun Q t => mm_update gamma (fst (fst t)) (snd (fst t)) Q (snd t)) xs Qs) -> within B Q.
Proof.
  intros n k gamma Rm B xs Qs Hg EB. assert (HB : (Rm + gamma * B <= B)%R) by (right; subst B; field; lra).
  revert Qs. induction xs as [|[[al i] x] xs IH]; intros Qs H F; [intros Q HQ; apply H; auto|].
  inversion F as [|? ? (HS & Hi & Ha & Hr) F']; subst. cbn [fold_left fst snd] in *.
  destruct (maxmin_q_update n k gamma al i Qs x) as (L & N & SH & v & M & V1 & V2); auto; [intros; apply H; auto|].
  assert (W0 : within (Rm / (1 - gamma)) (nth i Qs [])) by (apply H, nth_In; auto).
  pose proof (within_nonneg _ _ W0) as B0.
  apply IH; [|rewrite L; auto]. intros Q HQ. split; [apply SH; auto|].
  apply (In_nth _ _ []) in HQ. destruct HQ as (j & Hj & <-).
  assert (Hj' : j < length Qs) by (eapply Nat.lt_le_trans; [exact Hj|apply Nat.eq_le_incl; exact L]).
  destruct (Nat.eq_dec j i) as [->|NE]; [|rewrite N by auto; apply H, nth_In; auto].
  eapply moved_within; [exact M|..]; eauto; try lra. destruct (x_abs x) eqn:E; [rewrite V1 by auto; lra|].
  destruct (V2 eq_refl) as [(b & Q & Hb & IQ & -> & _) _]. apply H; auto.
Qed.

(** RQ-learning *)
Theorem rq_values_bounded : forall n k gamma Rm B xs Q Qt Rt, (0 <= gamma < 1)%R -> (B = Rm / (1 - gamma))%R ->
  shaped n k Q -> shaped n k Qt -> shaped n k Rt -> within B Q -> within B Qt -> within Rm Rt ->
  Forall (fun t : (R * R * bool * nat) * sample => sample_ok n k (snd t) /\ (0 <= fst (fst (fst (fst t))) <= 1)%R /\
            (0 <= snd (fst (fst (fst t))) <= 1)%R /\ (- Rm <= x_r (snd t) <= Rm)%R) xs ->
  let S := fold_left (fun S t => rq_update gamma (fst (fst (fst (fst t)))) (snd (fst (fst (fst t)))) (snd (fst (fst t))) (snd (fst t)) S (snd t)) xs (Q, Qt, Rt) in
  within B (fst (fst S)) /\ within B (snd (fst S)) /\ within Rm (snd S).
Proof.
  intros n k gamma Rm B xs Q Qt Rt Hg EB. assert (HB : (Rm + gamma * B <= B)%R) by (right; subst B; field; lra).
  revert Q Qt Rt. induction xs as [|[[[[al be] off] a'] x] xs IH]; intros Q Qt Rt H1 H2 H3 W1 W2 W3 F S; [split; auto|].
  inversion F as [|? ? (HS & Ha & Hb & Hr) F']; subst. unfold S. cbn [fold_left fst snd] in *.
  pose proof (within_nonneg _ _ W1) as B0. destruct HS as (X1 & X2 & X3).
  assert (K : forall Q0 v B0, within B0 Q0 -> (- B0 <= v <= B0)%R -> within B0 (tset Q0 (x_s x) (x_a x) v)).
  { intros Q0 v B1 W V s a. destruct (Nat.eq_dec s (x_s x)) as [->|Hs]; [destruct (Nat.eq_dec a (x_a x)) as [->|Ha']|];
      try (rewrite tget_tset_neq by congruence; apply W).
    destruct (le_lt_dec (length Q0) (x_s x)) as [L|L]; [unfold tset; rewrite setnth_ge by auto; apply W|].
    unfold tget, tset, row. rewrite nth_setnth_eq by auto.
    destruct (le_lt_dec (length (nth (x_s x) Q0 [])) (x_a x)) as [L'|L']; [rewrite setnth_ge by auto; apply W|].
    rewrite nth_setnth_eq by auto. auto. }
  pose (Rt' := tset Rt (x_s x) (x_a x) (tget Rt (x_s x) (x_a x) + al * (x_r x - tget Rt (x_s x) (x_a x)))%R).
  pose (Qt' := if x_abs x then Qt
             else tset Qt (x_s x) (x_a x) (tget Qt (x_s x) (x_a x) + be * (rq_next off a' Q (x_s' x) - tget Qt (x_s x) (x_a x)))%R).
  change (rq_update gamma al be off a' (Q, Qt, Rt) x)
    with (tset Q (x_s x) (x_a x) (tget Rt' (x_s x) (x_a x) + gamma * tget Qt' (x_s x) (x_a x))%R, Qt', Rt').
  assert (N : (- (Rm / (1 - gamma)) <= rq_next off a' Q (x_s' x) <= Rm / (1 - gamma))%R).
  { unfold rq_next. destruct off; [apply qmax_within; auto|apply W1]. }
  assert (W3' : within Rm Rt').
  { apply K; auto. specialize (W3 (x_s x) (x_a x)). set (q := tget Rt _ _) in *. clearbody q. nra. }
  assert (W2' : within (Rm / (1 - gamma)) Qt').
  { unfold Qt'. destruct (x_abs x); auto. apply K; auto. specialize (W2 (x_s x) (x_a x)).
    set (q := tget Qt _ _) in *. clearbody q. set (v := rq_next _ _ _ _) in *. clearbody v. nra. }
  assert (S2 : shaped n k Qt') by (unfold Qt'; destruct (x_abs x); auto; apply tset_shaped; auto).
  apply IH; auto; try (apply tset_shaped; auto).
  apply K; auto. specialize (W3' (x_s x) (x_a x)). specialize (W2' (x_s x) (x_a x)).
  set (q := tget Rt' _ _) in *. clearbody q. set (v := tget Qt' _ _) in *. clearbody v. nra.
Qed.

(** * C57: RQ-learning and weighted Q-learning *)

(** With beta equal to alpha, off-policy RQ-learning is Q-learning as long as no
    sample is absorbing. *)
Theorem rq_is_q_learning : forall n k gamma al a' Q Qt Rt x, shaped n k Q -> shaped n k Qt -> shaped n k Rt -> sample_ok n k x ->
  x_abs x = false ->
  (forall s a, s < n -> a < k -> tget Q s a = (tget Rt s a + gamma * tget Qt s a)%R) ->
  let S := rq_update gamma al al true a' (Q, Qt, Rt) x in
  fst (fst S) = ql_update gamma al Q x /\
  (forall s a, s < n -> a < k -> tget (fst (fst S)) s a = (tget (snd S) s a + gamma * tget (snd (fst S)) s a)%R).
Proof.
  intros n k gamma al a' Q Qt Rt x H1 H2 H3 HS E I S. destruct HS as (X1 & X2 & X3).
  unfold S, rq_update, ql_update, rq_next. rewrite E. cbn [fst snd]. split.
  - f_equal. rewrite !(tget_tset_eq n k) by auto. rewrite I by auto. ring.
  - intros s a Hs Ha. destruct (Nat.eq_dec s (x_s x)) as [->|N1]; [destruct (Nat.eq_dec a (x_a x)) as [->|N2]|].
    + rewrite !(tget_tset_eq n k) by auto. ring.
    + rewrite !tget_tset_neq by congruence. auto.
    + rewrite !tget_tset_neq by congruence. auto.
Qed.

(** With absorbing samples it is not: the term of the next state is kept instead of
    being averaged with zero. *)
Theorem rq_absorbing_refuted : exists S x1 x2, 
  let gamma := (1/2)%R in let al := (1/2)%R in
  S = (tconst 2 1 0, tconst 2 1 0, tconst 2 1 0) /\ x_abs x1 = false /\ x_abs x2 = true /\
  fst (fst (rq_update gamma al al true 0 (rq_update gamma al al true 0 (rq_update gamma al al true 0 S
     {| x_s := 1; x_a := 0; x_r := 8; x_s' := 1; x_abs := true |}) x1) x2)) <>
  ql_update gamma al (ql_update gamma al (ql_update gamma al (fst (fst S))
     {| x_s := 1; x_a := 0; x_r := 8; x_s' := 1; x_abs := true |}) x1) x2.
Proof.
  exists (tconst 2 1 0, tconst 2 1 0, tconst 2 1 0).
  exists {| x_s := 0; x_a := 0; x_r := 0; x_s' := 1; x_abs := false |}.
  exists {| x_s := 0; x_a := 0; x_r := 0; x_s' := 1; x_abs := true |}.
  cbv zeta. split; auto. split; auto. split; auto. unfold rq_update, ql_update, rq_next, qmax, tget, tset, row, tconst. simpl.
  intros X. injection X. lra.
Qed.

(** The weights of weighted Q-learning form a distribution and its bootstrap lies
    between the smallest and the largest value of the state. *)
Theorem weighted_q_next : forall n k Q s idx lo hi, shaped n k Q -> s < n ->
  Forall (fun i => i < k) idx -> idx <> [] -> (forall a, a < k -> (lo <= tget Q s a <= hi)%R) ->
  distribution (wq_weights k idx) /\ (lo <= wq_next Q s idx <= hi)%R.
Proof.
  intros n k Q s idx lo hi H Hs F NE Bd. destruct (wq_weights_dist k idx F NE) as [D L]. split; auto.
  unfold wq_next. rewrite (row_length _ _ _ _ H Hs). destruct D as [D1 D2]. rewrite dot_comm.
  assert (G : forall u p, length u = length p -> (forall x, In x u -> lo <= x <= hi)%R -> (forall x, In x p -> 0 <= x)%R ->
     (lo * rsum p <= dot u p <= hi * rsum p)%R).
  { induction u as [|x u IH]; intros [|y p] L' Hu Hp; simpl in *; try discriminate; [lra|].
    destruct (IH p) as [I J]; auto. pose proof (Hu x (or_introl eq_refl)). pose proof (Hp y (or_introl eq_refl)). nra. }
  destruct (G (row Q s) (wq_weights k idx)) as [A B]; auto.
  - rewrite L. apply row_length with (n := n); auto.
  - intros x Hx. apply (In_nth _ _ 0%R) in Hx. destruct Hx as (a & Ha & <-). apply Bd.
    rewrite (row_length _ _ _ _ H Hs) in Ha. auto.
  - rewrite D2 in A, B. lra.
Qed.

(** The second-moment table never falls below the square of the mean, so the sample
    variance is never negative, and the standard deviation used for sampling is
    always at least 1e-5. *)
Theorem weighted_q_variance : forall n k gamma xs,
  Forall (fun t : (R * list nat) * sample => sample_ok n k (snd t) /\ (0 <= fst (fst t) <= 1)%R) xs ->
  let S := fold_left (fun S t => wq_update gamma (fst (fst t)) (snd (fst t)) S (snd t)) xs (wq_init n k) in
  forall s a, s < n -> a < k ->
    (0 <= tget (w_Q2 S) s a - tget (w_Q S) s a ^ 2)%R /\ (0 <= tget (w_w1 S) s a <= 1)%R /\
    (0 <= tget (w_w2 S) s a)%R /\ (/ 10 ^ 5 <= tget (w_sigma S) s a)%R.
Proof.
  intros n k gamma xs F.
  assert (G : forall xs S, Forall (fun t : (R * list nat) * sample => sample_ok n k (snd t) /\ (0 <= fst (fst t) <= 1)%R) xs ->
    (shaped n k (w_Q S) /\ shaped n k (w_Q2 S) /\ shaped n k (w_w1 S) /\ shaped n k (w_w2 S) /\ shaped n k (w_sigma S)) ->
    (forall s a, s < n -> a < k -> (0 <= tget (w_Q2 S) s a - tget (w_Q S) s a ^ 2)%R /\ (0 <= tget (w_w1 S) s a <= 1)%R /\
       (0 <= tget (w_w2 S) s a)%R /\ (/ 10 ^ 5 <= tget (w_sigma S) s a)%R) ->
    let S' := fold_left (fun S t => wq_update gamma (fst (fst t)) (snd (fst t)) S (snd t)) xs S in
    forall s a, s < n -> a < k -> (0 <= tget (w_Q2 S') s a - tget (w_Q S') s a ^ 2)%R /\ (0 <= tget (w_w1 S') s a <= 1)%R /\
       (0 <= tget (w_w2 S') s a)%R /\ (/ 10 ^ 5 <= tget (w_sigma S') s a)%R).
  { clear xs F. induction xs as [|[[al idx] x] xs IH]; intros S F SH I; [exact I|].
    inversion F as [|? ? ((X1 & X2 & X3) & Ha) F']; subst. cbn [fold_left fst snd] in *.
    destruct SH as (S1 & S2 & S3 & S4 & S5).
    assert (SQ : forall Q' c, shaped n k (w_sigma S) -> shaped n k (if Rlt_dec 1 c then tset (w_sigma S) (x_s x) (x_a x) Q' else w_sigma S)).
    { intros. destruct (Rlt_dec 1 c); auto. apply tset_shaped; auto. }
    apply IH; auto.
    - unfold wq_update; cbn [w_Q w_Q2 w_w1 w_w2 w_sigma]. split; [|split; [|split; [|split]]]; try (apply tset_shaped; auto); apply SQ; auto.
    - intros s a Hs Ha'. specialize (I s a Hs Ha').
      unfold wq_update; cbn [w_Q w_Q2 w_w1 w_w2 w_sigma w_n].
      set (t := (x_r x + gamma * _)%R). clearbody t.
      destruct (Nat.eq_dec s (x_s x)) as [->|N1]; [destruct (Nat.eq_dec a (x_a x)) as [->|N2]|].
      + rewrite !(tget_tset_eq n k (w_Q S)), !(tget_tset_eq n k (w_Q2 S)), !(tget_tset_eq n k (w_w1 S)), !(tget_tset_eq n k (w_w2 S)) by auto.
        destruct I as (I1 & I2 & I3 & I4).
        assert (A4 : forall z, (/ 10 ^ 5 <= sqrt (Rmax z (/ 10 ^ 10)))%R).
        { intros z. replace (/ 10 ^ 5)%R with (sqrt (/ 10 ^ 10)).
          - apply sqrt_le_1_alt. apply Rmax_r.
          - replace (/ 10 ^ 10)%R with (/ 10 ^ 5 * / 10 ^ 5)%R by (simpl; field). apply sqrt_square.
            left. apply Rinv_0_lt_compat. simpl; lra. }
        split; [|split; [|split]].
        * set (q := tget (w_Q S) _ _) in *. set (q2 := tget (w_Q2 S) _ _) in *. clearbody q q2.
          replace (q2 + al * (t ^ 2 - q2) - (q + al * (t - q)) ^ 2)%R with
            ((1 - al) * (q2 - q ^ 2) + al * (1 - al) * (t - q) ^ 2)%R by ring.
          assert (0 <= (t - q) ^ 2)%R by (apply pow2_ge_0). assert (0 <= al * (1 - al))%R by nra.
          assert (0 <= (1 - al) * (q2 - q ^ 2))%R by (apply Rmult_le_pos; lra). nra.
        * set (w := tget (w_w1 S) _ _) in *. clearbody w. nra.
        * assert (0 <= (1 - al) ^ 2)%R by apply pow2_ge_0. assert (0 <= al ^ 2)%R by apply pow2_ge_0. nra.
        * destruct (Rlt_dec 1 _); auto. rewrite (tget_tset_eq n k (w_sigma S)) by auto. apply A4.
      + rewrite !tget_tset_neq by congruence. destruct (Rlt_dec 1 _); auto. rewrite !tget_tset_neq by congruence. auto.
      + rewrite !tget_tset_neq by congruence. destruct (Rlt_dec 1 _); auto. rewrite !tget_tset_neq by congruence. auto. }
  apply G; auto.
  - unfold wq_init; cbn [w_Q w_Q2 w_w1 w_w2 w_sigma]. split; [|split; [|split; [|split]]]; apply tconst_shaped.
  - intros s a Hs Ha. unfold wq_init; cbn [w_Q w_Q2 w_w1 w_w2 w_sigma]. rewrite !tconst_get by auto. simpl. repeat split; lra.
Qed.

Lemma coef_snoc : forall als al j, j < length als -> coef (als ++ [al]) j = ((1 - al) * coef als j)%R.
Proof.
  intros als al j H. unfold coef. rewrite app_nth1 by auto. rewrite skipn_app. replace (S j - length als) with 0 by lia. cbn [skipn].
  rewrite fold_right_app. cbn [fold_right].
  assert (G : forall l c, (fold_right (fun a p => (1 - a) * p) c l = c * fold_right (fun a p => (1 - a) * p) 1 l)%R).
  { induction l as [|x l IH]; intros c; simpl; [ring|]. rewrite (IH c). ring. }
  rewrite G. ring.
Qed.
Lemma coef_last : forall als al, coef (als ++ [al]) (length als) = al.
Proof.
  intros. unfold coef. rewrite app_nth2 by lia. rewrite Nat.sub_diag. cbn [nth]. rewrite skipn_all2 by (rewrite app_length; simpl; lia). simpl. ring.
Qed.
Lemma wavg_snoc : forall als al f g, (forall j, j < length als -> g j = f j) ->
  wavg (als ++ [al]) g = ((1 - al) * wavg als f + al * g (length als))%R.
Proof.
  intros als al f g H. unfold wavg. rewrite app_length. cbn [length]. rewrite seq_app, map_app, rsum_app. cbn [seq map rsum Nat.add].
  rewrite coef_last, <- rsum_map_scal. rewrite (rsum_map_ext _ (fun j => coef (als ++ [al]) j * g j)%R (fun j => (1 - al) * (coef als j * f j))%R); [ring|].
  intros j Hj. apply in_seq in Hj. rewrite coef_snoc, H by lia. ring.
Qed.

(** The tables of weighted Q-learning are moments of the same targets under the same
    exponential weights; the deviation is derived from them from the second update on. *)
Theorem weighted_q_moments : forall n k gamma xs,
  Forall (fun t : (R * list nat) * sample => sample_ok n k (snd t)) xs ->
  let S := fold_left (fun S t => wq_update gamma (fst (fst t)) (snd (fst t)) S (snd t)) xs (wq_init n k) in
  forall s a, s < n -> a < k ->
  let als := map (fun t => fst (fst t)) (filter (fun t => pair_eqb (x_s (snd t), x_a (snd t)) (s, a)) xs) in
  exists target : nat -> R,
    tget (w_Q S) s a = wavg als target /\ tget (w_Q2 S) s a = wavg als (fun j => target j ^ 2)%R /\
    tget (w_w1 S) s a = wavg als (fun _ => 1%R) /\ tget (w_w2 S) s a = wavg als (coef als) /\ tget (w_n S) s a = INR (length als) /\
    tget (w_sigma S) s a =
      if 2 <=? length als
      then (sqrt (Rmax ((wavg als (fun j => target j ^ 2) - wavg als target ^ 2) * (wavg als (coef als) / (wavg als (fun _ => 1) * 2 + / 10 ^ 10))) (/ 10 ^ 10)))%R
      else (10 ^ 10)%R.
Proof.
  intros n k gamma xs F. cbv zeta. intros s a Hs Ha. revert F.
  induction xs as [|[[al idx] x] xs IH] using rev_ind; intros F.
  - exists (fun _ => 0%R). unfold wavg. cbn [filter map length seq rsum fold_left Nat.leb INR]. unfold wq_init. cbn [w_Q w_Q2 w_n w_w1 w_w2 w_sigma].
    rewrite !tconst_get by auto. repeat split; reflexivity.
  - apply Forall_app in F. destruct F as [F FX]. inversion FX as [|? ? (X1 & X2 & X3) _]; subst. cbn [snd] in *.
    assert (SH : let S := fold_left (fun S t => wq_update gamma (fst (fst t)) (snd (fst t)) S (snd t)) xs (wq_init n k) in
      shaped n k (w_Q S) /\ shaped n k (w_Q2 S) /\ shaped n k (w_n S) /\ shaped n k (w_w1 S) /\ shaped n k (w_w2 S) /\ shaped n k (w_sigma S)).
    { clear. cbv zeta. induction xs as [|[[al idx] x] xs IH] using rev_ind.
      - unfold wq_init; cbn [fold_left w_Q w_Q2 w_n w_w1 w_w2 w_sigma]. repeat (split; [apply tconst_shaped|]). apply tconst_shaped.
      - rewrite fold_left_app. cbn [fold_left fst snd]. destruct IH as (A & B & C & D & E & G). unfold wq_update. cbn [w_Q w_Q2 w_n w_w1 w_w2 w_sigma].
        repeat (split; [apply tset_shaped; auto|]). destruct (Rlt_dec _ _); auto. apply tset_shaped; auto. }
    cbv zeta in SH. specialize (IH F). rewrite fold_left_app, filter_app, map_app. cbn [fold_left filter fst snd].
    set (S0 := fold_left _ xs _) in *. clearbody S0. set (als := map _ (filter _ xs)) in *. clearbody als.
    destruct SH as (S1 & S2 & S3 & S4 & S5 & S6). destruct IH as (tg & I1 & I2 & I3 & I4 & I5 & I6).
    unfold wq_update. cbn [w_Q w_Q2 w_n w_w1 w_w2 w_sigma].
    set (t := (x_r x + gamma * _)%R). clearbody t.
    destruct (pair_eqb (x_s x, x_a x) (s, a)) eqn:P.
    + apply pair_eqb_spec in P. injection P as -> ->. cbn [map fst].
      rewrite !(tget_tset_eq n k (w_Q S0)), !(tget_tset_eq n k (w_Q2 S0)), !(tget_tset_eq n k (w_w1 S0)), !(tget_tset_eq n k (w_w2 S0)), !(tget_tset_eq n k (w_n S0)) by auto.
      exists (fun j => if j =? length als then t else tg j).
      assert (Q1 : wavg (als ++ [al]) (fun j => if j =? length als then t else tg j) = (tget (w_Q S0) s a + al * (t - tget (w_Q S0) s a))%R).
      { rewrite (wavg_snoc als al tg) by (intros j Hj; rewrite (proj2 (Nat.eqb_neq _ _)) by lia; reflexivity). rewrite Nat.eqb_refl, I1. ring. }
      assert (Q2 : wavg (als ++ [al]) (fun j => (if j =? length als then t else tg j) ^ 2)%R = (tget (w_Q2 S0) s a + al * (t ^ 2 - tget (w_Q2 S0) s a))%R).
      { rewrite (wavg_snoc als al (fun j => tg j ^ 2)%R) by (intros j Hj; rewrite (proj2 (Nat.eqb_neq _ _)) by lia; reflexivity). rewrite Nat.eqb_refl, I2. ring. }
      assert (W1 : wavg (als ++ [al]) (fun _ => 1%R) = ((1 - al) * tget (w_w1 S0) s a + al)%R).
      { rewrite (wavg_snoc als al (fun _ => 1%R)) by reflexivity. rewrite I3. ring. }
      assert (W2 : wavg (als ++ [al]) (coef (als ++ [al])) = ((1 - al) ^ 2 * tget (w_w2 S0) s a + al ^ 2)%R).
      { rewrite (wavg_snoc als al (fun j => (1 - al) * coef als j)%R) by (intros j Hj; apply coef_snoc; auto). rewrite coef_last, I4.
        unfold wavg at 1. rewrite (rsum_map_ext _ _ (fun j => (1 - al) * (coef als j * coef als j))%R) by (intros; ring). rewrite rsum_map_scal. unfold wavg. ring. }
      rewrite Q1, Q2, W1, W2. split; [reflexivity|]. split; [reflexivity|]. split; [reflexivity|]. split; [reflexivity|].
      rewrite I5, app_length. cbn [length]. rewrite plus_INR. split; [reflexivity|].
      destruct (Rlt_dec 1 (INR (length als) + 1)) as [L|L].
      * rewrite (tget_tset_eq n k (w_sigma S0)) by auto. destruct (Nat.leb_spec 2 (length als + 1)) as [C|C]; [reflexivity|].
        exfalso. replace (length als) with 0 in L by lia. simpl in L. lra.
      * destruct (Nat.leb_spec 2 (length als + 1)) as [C|C].
        -- exfalso. apply L. assert (1 <= INR (length als))%R by (change 1%R with (INR 1); apply le_INR; lia). lra.
        -- rewrite I6. destruct (Nat.leb_spec 2 (length als)); [lia|reflexivity].
    + assert (N : (s, a) <> (x_s x, x_a x)).
      { intros X. rewrite <- X in P. assert (Z : pair_eqb (s, a) (s, a) = true) by (apply pair_eqb_spec; reflexivity). congruence. }
      cbn [map]. rewrite app_nil_r. exists tg. rewrite !tget_tset_neq by auto.
      split; [auto|]. split; [auto|]. split; [auto|]. split; [auto|]. split; [auto|].
      destruct (Rlt_dec _ _); auto. rewrite tget_tset_neq; auto.
Qed.

Example coef_demo : wavg [1 / 2; 1 / 4]%R (fun j => INR (S j)) = (7 / 8)%R.
Proof. unfold wavg, coef. simpl. lra. Qed.

(** * C27 *)

Definition lrun (kd : trace_kind) (gamma lam : R) (l : list ((R * R) * sample)) (st : table * table) : table * table :=
  fold_left (fun st t => lambda_update kd gamma (fst (fst t)) lam (snd (fst t)) st (snd t)) l st.

(** At any point of an episode, after the updates for the samples [l], the trace of
    each pair is the documented function of the ages of its visits since the start
    of the episode, whatever the learning rates and bootstrap values. *)
Theorem traces_closed_form : forall n k kd gamma lam l Q e, shaped n k Q -> shaped n k e ->
  Forall (fun t => sample_ok n k (snd t)) l ->
  let st := lrun kd gamma lam l (Q, trace_reset e) in
  shaped n k (fst st) /\ shaped n k (snd st) /\
  forall s a, s < n -> a < k ->
    tget (snd st) s a = trace_spec kd (gamma * lam) 1 (rev (map (fun t => (x_s (snd t), x_a (snd t))) l)) (s, a).
Proof.
  intros n k kd gamma lam l Q e HQ He. destruct (trace_reset_spec n k e He) as [SE ZE].
  induction l as [|t l IH] using rev_ind; intros F.
  - simpl. split; auto. split; auto. intros. rewrite ZE. destruct kd; reflexivity.
  - apply Forall_app in F. destruct F as [F1 F2]. inversion F2 as [|? ? HS _]; subst.
    destruct (IH F1) as (I1 & I2 & I3). unfold lrun in *. rewrite fold_left_app. cbn [fold_left].
    set (st := fold_left _ l _) in *. destruct st as [Q1 e1]. cbn [fst snd] in *.
    destruct (lambda_run_inv n k kd gamma (fst (fst t)) lam (snd (fst t)) Q1 e1 (snd t)
      (rev (map (fun t => (x_s (snd t), x_a (snd t))) l))) as (A & B & C & D); auto.
    split; auto. split; auto. intros s a Hs Ha. rewrite C by auto. rewrite map_app, rev_app_distr. reflexivity.
Qed.

Theorem traces_bounded : forall n k kd gamma lam l Q e, shaped n k Q -> shaped n k e ->
  Forall (fun t => sample_ok n k (snd t)) l -> (0 <= gamma * lam < 1)%R ->
  forall s a, s < n -> a < k ->
    let v := tget (snd (lrun kd gamma lam l (Q, trace_reset e))) s a in
    match kd with
    | Replacing => (0 <= v <= 1)%R
    | Accumulating => (0 <= v <= 1 / (1 - gamma * lam))%R
    end.
Proof.
  intros n k kd gamma lam l Q e HQ He F Hc s a Hs Ha v.
  destruct (traces_closed_form n k kd gamma lam l Q e HQ He F) as (_ & _ & T). unfold v. rewrite T by auto.
  destruct kd; simpl.
  - apply rep_trace_bound. lra.
  - destruct (acc_trace_bound (gamma * lam) (rev (map (fun t => (x_s (snd t), x_a (snd t))) l)) 1 (s, a) Hc) as [A B]. split; auto.
    eapply Rle_trans; [apply B|]. apply Rmult_le_compat_r; [left; apply Rinv_0_lt_compat; lra|]. simpl. lra.
Qed.

(** One update with traces: every pair moves by alpha * delta times its trace, the
    trace of the pair just visited being 1 (replacing) or at least 1 (accumulating). *)
Theorem lambda_update_effect : forall n k kd gamma lam l Q e al qn x, shaped n k Q -> shaped n k e ->
  Forall (fun t => sample_ok n k (snd t)) l -> sample_ok n k x -> (0 <= gamma * lam < 1)%R ->
  let st := lrun kd gamma lam l (Q, trace_reset e) in
  let h := (x_s x, x_a x) :: rev (map (fun t => (x_s (snd t), x_a (snd t))) l) in
  let delta := (x_r x + gamma * qn - tget (fst st) (x_s x) (x_a x))%R in
  (forall s a, s < n -> a < k -> tget (fst (lambda_update kd gamma al lam qn st x)) s a =
     (tget (fst st) s a + al * delta * trace_spec kd (gamma * lam) 0 h (s, a))%R) /\
  (1 <= trace_spec kd (gamma * lam) 0 h (x_s x, x_a x))%R /\
  (kd = Replacing -> trace_spec kd (gamma * lam) 0 h (x_s x, x_a x) = 1%R).
Proof.
  intros n k kd gamma lam l Q e al qn x HQ He F HS Hc st h delta.
  destruct (traces_closed_form n k kd gamma lam l Q e HQ He F) as (A & B & C). fold st in A, B, C.
  destruct st as [Q1 e1]. cbn [fst snd] in *.
  destruct (lambda_run_inv n k kd gamma al lam qn Q1 e1 x _ A B HS C) as (_ & _ & _ & D).
  split; [exact D|]. unfold h. destruct kd; cbn [trace_spec rep_trace acc_trace];
    rewrite (proj2 (pair_eqb_spec _ _) eq_refl); simpl.
  - split; auto. lra.
  - split; [|discriminate].
    destruct (acc_trace_bound (gamma * lam) (rev (map (fun t => (x_s (snd t), x_a (snd t))) l)) 1 (x_s x, x_a x) Hc) as [P _]. lra.
Qed.

(** With lambda = 0, SARSA(lambda) is SARSA and Q(lambda) is Q-learning, for any
    sequence of samples, learning rates and draws and both kinds of trace. *)
Theorem lambda_zero_is_one_step : forall n k kd gamma (xs : list ((R * nat) * sample)) Q e, shaped n k Q -> shaped n k e ->
  Forall (fun t => sample_ok n k (snd t)) xs ->
  fst (fold_left (fun st t => sarsa_lambda_update kd gamma (fst (fst t)) 0 (snd (fst t)) st (snd t)) xs (Q, trace_reset e)) =
    fold_left (fun Q t => sarsa_update gamma (fst (fst t)) (snd (fst t)) Q (snd t)) xs Q /\
  fst (fold_left (fun st t => q_lambda_update kd gamma (fst (fst t)) 0 st (snd t)) xs (Q, trace_reset e)) =
    fold_left (fun Q t => ql_update gamma (fst (fst t)) Q (snd t)) xs Q.
Proof.
  intros n k kd gamma xs Q e HQ He F.
  assert (ONE : forall al qn Q e x, shaped n k Q -> shaped n k e -> (forall s a, s < n -> a < k -> tget e s a = 0%R) -> sample_ok n k x ->
    let st := lambda_update kd gamma al 0 qn (Q, e) x in
    fst st = tset Q (x_s x) (x_a x) (tget Q (x_s x) (x_a x) + al * (x_r x + gamma * qn - tget Q (x_s x) (x_a x)))%R /\
    shaped n k (snd st) /\ (forall s a, s < n -> a < k -> tget (snd st) s a = 0%R)).
  { clear. intros al qn Q e x HQ He Z HS st.
    destruct (lambda_run_inv n k kd gamma al 0 qn Q e x [] HQ He HS) as (A & B & C & D).
    { intros. rewrite Z by auto. destruct kd; reflexivity. }
    fold st in A, B, C, D. split; [|split; auto].
    - apply (table_ext n k); auto; [apply tset_shaped; auto|]. intros s a Hs Ha. rewrite D by auto.
      destruct HS as (X1 & X2 & X3).
      destruct (Nat.eq_dec s (x_s x)) as [->|N1]; [destruct (Nat.eq_dec a (x_a x)) as [->|N2]|].
      + rewrite (tget_tset_eq n k) by auto.
        destruct kd; cbn [trace_spec rep_trace acc_trace]; rewrite (proj2 (pair_eqb_spec _ _) eq_refl); simpl; ring.
      + rewrite tget_tset_neq by congruence.
        destruct kd; cbn [trace_spec rep_trace acc_trace]; destruct (pair_eqb _ _) eqn:P; try ring;
          apply pair_eqb_spec in P; congruence.
      + rewrite tget_tset_neq by congruence.
        destruct kd; cbn [trace_spec rep_trace acc_trace]; destruct (pair_eqb _ _) eqn:P; try ring;
          apply pair_eqb_spec in P; congruence.
    - intros s a Hs Ha. rewrite C by auto. rewrite Rmult_0_r. destruct kd; cbn [trace_spec rep_trace acc_trace];
        destruct (pair_eqb _ _); simpl; ring. }
  destruct (trace_reset_spec n k e He) as [SE ZE]. assert (Z : forall s a, s < n -> a < k -> tget (trace_reset e) s a = 0%R) by auto.
  remember (trace_reset e) as e0. clear Heqe0 ZE He e.
  split.
  - revert Q e0 HQ SE Z. induction xs as [|[[al a'] x] xs IH]; intros Q e0 HQ SE Z; auto.
    inversion F as [|? ? HS F']; subst. cbn [fold_left fst snd] in *. unfold sarsa_lambda_update at 2. cbn [fst].
    destruct (ONE al (if x_abs x then 0%R else tget Q (x_s' x) a') Q e0 x HQ SE Z HS) as (A & B & C).
    set (st := lambda_update kd gamma al 0 _ (Q, e0) x) in *. clearbody st. destruct st as [Q1 e1]. cbn [fst snd] in *. subst Q1.
    rewrite IH; auto. apply tset_shaped; auto.
  - revert Q e0 HQ SE Z. induction xs as [|[[al a'] x] xs IH]; intros Q e0 HQ SE Z; auto.
    inversion F as [|? ? HS F']; subst. cbn [fold_left fst snd] in *. unfold q_lambda_update at 2. cbn [fst].
    destruct (ONE al (if x_abs x then 0%R else qmax (row Q (x_s' x))) Q e0 x HQ SE Z HS) as (A & B & C).
    set (st := lambda_update kd gamma al 0 _ (Q, e0) x) in *. clearbody st. destruct st as [Q1 e1]. cbn [fst snd] in *. subst Q1.
    rewrite IH; auto. apply tset_shaped; auto.
Qed.

(** Q(lambda) never cuts its traces: after an exploratory (non-maximising) action the
    earlier pairs are still updated, contrary to Watkins' algorithm cited in the
    documentation, which resets the traces. *)
Theorem q_lambda_traces_cut_refuted : exists Q e x1 x2,
  let st1 := q_lambda_update Replacing (1/2) (1/2) 1 (Q, e) x1 in
  let st2 := q_lambda_update Replacing (1/2) (1/2) 1 st1 x2 in
  e = tconst 2 2 0 /\ x_s x2 = x_s' x1 /\ ~ maximal (row (fst st1) (x_s x2)) (x_a x2) /\
  tget (fst st2) (x_s x1) (x_a x1) <> tget (fst st1) (x_s x1) (x_a x1).
Proof.
  exists [[0; 0]; [1; 0]]%R, (tconst 2 2 0), {| x_s := 0; x_a := 0; x_r := 0; x_s' := 1; x_abs := false |},
    {| x_s := 1; x_a := 1; x_r := 4; x_s' := 0; x_abs := true |}.
  cbv zeta. split; auto. split; auto.
  unfold q_lambda_update, lambda_update, trace_update, tadd_scaled, tscale, tset, tget, row, tconst. simpl.
  assert (M : Rmax 1 0 = 1%R) by (unfold Rmax; destruct (Rle_dec 1 0); lra). rewrite M. split.
  - intros [_ H]. specialize (H 0). simpl in H. specialize (H ltac:(lia)). lra.
  - lra.
Qed.

(** SARSA is on-policy: the action bootstrapped from at an update is the one executed
    at the next step (draw_action), and after a reset the policy draws again. *)
Theorem sarsa_on_policy : forall gamma al d d' next Q x,
  exists a', sarsa_fit gamma al d next Q x = (sarsa_update gamma al a' Q x, Some a') /\
    agent_draw (snd (sarsa_fit gamma al d next Q x)) d' = (a', None) /\
    (next = None -> a' = d) /\ agent_draw None d' = (d', None).
Proof.
  intros. exists (fst (agent_draw next d)). unfold sarsa_fit. destruct next; simpl; repeat split; auto. discriminate.
Qed.

(** * C58: linear SARSA(lambda) *)

(** True online SARSA(lambda) computes exactly the online forward view: at every step
    its weights are those obtained by updating, from the initial weights, towards the
    lambda-returns truncated at the current time. *)
Theorem true_online_forward_view : forall d gamma lam (al r : nat -> R) (abs : nat -> bool) (phi phi' : nat -> list R) theta0,
  length theta0 = d -> (forall t, length (phi t) = d) ->
  let run := fix run t := match t with
    | 0 => {| o_theta := theta0; o_e := repeat 0%R d; o_qold := None |}
    | S t' => true_online_update gamma (al t') lam (r t') (abs t') (phi t') (phi' t') (run t')
    end in
  exists b, (forall t, b t = if abs t then 0%R else dot (forward gamma lam al r b phi theta0 t t) (phi' t)) /\
    forall t, o_theta (run t) = forward gamma lam al r b phi theta0 t t.
Proof.
  intros d gamma lam al r abs phi phi' theta0 L0 LP run.
  set (b := fun t => if abs t then 0%R else dot (o_theta (run t)) (phi' t)).
  assert (RS : forall t, run (S t) = true_online_update gamma (al t) lam (r t) (abs t) (phi t) (phi' t) (run t)) by reflexivity.
  assert (LR : forall t, length (o_theta (run t)) = d /\ length (o_e (run t)) = d).
  { induction t as [|t [I J]]; [simpl; rewrite repeat_length; auto|]. rewrite RS. unfold true_online_update. cbn [o_theta o_e].
    assert (X : forall c1 c2, length (vadd (vscale c1 (o_e (run t))) (vscale c2 (phi t))) = d).
    { intros. rewrite vadd_length; rewrite !vscale_length, ?LP; auto. }
    split; [|apply X]. rewrite vadd_length; rewrite vadd_length; rewrite ?vscale_length, ?X, ?LP; auto. }
  assert (QO : forall t, o_qold (run (S t)) = Some (b t)) by reflexivity.
  pose (F := fun h k => forward gamma lam al r b phi theta0 h k).
  assert (LF : forall h k, length (F h k) = d).
  { induction k as [|k IH]; [exact L0|]. unfold F in *. cbn [forward]. rewrite vadd_length; rewrite ?vscale_length, ?LP; auto. }
  set (c := (gamma * lam)%R).
  (* the trace before step k *)
  set (E := fun k => o_e (run k)).
  assert (ES : forall k, E (S k) = vadd (vscale c (E k)) (vscale (al k * (1 - c * dot (E k) (phi k))) (phi k))) by reflexivity.
  assert (LE : forall k, length (E k) = d) by (intros; apply LR).
  (* difference between horizons *)
  assert (DIFF : forall t k, k <= t -> forall i,
     nth i (F (S t) k) 0%R = (nth i (F t k) 0 + c ^ (S t - k) * (r t + gamma * b t - b (t - 1)%nat) * nth i (E k) 0)%R).
  { intros t. set (dl := (r t + gamma * b t - b (t - 1)%nat)%R). induction k as [|k IH]; intros Hk i.
    - unfold F, E. simpl. rewrite nth_repeat. ring.
    - unfold F. cbn [forward]. fold (F (S t) k) (F t k).
      rewrite !vadd_nth by (rewrite vscale_length, LP; apply LF). rewrite !vscale_nth. rewrite lreturn_succ by lia. fold c dl.
      rewrite ES. rewrite vadd_nth by (rewrite !vscale_length, LP; apply LE). rewrite !vscale_nth.
      specialize (IH ltac:(lia)). rewrite IH.
      assert (DD : dot (F (S t) k) (phi k) = (dot (F t k) (phi k) + c ^ (S t - k) * dl * dot (E k) (phi k))%R).
      { assert (V : F (S t) k = vadd (F t k) (vscale (c ^ (S t - k) * dl) (E k))).
        { apply vec_ext; [rewrite vadd_length; rewrite ?vscale_length, ?LF, ?LE; auto|].
          intros j _. rewrite vadd_nth by (rewrite vscale_length, LF, LE; auto). rewrite vscale_nth. apply IH. }
        rewrite V, dot_vadd_l, dot_vscale_l by (rewrite vscale_length, LF, LE; auto). reflexivity. }
      rewrite DD. replace (S t - k) with (S (t - k)) by lia. replace (S t - S k) with (t - k) by lia. cbn [pow]. ring. }
  assert (MAIN : forall t, o_theta (run t) = F t t).
  { induction t as [|t IH]; [reflexivity|].
    apply vec_ext; [rewrite (proj1 (LR (S t))), LF; auto|]. intros i _.
    unfold F. cbn [forward]. fold (F (S t) t). rewrite vadd_nth by (rewrite vscale_length, LP; apply LF).
    rewrite vscale_nth, lreturn_one.
    pose proof (DIFF t t (le_n t)) as D. replace (S t - t) with 1 in D by lia. rewrite pow_1 in D.
    set (dl := (r t + gamma * b t - b (t - 1)%nat)%R) in *.
    assert (DD : dot (F (S t) t) (phi t) = (dot (F t t) (phi t) + c * dl * dot (E t) (phi t))%R).
    { assert (V : F (S t) t = vadd (F t t) (vscale (c * dl) (E t))).
      { apply vec_ext; [rewrite vadd_length; rewrite ?vscale_length, ?LF, ?LE; auto|].
        intros j _. rewrite vadd_nth by (rewrite vscale_length, LF, LE; auto). rewrite vscale_nth. apply D. }
      rewrite V, dot_vadd_l, dot_vscale_l by (rewrite vscale_length, LF, LE; auto). reflexivity. }
    rewrite D, DD, <- IH. rewrite RS. unfold true_online_update. cbn [o_theta]. fold (E t) c.
    change (if abs t then 0%R else dot (o_theta (run t)) (phi' t)) with (b t).
    assert (X : forall c1 c2, length (vadd (vscale c1 (E t)) (vscale c2 (phi t))) = d).
    { intros. rewrite vadd_length; rewrite !vscale_length, ?LP; auto. }
    destruct (LR t) as [LT _].
    rewrite !vadd_nth by (rewrite ?vadd_length; rewrite ?vscale_length, ?X, ?LP, ?LE; auto). rewrite !vscale_nth.
    rewrite !vadd_nth by (rewrite !vscale_length, LP; apply LE). rewrite !vscale_nth.
    destruct t as [|t].
    - assert (Z : dot (E 0) (phi 0) = 0%R).
      { unfold E. simpl. generalize (phi 0) as w. clear. induction d as [|d IH]; intros [|y w]; simpl; auto. rewrite IH. ring. }
      assert (Z' : nth i (E 0) 0%R = 0%R) by (unfold E; simpl; apply nth_repeat).
      rewrite Z, Z'. simpl (o_qold (run 0)). cbv match. ring.
    - rewrite QO. unfold dl. replace (S t - 1) with t by lia. ring. }
  exists b. split; [|exact MAIN]. intros t. fold (F t t). rewrite <- MAIN. reflexivity.
Qed.

(** With lambda = 0, true online SARSA(lambda) and SARSA(lambda) with a linear
    regressor perform the same semi-gradient step, from any state of the traces. *)
Theorem linear_sarsa_zero : forall d gamma al r (abs : bool) phi phi' theta e qold,
  length theta = d -> length phi = d -> length e = d ->
  let step := vadd theta (vscale (al * (r + gamma * (if abs then 0 else dot theta phi') - dot theta phi)) phi) in
  o_theta (true_online_update gamma al 0 r abs phi phi' {| o_theta := theta; o_e := e; o_qold := qold |}) = step /\
  fst (sarsa_cont_update gamma al 0 r abs phi phi' (theta, e)) = step.
Proof.
  intros d gamma al r abs phi phi' theta e qold LT LP LE step. unfold step, true_online_update, sarsa_cont_update. cbn [o_theta o_e o_qold fst].
  set (qn := if abs then 0%R else dot theta phi'). 
  assert (X : forall c1 v, length v = d -> length (vadd (vscale c1 e) v) = d).
  { intros. rewrite vadd_length; rewrite ?vscale_length; congruence. }
  assert (LS : forall c, length (vscale c phi) = d) by (intros; rewrite vscale_length; auto).
  assert (Y : forall v, length v = d -> length (vadd theta v) = d) by (intros; rewrite vadd_length; congruence).
  split; apply vec_ext.
  - rewrite vadd_length; rewrite ?Y; rewrite ?vscale_length, ?X; auto; rewrite ?vscale_length; auto.
  - intros i _. rewrite !vadd_nth, !vscale_nth; rewrite ?Y; rewrite ?vscale_length, ?X; auto; rewrite ?vscale_length; auto; try congruence.
    rewrite !vadd_nth, !vscale_nth by (rewrite !vscale_length; congruence). rewrite Rmult_0_r. destruct qold; ring.
  - rewrite !Y; rewrite ?vscale_length, ?X; auto.
  - intros i _. rewrite !vadd_nth, !vscale_nth; rewrite ?vscale_length, ?X; try congruence.
    rewrite !vadd_nth, !vscale_nth by (rewrite !vscale_length; congruence). rewrite Rmult_0_r. ring.
Qed.

(** With one-hot features, SARSA(lambda) for linear regressors is the tabular
    algorithm with accumulating traces. *)
Theorem linear_sarsa_one_hot : forall n k gamma al lam a' Q e theta z x,
  shaped n k Q -> shaped n k e -> sample_ok n k x -> a' < k -> length theta = k * n -> length z = k * n ->
  let idx := fun s a => a * n + s in
  (forall s a, s < n -> a < k -> nth (idx s a) theta 0%R = tget Q s a) ->
  (forall s a, s < n -> a < k -> (gamma * lam * nth (idx s a) z 0)%R = tget e s a) ->
  let st := sarsa_lambda_update Accumulating gamma al lam a' (Q, e) x in
  let ct := sarsa_cont_update gamma al lam (x_r x) (x_abs x) (one_hot (k * n) (idx (x_s x) (x_a x)))
              (one_hot (k * n) (idx (x_s' x) a')) (theta, z) in
  (forall s a, s < n -> a < k -> nth (idx s a) (fst ct) 0%R = tget (fst st) s a) /\
  (forall s a, s < n -> a < k -> (gamma * lam * nth (idx s a) (snd ct) 0)%R = tget (snd st) s a).
Proof.
  intros n k gamma al lam a' Q e theta z x HQ He (X1 & X2 & X3) Ha' LT LZ idx HT HZ st ct.
  assert (IR : forall s a, s < n -> a < k -> idx s a < k * n) by (intros; unfold idx; nia).
  assert (II : forall s a s1 a1, s < n -> s1 < n -> idx s a = idx s1 a1 -> s = s1 /\ a = a1).
  { intros s a s1 a1 H H1 E. unfold idx in E.
    assert (a = a1) by nia. subst. lia. }
  assert (OH : forall j i, j < k * n -> nth j (one_hot (k * n) i) 0%R = if Nat.eqb j i then 1%R else 0%R).
  { intros j i Hj. unfold one_hot. rewrite (nth_indep _ 0%R ((fun j => if Nat.eqb j i then 1%R else 0%R) 0)) by (rewrite map_length, seq_length; auto).
    rewrite (map_nth (fun j => if Nat.eqb j i then 1%R else 0%R)), seq_nth by auto. reflexivity. }
  assert (LO : forall i, length (one_hot (k * n) i) = k * n) by (intros; unfold one_hot; rewrite map_length, seq_length; auto).
  assert (DOT : forall w i, length w = k * n -> i < k * n -> dot w (one_hot (k * n) i) = nth i w 0%R).
  { intros w i Hw Hi. rewrite dot_nth by (rewrite LO; auto). rewrite Hw.
    rewrite (rsum_single _ i) by (auto; intros j Hj Nj; rewrite OH by auto; rewrite (proj2 (Nat.eqb_neq j i)) by auto; ring).
    rewrite OH, Nat.eqb_refl by auto. ring. }
  assert (EE : forall s a, s < n -> a < k ->
     nth (idx s a) (vadd (vscale (gamma * lam) z) (one_hot (k * n) (idx (x_s x) (x_a x)))) 0%R =
     tget (trace_update Accumulating e (x_s x) (x_a x)) s a).
  { intros s a Hs Ha. rewrite vadd_nth, vscale_nth, HZ, OH by (rewrite ?vscale_length, ?LO; auto). simpl.
    destruct (Nat.eqb (idx s a) (idx (x_s x) (x_a x))) eqn:B.
    - apply Nat.eqb_eq, II in B; auto. destruct B as [-> ->]. rewrite (tget_tset_eq n k) by auto. reflexivity.
    - rewrite tget_tset_neq; [ring|]. intros [= -> ->]. rewrite Nat.eqb_refl in B. discriminate. }
  pose proof (trace_update_shaped n k Accumulating e (x_s x) (x_a x) He) as H1.
  unfold st, ct, sarsa_lambda_update, lambda_update, sarsa_cont_update. cbn [fst snd].
  rewrite !DOT, !HT by auto. split.
  - intros s a Hs Ha.
    destruct (tadd_scaled_spec n k Q (al * (x_r x + gamma * (if x_abs x then 0 else tget Q (x_s' x) a') - tget Q (x_s x) (x_a x))) _ HQ H1) as [_ G].
    rewrite G by auto. rewrite vadd_nth, vscale_nth, EE, HT by (rewrite ?vscale_length, ?vadd_length; rewrite ?vscale_length, ?LO; auto; congruence).
    reflexivity.
  - intros s a Hs Ha. destruct (tscale_spec n k _ (gamma * lam) H1) as [_ G]. rewrite G, EE by auto. ring.
Qed.

(** * Concrete cases *)

Example ql_demo : tget (ql_update (9/10) (1/2) [[1; 2]; [4; 10]]%R {| x_s := 0; x_a := 1; x_r := 3; x_s' := 1; x_abs := false |}) 0 1 = 7%R.
Proof.
  unfold ql_update, tget, tset, row, qmax; simpl. replace (Rmax 4 10) with 10%R by (unfold Rmax; destruct (Rle_dec 4 10); lra). lra.
Qed.

Example trace_demo : acc_trace (1/2) 0 [(0, 1); (1, 0); (0, 1)] (0, 1) = (5/4)%R /\
                     rep_trace (1/2) 0 [(1, 0); (0, 1); (0, 1)] (0, 1) = (1/2)%R.
Proof. simpl. lra. Qed.

Example lreturn_demo : lreturn 1 (1/2) (fun t => INR t) (fun _ => 10%R) 3 0 = ((1/2) * 10 + (1/4) * 11 + (1/4) * 13)%R.
Proof. unfold lreturn, nstep. simpl. lra. Qed.

Print Assumptions q_learning_update.
Print Assumptions sarsa_update_spec.
Print Assumptions expected_sarsa_update_spec.
Print Assumptions double_q_update.
Print Assumptions maxmin_q_update.
Print Assumptions speedy_q_update.
Print Assumptions r_learning_update.
Print Assumptions td_absorbing_no_bootstrap.
Print Assumptions td_values_bounded.
Print Assumptions double_q_values_bounded.
Print Assumptions maxmin_q_values_bounded.
Print Assumptions rq_values_bounded.
Print Assumptions rq_is_q_learning.
Print Assumptions rq_absorbing_refuted.
Print Assumptions weighted_q_next.
Print Assumptions weighted_q_variance.
Print Assumptions weighted_q_moments.
Print Assumptions traces_closed_form.
Print Assumptions traces_bounded.
Print Assumptions lambda_update_effect.
Print Assumptions lambda_zero_is_one_step.
Print Assumptions q_lambda_traces_cut_refuted.
Print Assumptions sarsa_on_policy.
Print Assumptions true_online_forward_view.
Print Assumptions linear_sarsa_zero.
Print Assumptions linear_sarsa_one_hot.

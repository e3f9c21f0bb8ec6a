(** Theorems C37. *)
From Coq Require Import List Arith Lia Reals Bool Lra Psatz.
From Verif Require Import Common DpModel DpSpec DpProofs UtilProofs.
Import ListNotations.

(** The optimal value of a finite discounted problem exists and is unique. *)
Theorem optimal_value_well_defined : forall n m p r gamma, 0 < m -> (0 <= gamma < 1)%R -> transitions n m p ->
  (exists V, optimal_value n m p r gamma V) /\
  (forall V W, optimal_value n m p r gamma V -> optimal_value n m p r gamma W -> forall s, s < n -> V s = W s).
Proof.
  intros n m p r gamma Hm Hg Hp. split.
  - exists (vstar n m p r gamma Hm Hg Hp). apply vstar_optimal.
  - apply optimal_unique; auto.
Qed.

Theorem value_iteration_terminates : forall n m p r gamma eps, 0 < m -> (0 <= gamma < 1)%R -> transitions n m p -> (0 < eps)%R ->
  exists fuel v, value_iteration n m p r gamma eps fuel = Some v.
Proof. intros n m p r gamma eps Hm Hg Hp He. exact (vi_terminates n m p r gamma Hm Hg Hp eps He). Qed.

(** The result is within gamma * eps / (1 - gamma) of the optimal value. *)
Theorem value_iteration_accuracy : forall n m p r gamma eps fuel v V, 0 < m -> (0 <= gamma < 1)%R -> transitions n m p -> (0 <= eps)%R ->
  value_iteration n m p r gamma eps fuel = Some v -> optimal_value n m p r gamma V ->
  length v = n /\ forall s, s < n -> (Rabs (nth s v 0 - V s) <= gamma * eps / (1 - gamma))%R.
Proof.
  intros n m p r gamma eps fuel v V Hm Hg Hp He E HV.
  destruct (vi_accuracy n m p r gamma Hm Hg Hp eps fuel v He E) as [L A]. split; auto. intros s Hs.
  rewrite (optimal_vstar n m p r gamma Hm Hg Hp V HV s Hs). apply A; auto.
Qed.

(** Exact solvers exist, so the hypothesis on np.linalg.solve can be met. *)
Lemma lin_contr : forall n A b c, (0 <= c)%R ->
  (forall s, s < n -> (rsum (map (fun j => Rabs ((if Nat.eqb s j then 1 else 0) - A s j)) (seq 0 n)) <= c)%R) ->
  let F := fun (x : nat -> R) s => (b s + rsum (map (fun j => ((if Nat.eqb s j then 1 else 0) - A s j) * x j) (seq 0 n)))%R in
  forall V W D, (0 <= D)%R -> (forall j, j < n -> (Rabs (V j - W j) <= D)%R) -> forall s, s < n -> (Rabs (F V s - F W s) <= c * D)%R.
Proof.
  intros n A b c Hc H F V W D HD HVW s Hs. unfold F.
  replace (b s + _ - _)%R with (rsum (map (fun j => ((if Nat.eqb s j then 1 else 0) - A s j) * (V j - W j)) (seq 0 n)))%R.
  - eapply Rle_trans; [apply (rsum_abs_le _ _ (fun j => D * Rabs ((if Nat.eqb s j then 1 else 0) - A s j))%R)|].
    + intros j Hj. apply in_seq in Hj. rewrite Rabs_mult, Rmult_comm. apply Rmult_le_compat_r; [apply Rabs_pos|apply HVW; lia].
    + rewrite rsum_map_scal. specialize (H s Hs). rewrite Rmult_comm. apply Rmult_le_compat_r; auto.
  - generalize (seq 0 n). induction l; simpl; [ring|]. rewrite IHl. ring.
Qed.

Theorem exact_solver_exists : forall n, exists solve, exact_solver n solve.
Proof.
  intros n.
  set (row := fun (A : nat -> nat -> R) s => rsum (map (fun j => Rabs ((if Nat.eqb s j then 1 else 0) - A s j)) (seq 0 n))).
  set (K := fun A => sup n (row A)).
  assert (HK : forall A, (0 <= K A)%R) by (intros; apply sup_nonneg).
  assert (RN : forall A s, (0 <= row A s)%R).
  { intros. apply rsum_nonneg. intros x Hx. apply in_map_iff in Hx. destruct Hx as (j & <- & _). apply Rabs_pos. }
  assert (HR : forall A s, s < n -> (row A s <= K A)%R).
  { intros A s Hs. rewrite <- (Rabs_pos_eq (row A s)) by auto. apply sup_ge; auto. }
  exists (fun A b => match Rlt_dec (K A) 1 with
     | left H => map (fix_of n _ (K A) (conj (HK A) H) (lin_contr n A b (K A) (HK A) (HR A)) (fun _ => 0%R)) (seq 0 n)
     | right _ => [] end).
  intros A b c Hc HS. assert (KC : (K A <= c)%R).
  { apply sup_lub; [lra|]. intros s Hs. rewrite Rabs_pos_eq by auto. apply HS; auto. }
  destruct (Rlt_dec (K A) 1) as [H|H]; [|exfalso; lra]. split; [rewrite map_length, seq_length; auto|]. intros s Hs.
  set (x := fix_of n _ (K A) (conj (HK A) H) (lin_contr n A b (K A) (HK A) (HR A)) (fun _ => 0%R)).
  pose proof (fix_fixed n _ (K A) (conj (HK A) H) (lin_contr n A b (K A) (HK A) (HR A)) (fun _ => 0%R) s Hs) as FX. fold x in FX. cbv beta in FX.
  rewrite (rsum_map_ext _ _ (fun j => A s j * x j)%R).
  - assert (X : (rsum (map (fun j => ((if Nat.eqb s j then 1 else 0) - A s j) * x j) (seq 0 n)) = x s - rsum (map (fun j => A s j * x j) (seq 0 n)))%R).
    { pose proof (seq_select 1 Nat.lt_0_1 n x s) as SS. destruct (Nat.ltb_spec s n); [|lia]. rewrite <- SS. clear. generalize (seq 0 n). induction l; simpl; [ring|]. rewrite IHl. ring. }
    lra.
  - intros j Hj. apply in_seq in Hj. rewrite (map_nth_in _ _ _ _ _ 0%R 0) by (rewrite seq_length; lia). rewrite seq_nth by lia. reflexivity.
Qed.

Theorem policy_iteration_terminates : forall n m p r gamma solve, 0 < m -> (0 <= gamma < 1)%R -> transitions n m p -> exact_solver n solve ->
  exists fuel v pol, policy_iteration n m p r gamma solve fuel = Some (v, pol).
Proof. intros n m p r gamma solve Hm Hg Hp HS. exact (pi_terminates n m p r gamma Hm Hg Hp solve HS). Qed.

(** The returned value is the value of the returned policy; it is optimal up to the
    tolerance of np.isclose. *)
Theorem policy_iteration_near_optimal_partial : forall n m p r gamma solve fuel v pol V M, 0 < m -> (0 <= gamma < 1)%R -> transitions n m p -> exact_solver n solve ->
  policy_iteration n m p r gamma solve fuel = Some (v, pol) -> optimal_value n m p r gamma V ->
  (forall s, s < n -> (Rabs (nth s v 0) <= M)%R) ->
  length pol = n /\ (forall s, s < n -> nth s pol 0 < m) /\ policy_value n p r gamma (fun s => nth s pol 0) (fun s => nth s v 0%R) /\
  forall s, s < n -> (nth s v 0 <= V s <= nth s v 0 + (/ 10 ^ 8 + / 10 ^ 5 * M) / (1 - gamma))%R.
Proof.
  intros n m p r gamma solve fuel v pol V M Hm Hg Hp HS E HV HM.
  destruct (pi_result n m p r gamma Hm Hg Hp solve HS fuel v pol E) as ([L VP] & _ & _).
  destruct (pi_near n m p r gamma Hm Hg Hp solve HS fuel v pol M E HM) as [A B]. split; auto. split; auto. split; [exact A|].
  intros s Hs. rewrite (optimal_vstar n m p r gamma Hm Hg Hp V HV s Hs).
  replace (10 ^ 8)%R with 100000000%R by ring. replace (10 ^ 5)%R with 100000%R by ring. apply B; auto.
Qed.

(** The result is exactly optimal when no single-action improvement of a deterministic
    policy is as small as the tolerance. *)
Theorem policy_iteration_optimal_without_ties : forall n m p r gamma solve fuel v pol V, 0 < m -> (0 <= gamma < 1)%R -> transitions n m p -> exact_solver n solve ->
  (forall q W s a, (forall s, s < n -> q s < m) -> policy_value n p r gamma q W -> s < n -> a < m ->
     let Q := rsum (map (fun j => p s a j * (r s a j + gamma * W j))%R (seq 0 n)) in
     (W s < Q)%R -> (Q - W s > / 10 ^ 8 + / 10 ^ 5 * Rabs (W s))%R) ->
  policy_iteration n m p r gamma solve fuel = Some (v, pol) -> optimal_value n m p r gamma V ->
  forall s, s < n -> nth s v 0%R = V s.
Proof.
  intros n m p r gamma solve fuel v pol V Hm Hg Hp HS NT E HV s Hs.
  destruct (pi_result n m p r gamma Hm Hg Hp solve HS fuel v pol E) as ([L VP] & EV & RES).
  destruct (pi_near n m p r gamma Hm Hg Hp solve HS fuel v pol (sup n (vf v)) E (fun s Hs => sup_ge n (vf v) s Hs)) as [PV GE].
  rewrite (optimal_vstar n m p r gamma Hm Hg Hp V HV s Hs). apply Rle_antisym; [apply GE; auto|].
  assert (X : forall s, s < n -> (Rabs (bell n m p r gamma (vf v) s - vf v s) <= 0)%R).
  { intros s0 H0.
    assert (UP : (bell n m p r gamma (vf v) s0 <= vf v s0)%R).
    { unfold bell. set (a := greedy n m p r gamma (vf v) s0). assert (Ha : a < m) by (apply greedy_lt; auto).
      destruct (Rle_dec (qv n p r gamma (vf v) s0 a) (vf v s0)) as [|C]; auto. exfalso.
      pose proof (NT (pf pol) (vf v) s0 a VP PV H0 Ha ltac:(apply Rnot_le_lt; exact C)) as Y.
      replace (10 ^ 8)%R with 100000000%R in Y by ring. replace (10 ^ 5)%R with 100000%R in Y by ring. fold (qv n p r gamma (vf v) s0 a) in Y.
      destruct (RES s0 a H0 Ha) as [I|I]; [contradiction|]. apply isclose_bound in I. pose proof (Rle_abs (qv n p r gamma (vf v) s0 a - vf v s0)). lra. }
    assert (LO : (vf v s0 <= bell n m p r gamma (vf v) s0)%R).
    { destruct (pv_fixed n m p r gamma Hm Hg Hp solve HS pol (conj L VP)) as [_ FX]. rewrite <- EV in FX. rewrite <- (FX s0 H0) at 1. apply bell_ge; auto. apply VP; auto. }
    rewrite Rminus_diag_eq, Rabs_R0; lra. }
  pose proof (residual_bound n _ gamma Hg (bell_contr n m p r gamma Hm Hg Hp) (vf v) (vstar n m p r gamma Hm Hg Hp) 0%R (Rle_refl _) (vstar_fixed n m p r gamma Hm Hg Hp) X s Hs) as B.
  unfold Rdiv in B. rewrite Rmult_0_l in B. revert B. unfold vf. unfold Rabs. destruct (Rcase_abs _); lra.
Qed.

(** In general it is not: one state, two actions with rewards 1 and 1.000001. *)
Theorem policy_iteration_exact_refuted : forall gamma, (0 <= gamma < 1)%R ->
  let p := fun _ _ j : nat => (if Nat.eqb j 0 then 1 else 0)%R in
  let r := fun _ a _ : nat => (if Nat.eqb a 0 then 1 else 1 + / 10 ^ 6)%R in
  transitions 1 2 p /\
  forall solve V, exact_solver 1 solve -> optimal_value 1 2 p r gamma V ->
  exists v, policy_iteration 1 2 p r gamma solve 1 = Some (v, [0]) /\ (nth 0 v 0 < V 0%nat)%R.
Proof.
  intros gamma Hg p r.
  assert (TR : transitions 1 2 p).
  { intros s a Hs Ha. split; [intros j Hj; unfold p; destruct (Nat.eqb j 0); lra|]. simpl. unfold p. simpl. lra. }
  split; auto. intros solve V HS HV.
  assert (Hm : 0 < 2) by lia.
  set (v := solve (pi_matrix p gamma [0]) (pi_reward 1 p r [0])).
  destruct (pv_fixed 1 2 p r gamma Hm Hg TR solve HS [0]) as [L FX].
  { split; auto. intros s Hs. assert (s = 0) by lia. subst s. simpl. lia. }
  change (pv 1 p r gamma solve [0]) with v in L, FX.
  assert (EV : ((1 - gamma) * nth 0 v 0 = 1)%R).
  { specialize (FX 0 ltac:(lia)). unfold pol_op, qv, pf, vf, p, r in FX. simpl in FX. lra. }
  assert (V1 : (1 <= nth 0 v 0)%R) by nra.
  exists v. split.
  - unfold policy_iteration. cbn [pi_loop repeat]. fold v. unfold improve. cbn [seq fold_left]. unfold improve_state. cbn [seq fold_left fst snd nth].
    unfold improve_action. cbn [Nat.eqb].
    assert (B : (backup 1 p r gamma v 0 1 = nth 0 v 0 + / 10 ^ 6)%R).
    { unfold backup, p, r. cbn [seq map rsum Nat.eqb]. lra. }
    rewrite B. change (nth 0 [0] 0) with 0. cbn [Nat.eqb].
    destruct (Rlt_dec _ _) as [_|C]; [|exfalso; apply C; assert (0 < / 10 ^ 6)%R by (apply Rinv_0_lt_compat; lra); lra].
    assert (I : isclose (nth 0 v 0 + / 10 ^ 6)%R (nth 0 v 0%R) = true).
    { unfold isclose. destruct (Rle_dec _ _) as [|C]; auto. exfalso. apply C. replace (nth 0 v 0 + / 10 ^ 6 - nth 0 v 0)%R with (/ 10 ^ 6)%R by ring.
      rewrite (Rabs_pos_eq (nth 0 v 0%R)) by lra. rewrite Rabs_pos_eq by (apply Rlt_le, Rinv_0_lt_compat; lra).
      replace (/ 10 ^ 6)%R with (/ 1000000)%R by (f_equal; ring). lra. }
    rewrite I. reflexivity.
  - destruct HV as [OP _].
    (* the policy that always takes the second action *)
    assert (PV : policy_value 1 p r gamma (fun _ => 1) (fun _ => (1 + / 10 ^ 6) / (1 - gamma))%R).
    { apply (policy_value_of_fixed 1 2 p r gamma Hm Hg TR); [intros; lia|]. intros s Hs. unfold pol_op, qv, p, r. simpl. field. lra. }
    assert (G : ((1 + / 10 ^ 6) / (1 - gamma) <= V 0%nat)%R).
    { apply le_epsilon. intros e He. destruct (PV 0 ltac:(lia) (e / 2)%R ltac:(lra)) as (N1 & H1).
      destruct (OP (fun _ _ => 1) 0 ltac:(intros; cbv beta; lia) ltac:(lia) (e / 2)%R ltac:(lra)) as (N2 & H2).
      specialize (H1 (N1 + N2) ltac:(lia)). specialize (H2 (N1 + N2) ltac:(lia)). revert H1. unfold Rabs. destruct (Rcase_abs _); lra. }
    eapply Rlt_le_trans; [|exact G]. assert (0 < / 10 ^ 6)%R by (apply Rinv_0_lt_compat; lra).
    replace (nth 0 v 0)%R with (1 / (1 - gamma))%R by (apply Rmult_eq_reg_l with (1 - gamma)%R; [rewrite EV; field; lra|lra]).
    unfold Rdiv. apply Rmult_lt_compat_r; [apply Rinv_0_lt_compat; lra|lra].
Qed.

(** * Concrete case: two states, the second absorbing; value 1 in the first *)
Example vi_demo :
  let p := fun s _ j : nat => (if Nat.eqb s 0 then if Nat.eqb j 1 then 1 else 0 else 0)%R in
  let r := fun s _ _ : nat => (if Nat.eqb s 0 then 1 else 0)%R in
  transitions 2 1 p /\ value_iteration 2 1 p r (1 / 2) 0 2 = Some [1; 0]%R.
Proof.
  intros p r. split.
  - intros s a Hs Ha. split; [intros j Hj; unfold p; destruct (Nat.eqb s 0), (Nat.eqb j 1); lra|].
    simpl. unfold p. destruct (Nat.eqb s 0); simpl; lra.
  - unfold value_iteration.
    assert (S : forall x y, vi_sweep 2 1 p r (1 / 2) [x; y] = [1 + / 2 * y; 0]%R).
    { intros x y. unfold vi_sweep, best, backup, p, r. simpl. f_equal; [field|f_equal; field]. }
    cbn [vi_loop repeat]. rewrite !S.
    assert (E1 : (1 + / 2 * 0 = 1)%R) by field. rewrite E1.
    destruct (Rle_dec _ _) as [A|_]; [reflexivity|].
    destruct (Rle_dec _ _) as [_|C]; [reflexivity|]. exfalso. apply C. unfold norm_diff. simpl.
    replace (_ + _)%R with 0%R by ring. rewrite sqrt_0. lra.
Qed.

Print Assumptions optimal_value_well_defined.
Print Assumptions value_iteration_terminates.
Print Assumptions value_iteration_accuracy.
Print Assumptions exact_solver_exists.
Print Assumptions policy_iteration_terminates.
Print Assumptions policy_iteration_near_optimal_partial.
Print Assumptions policy_iteration_optimal_without_ties.
Print Assumptions policy_iteration_exact_refuted.

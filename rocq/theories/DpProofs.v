From Coq Require Import List Arith Lia Reals Bool Lra Psatz.
From Verif Require Import Common DpModel DpSpec UtilProofs.
Import ListNotations.

(** * Suprema and contractions *)
Fixpoint sup (n : nat) (f : nat -> R) : R := match n with 0 => 0%R | S k => Rmax (sup k f) (Rabs (f k)) end.

Lemma sup_nonneg : forall n f, (0 <= sup n f)%R.
Proof. induction n; intros; simpl; [lra|]. eapply Rle_trans; [apply IHn|apply Rmax_l]. Qed.
Lemma sup_ge : forall n f s, s < n -> (Rabs (f s) <= sup n f)%R.
Proof.
  induction n; intros f s H; [lia|]. simpl. destruct (Nat.eq_dec s n) as [->|N]; [apply Rmax_r|].
  eapply Rle_trans; [apply IHn; lia|apply Rmax_l].
Qed.
Lemma sup_lub : forall n f b, (0 <= b)%R -> (forall s, s < n -> (Rabs (f s) <= b)%R) -> (sup n f <= b)%R.
Proof. induction n; intros f b Hb H; simpl; auto. apply Rmax_lub; [apply IHn; auto|apply H; auto]. Qed.
Lemma sup_attained : forall n f, n <> 0 -> exists s, s < n /\ sup n f = Rabs (f s).
Proof.
  induction n; intros f H; [congruence|]. simpl. destruct n as [|n].
  - exists 0. split; auto. simpl. apply Rmax_right. apply Rabs_pos.
  - destruct (IHn f ltac:(discriminate)) as (s & Hs & E). unfold Rmax. destruct (Rle_dec _ _); [exists (S n); auto|exists s; split; auto].
Qed.

Section Contraction.
Variables (n : nat) (F : (nat -> R) -> nat -> R) (c : R).
Hypothesis c_ok : (0 <= c < 1)%R.
Hypothesis F_contr : forall V W D, (0 <= D)%R -> (forall j, j < n -> (Rabs (V j - W j) <= D)%R) ->
  forall s, s < n -> (Rabs (F V s - F W s) <= c * D)%R.

Lemma F_ext : forall V W, (forall j, j < n -> V j = W j) -> forall s, s < n -> F V s = F W s.
Proof.
  intros V W H s Hs. assert (A := F_contr V W 0%R (Rle_refl 0) ltac:(intros j Hj; rewrite H by auto; rewrite Rminus_diag_eq, Rabs_R0; [lra|auto]) s Hs).
  rewrite Rmult_0_r in A. pose proof (Rabs_pos (F V s - F W s)). assert (Rabs (F V s - F W s) = 0)%R by lra.
  destruct (Req_dec (F V s - F W s) 0); [lra|]. apply Rabs_no_R0 in H2. contradiction.
Qed.

Fixpoint it (V : nat -> R) (k : nat) : nat -> R := match k with 0 => V | S k' => F (it V k') end.

Lemma it_gap : forall V W D k, (0 <= D)%R -> (forall j, j < n -> (Rabs (V j - W j) <= D)%R) ->
  forall s, s < n -> (Rabs (it V k s - it W k s) <= c ^ k * D)%R.
Proof.
  intros V W D k HD H. induction k; intros s Hs; simpl.
  - rewrite Rmult_1_l. apply H; auto.
  - rewrite Rmult_assoc. apply F_contr; auto. apply Rmult_le_pos; auto. apply pow_le. lra.
Qed.

Definition gap0 (V : nat -> R) : R := sup n (fun s => F V s - V s)%R.

Lemma it_step : forall V k s, s < n -> (Rabs (it V (S k) s - it V k s) <= c ^ k * gap0 V)%R.
Proof.
  intros V k. assert (E : forall k, it V (S k) = it (F V) k) by (induction k0; simpl in *; auto; rewrite IHk0; auto).
  intros s Hs. rewrite E. apply it_gap; auto; [apply sup_nonneg|]. intros j Hj. apply (sup_ge n (fun s => F V s - V s)%R). auto.
Qed.

Lemma it_far : forall V k d s, s < n -> (Rabs (it V (k + d) s - it V k s) <= c ^ k * gap0 V / (1 - c))%R.
Proof.
  intros V k d s Hs.
  assert (A : (Rabs (it V (k + d) s - it V k s) <= c ^ k * gap0 V / (1 - c) * (1 - c ^ d))%R).
  { induction d as [|d IH].
    - rewrite Nat.add_0_r, Rminus_diag_eq, Rabs_R0 by auto. simpl. unfold Rminus. rewrite Rplus_opp_r. lra.
    - replace (it V (k + S d) s - it V k s)%R with ((it V (S (k + d)) s - it V (k + d) s) + (it V (k + d) s - it V k s))%R by (rewrite Nat.add_succ_r; ring).
      eapply Rle_trans; [apply Rabs_triang|]. pose proof (it_step V (k + d) s Hs). rewrite pow_add in H.
      assert (X : (c ^ k * gap0 V / (1 - c) * (1 - c ^ S d) = c ^ k * gap0 V / (1 - c) * (1 - c ^ d) + c ^ k * c ^ d * gap0 V)%R) by (simpl; field; lra).
      lra. }
  eapply Rle_trans; [exact A|]. rewrite <- (Rmult_1_r (c ^ k * gap0 V / (1 - c))) at 2. apply Rmult_le_compat_l.
  - apply Rmult_le_pos; [apply Rmult_le_pos; [apply pow_le; lra|apply sup_nonneg]|]. apply Rlt_le, Rinv_0_lt_compat. lra.
  - pose proof (pow_le c d). lra.
Qed.

Lemma small : forall K d, (0 <= K)%R -> (0 < d)%R -> exists N, forall k, N <= k -> (c ^ k * K <= d)%R.
Proof.
  intros K d HK Hd. destruct (pow_lt_1_zero c ltac:(rewrite Rabs_pos_eq; lra) (d / (K + 1))%R) as (N & HN).
  { apply Rdiv_lt_0_compat; lra. }
  exists N. intros k Hk. specialize (HN k ltac:(lia)). rewrite Rabs_pos_eq in HN by (apply pow_le; lra).
  apply Rle_trans with (d / (K + 1) * K)%R; [apply Rmult_le_compat_r; lra|].
  unfold Rdiv. rewrite Rmult_assoc. rewrite <- (Rmult_1_r d) at 2. apply Rmult_le_compat_l; [lra|].
  assert (/ (K + 1) * (K + 1) = 1)%R by (field; lra). assert (0 < / (K + 1))%R by (apply Rinv_0_lt_compat; lra). nra.
Qed.

Lemma it_cauchy : forall V s, s < n -> Cauchy_crit (fun k => it V k s).
Proof.
  intros V s Hs e He. destruct (small (2 * (gap0 V / (1 - c))) (e / 2)) as (N & HN).
  { pose proof (sup_nonneg n (fun s => F V s - V s)%R). fold (gap0 V) in H. assert (0 <= gap0 V / (1 - c))%R; [|lra].
    apply Rmult_le_pos; auto. apply Rlt_le, Rinv_0_lt_compat. lra. }
  { lra. }
  exists N. intros k l Hk Hl. unfold R_dist. specialize (HN N ltac:(lia)).
  pose proof (it_far V N (k - N) s Hs) as A. pose proof (it_far V N (l - N) s Hs) as B.
  replace (N + (k - N)) with k in A by lia. replace (N + (l - N)) with l in B by lia.
  replace (it V k s - it V l s)%R with ((it V k s - it V N s) + - (it V l s - it V N s))%R by ring.
  eapply Rle_lt_trans; [apply Rabs_triang|]. rewrite Rabs_Ropp. unfold Rdiv in *. lra.
Qed.

Definition fix_of (V : nat -> R) (s : nat) : R :=
  match lt_dec s n with left H => proj1_sig (R_complete _ (it_cauchy V s H)) | right _ => 0%R end.

Lemma fix_lim : forall V s, s < n -> Un_cv (fun k => it V k s) (fix_of V s).
Proof.
  intros V s Hs. unfold fix_of. destruct (lt_dec s n) as [H|H]; [|contradiction]. exact (proj2_sig (R_complete _ (it_cauchy V s H))).
Qed.

Lemma fix_near : forall V k s, s < n -> (Rabs (it V k s - fix_of V s) <= c ^ k * (gap0 V / (1 - c)))%R.
Proof.
  intros V k s Hs. apply le_epsilon. intros e He. destruct (fix_lim V s Hs e He) as (N & HN). unfold R_dist in HN.
  specialize (HN (k + N)%nat ltac:(lia)). pose proof (it_far V k N s Hs) as A.
  replace (it V k s - fix_of V s)%R with (- (it V (k + N) s - it V k s) + (it V (k + N) s - fix_of V s))%R by ring.
  eapply Rle_trans; [apply Rabs_triang|]. rewrite Rabs_Ropp. unfold Rdiv in *. lra.
Qed.

Lemma fix_fixed : forall V s, s < n -> F (fix_of V) s = fix_of V s.
Proof.
  intros V s Hs. assert (A : forall e, (0 < e)%R -> (Rabs (F (fix_of V) s - fix_of V s) <= 0 + e)%R).
  { intros e He. assert (P : (0 <= gap0 V / (1 - c))%R).
    { apply Rmult_le_pos; [apply sup_nonneg|]. apply Rlt_le, Rinv_0_lt_compat. lra. }
    destruct (small (2 * (gap0 V / (1 - c))) e) as (N & HN); [lra|lra|]. specialize (HN N ltac:(lia)).
    replace (F (fix_of V) s - fix_of V s)%R with (- (F (it V N) s - F (fix_of V) s) + (it V (S N) s - fix_of V s))%R by (simpl; ring).
    eapply Rle_trans; [apply Rabs_triang|]. rewrite Rabs_Ropp.
    assert (PN : (0 <= c ^ N * (gap0 V / (1 - c)))%R) by (apply Rmult_le_pos; auto; apply pow_le; lra).
    pose proof (F_contr (it V N) (fix_of V) _ PN (fun j Hj => fix_near V N j Hj) s Hs) as B.
    pose proof (fix_near V (S N) s Hs) as C. cbn [pow] in C. rewrite Rmult_assoc in C. cbn [it] in *.
    replace (c ^ N * (2 * (gap0 V / (1 - c))))%R with (2 * (c ^ N * (gap0 V / (1 - c))))%R in HN by ring.
    set (X := (c ^ N * (gap0 V / (1 - c)))%R) in *. assert (c * X <= X)%R by nra. lra. }
  assert (Rabs (F (fix_of V) s - fix_of V s) <= 0)%R by (apply le_epsilon; auto).
  destruct (Req_dec (F (fix_of V) s - fix_of V s) 0); [lra|]. apply Rabs_pos_lt in H0. lra.
Qed.

Lemma residual_bound : forall V L e, (0 <= e)%R -> (forall s, s < n -> F L s = L s) -> (forall s, s < n -> (Rabs (F V s - V s) <= e)%R) ->
  forall s, s < n -> (Rabs (V s - L s) <= e / (1 - c))%R.
Proof.
  intros V L e He HL HV. set (D := sup n (fun s => V s - L s)%R).
  assert (P : (0 <= D)%R) by apply sup_nonneg.
  assert (B : forall j, j < n -> (Rabs (V j - L j) <= D)%R) by (intros; apply (sup_ge n (fun s => V s - L s)%R); auto).
  assert (X : (D <= e + c * D)%R).
  { apply sup_lub; [nra|]. intros s Hs. replace (V s - L s)%R with (- (F V s - V s) + (F V s - F L s))%R by (rewrite (HL s Hs); ring).
    eapply Rle_trans; [apply Rabs_triang|]. rewrite Rabs_Ropp. pose proof (HV s Hs). pose proof (F_contr V L D P B s Hs). lra. }
  intros s Hs. eapply Rle_trans; [apply B; auto|]. apply Rmult_le_reg_r with (1 - c)%R; [lra|]. unfold Rdiv. rewrite Rmult_assoc, Rinv_l by lra. lra.
Qed.
End Contraction.

(** * Bellman operators *)
Lemma fold_max_spec : forall (f : nat -> R) l x0,
  exists x, fold_left (fun vm a => Some (match vm with None => f a | Some x => Rmax (f a) x end)) l (Some x0) = Some x /\
    (x0 <= x)%R /\ (forall a, In a l -> (f a <= x)%R) /\ (x = x0 \/ exists a, In a l /\ x = f a).
Proof.
  intros f. induction l as [|a l IH]; intros x0; simpl.
  - exists x0. split; auto. split; [lra|]. split; [intros ? []|auto].
  - destruct (IH (Rmax (f a) x0)) as (x & E & A & B & C). exists x. split; auto.
    pose proof (Rmax_l (f a) x0). pose proof (Rmax_r (f a) x0). split; [lra|]. split.
    + intros a' [->|I]; [lra|auto].
    + destruct C as [->|(a' & I & ->)].
      * unfold Rmax. destruct (Rle_dec (f a) x0); [auto|right; exists a; auto].
      * right. exists a'. auto.
Qed.

Lemma rsum_abs_le : forall A (f g : A -> R) l, (forall x, In x l -> (Rabs (f x) <= g x)%R) -> (Rabs (rsum (map f l)) <= rsum (map g l))%R.
Proof.
  induction l as [|x l IH]; intros H; simpl; [rewrite Rabs_R0; lra|]. eapply Rle_trans; [apply Rabs_triang|].
  apply Rplus_le_compat; [apply H; simpl; auto|apply IH; intros; apply H; simpl; auto].
Qed.

Section Bellman.
Variables (n m : nat) (p r : nat -> nat -> nat -> R) (gamma : R).
Hypothesis m_pos : 0 < m.
Hypothesis gamma_ok : (0 <= gamma < 1)%R.
Hypothesis p_ok : transitions n m p.

Definition qv (V : nat -> R) (s a : nat) : R := rsum (map (fun j => p s a j * (r s a j + gamma * V j))%R (seq 0 n)).

Lemma qv_diff : forall V W s a, (qv V s a - qv W s a = gamma * rsum (map (fun j => p s a j * (V j - W j)) (seq 0 n)))%R.
Proof.
  intros. unfold qv. rewrite <- rsum_map_scal.
  assert (X : forall l, (rsum (map (fun j => p s a j * (r s a j + gamma * V j)) l) - rsum (map (fun j => p s a j * (r s a j + gamma * W j)) l) = rsum (map (fun x => gamma * (p s a x * (V x - W x))) l))%R).
  { induction l; simpl; [ring|]. rewrite <- IHl. ring. }
  apply X.
Qed.

Lemma weighted_le : forall s a (g : nat -> R) D, s < n -> a < m -> (0 <= D)%R -> (forall j, j < n -> (g j <= D)%R) ->
  (rsum (map (fun j => p s a j * g j) (seq 0 n)) <= D)%R.
Proof.
  intros s a g D Hs Ha HD H. destruct (p_ok s a Hs Ha) as [P1 P2].
  apply Rle_trans with (rsum (map (fun j => D * p s a j)%R (seq 0 n))).
  - apply rsum_map_le. intros j Hj. apply in_seq in Hj. specialize (P1 j ltac:(lia)). specialize (H j ltac:(lia)). nra.
  - rewrite rsum_map_scal. nra.
Qed.

Lemma qv_mono : forall V W s a, s < n -> a < m -> (forall j, j < n -> (V j <= W j)%R) -> (qv V s a <= qv W s a)%R.
Proof.
  intros V W s a Hs Ha H. apply rsum_map_le. intros j Hj. apply in_seq in Hj. destruct (p_ok s a Hs Ha) as [P1 _].
  specialize (P1 j ltac:(lia)). specialize (H j ltac:(lia)). apply Rmult_le_compat_l; auto. assert (gamma * V j <= gamma * W j)%R by (apply Rmult_le_compat_l; lra). lra.
Qed.

Lemma qv_contr : forall V W D s a, s < n -> a < m -> (0 <= D)%R -> (forall j, j < n -> (Rabs (V j - W j) <= D)%R) ->
  (Rabs (qv V s a - qv W s a) <= gamma * D)%R.
Proof.
  intros V W D s a Hs Ha HD H. rewrite qv_diff, Rabs_mult, (Rabs_pos_eq gamma) by lra. apply Rmult_le_compat_l; [lra|].
  eapply Rle_trans; [apply (rsum_abs_le _ _ (fun j => p s a j * Rabs (V j - W j))%R)|].
  - intros j Hj. apply in_seq in Hj. rewrite Rabs_mult. destruct (p_ok s a Hs Ha) as [P1 _]. rewrite (Rabs_pos_eq (p s a j)) by (apply P1; lia). lra.
  - apply weighted_le; auto.
Qed.

(** argmax *)
Fixpoint amax (f : nat -> R) (k : nat) : nat := match k with 0 => 0 | S k' => let b := amax f k' in if Rle_dec (f b) (f (S k')) then S k' else b end.
Lemma amax_spec : forall f k, amax f k <= k /\ forall a, a <= k -> (f a <= f (amax f k))%R.
Proof.
  induction k as [|k [IH1 IH2]]; simpl.
  - split; auto. intros a Ha. replace a with 0 by lia. lra.
  - destruct (Rle_dec _ _) as [L|L].
    + split; auto. intros a Ha. destruct (Nat.eq_dec a (S k)) as [->|N]; [lra|]. specialize (IH2 a ltac:(lia)). lra.
    + split; [lia|]. intros a Ha. destruct (Nat.eq_dec a (S k)) as [->|N]; [lra|]. apply IH2. lia.
Qed.

Definition greedy (V : nat -> R) (s : nat) : nat := amax (qv V s) (m - 1).
Definition bell (V : nat -> R) (s : nat) : R := qv V s (greedy V s).

Lemma greedy_lt : forall V s, greedy V s < m.
Proof. intros. unfold greedy. pose proof (amax_spec (qv V s) (m - 1)). lia. Qed.
Lemma bell_ge : forall V s a, a < m -> (qv V s a <= bell V s)%R.
Proof. intros. apply amax_spec. lia. Qed.

Lemma bell_mono : forall V W s, s < n -> (forall j, j < n -> (V j <= W j)%R) -> (bell V s <= bell W s)%R.
Proof.
  intros V W s Hs H. unfold bell at 1. eapply Rle_trans; [apply (qv_mono V W); auto; apply greedy_lt|]. apply bell_ge, greedy_lt.
Qed.

Lemma bell_contr : forall V W D, (0 <= D)%R -> (forall j, j < n -> (Rabs (V j - W j) <= D)%R) -> forall s, s < n -> (Rabs (bell V s - bell W s) <= gamma * D)%R.
Proof.
  intros V W D HD H s Hs.
  pose proof (qv_contr V W D s (greedy V s) Hs (greedy_lt V s) HD H) as A. pose proof (qv_contr V W D s (greedy W s) Hs (greedy_lt W s) HD H) as B.
  pose proof (bell_ge W s (greedy V s) (greedy_lt V s)) as C. pose proof (bell_ge V s (greedy W s) (greedy_lt W s)) as E.
  fold (bell V s) in A. fold (bell W s) in B. revert A B. unfold Rabs. repeat destruct (Rcase_abs _); lra.
Qed.

(** policy operator *)
Definition pol_op (pol : nat -> nat) (V : nat -> R) (s : nat) : R := qv V s (pol s).
Lemma pol_contr : forall pol, (forall s, s < n -> pol s < m) -> forall V W D, (0 <= D)%R -> (forall j, j < n -> (Rabs (V j - W j) <= D)%R) ->
  forall s, s < n -> (Rabs (pol_op pol V s - pol_op pol W s) <= gamma * D)%R.
Proof. intros. apply qv_contr; auto. Qed.

Lemma return_policy : forall pol T s, return_ n p r gamma (fun _ => pol) T s = it (pol_op pol) (fun _ => 0%R) T s.
Proof. intros pol. induction T; intros s; simpl; auto. unfold pol_op, qv. apply rsum_map_ext. intros j _. rewrite IHT. reflexivity. Qed.

Lemma return_le : forall T rules s, (forall t s, s < n -> rules t s < m) -> s < n -> (return_ n p r gamma rules T s <= it bell (fun _ => 0%R) T s)%R.
Proof.
  induction T; intros rules s H Hs; simpl; [lra|].
  apply Rle_trans with (qv (it bell (fun _ => 0%R) T) s (rules 0 s)); [|apply bell_ge; auto].
  apply (qv_mono (fun j => return_ n p r gamma (fun t => rules (S t)) T j)); auto.
Qed.

Definition vstar : nat -> R := fix_of n bell gamma gamma_ok bell_contr (fun _ => 0%R).
Lemma vstar_fixed : forall s, s < n -> bell vstar s = vstar s.
Proof. apply fix_fixed. Qed.

Lemma policy_value_of_fixed : forall pol V, (forall s, s < n -> pol s < m) -> (forall s, s < n -> pol_op pol V s = V s) -> policy_value n p r gamma pol V.
Proof.
  intros pol V HP HV s Hs d Hd. set (D := sup n (fun s => 0 - V s)%R).
  destruct (small gamma gamma_ok D d (sup_nonneg _ _) Hd) as (N & HN). exists N. intros T HT. rewrite return_policy.
  assert (E : forall k s, s < n -> it (pol_op pol) V k s = V s).
  { induction k; intros s0 H0; simpl; auto. rewrite <- (HV s0 H0). apply (F_ext n (pol_op pol) gamma); auto. apply pol_contr; auto. }
  rewrite <- (E T s Hs). eapply Rle_trans; [apply (it_gap n (pol_op pol) gamma gamma_ok (pol_contr pol HP) (fun _ => 0%R) V D)|apply HN; auto]; auto; [apply sup_nonneg|].
  intros j Hj. apply (sup_ge n (fun s => 0 - V s)%R). auto.
Qed.

Lemma vstar_optimal : optimal_value n m p r gamma vstar.
Proof.
  split.
  - intros rules s HR Hs d Hd.
    destruct (fix_lim n bell gamma gamma_ok bell_contr (fun _ => 0%R) s Hs d Hd) as (N & HN). fold vstar in HN. exists N. intros T HT.
    specialize (HN T HT). unfold R_dist in HN. apply Rabs_def2 in HN. pose proof (return_le T rules s HR Hs). lra.
  - exists (greedy vstar). split; [intros; apply greedy_lt|]. intros s Hs d Hd.
    destruct (policy_value_of_fixed (greedy vstar) vstar (fun s _ => greedy_lt vstar s) vstar_fixed s Hs d Hd) as (N & HN).
    exists N. intros T HT. specialize (HN T HT). revert HN. unfold Rabs. destruct (Rcase_abs _); lra.
Qed.

Lemma optimal_unique : forall V W, optimal_value n m p r gamma V -> optimal_value n m p r gamma W -> forall s, s < n -> V s = W s.
Proof.
  assert (X : forall V W, optimal_value n m p r gamma V -> optimal_value n m p r gamma W -> forall s, s < n -> (V s <= W s)%R).
  { intros V W [_ (pol & HP & B)] [A _] s Hs. apply le_epsilon. intros e He.
    destruct (B s Hs (e / 2)%R ltac:(lra)) as (N1 & H1). destruct (A (fun _ => pol) s ltac:(auto) Hs (e / 2)%R ltac:(lra)) as (N2 & H2).
    specialize (H1 (N1 + N2) ltac:(lia)). specialize (H2 (N1 + N2) ltac:(lia)). lra. }
  intros V W HV HW s Hs. apply Rle_antisym; auto.
Qed.

Lemma optimal_vstar : forall V, optimal_value n m p r gamma V -> forall s, s < n -> V s = vstar s.
Proof. intros V H. apply optimal_unique; auto. apply vstar_optimal. Qed.

Lemma below_vstar : forall W, (forall s, s < n -> (W s <= bell W s)%R) -> forall s, s < n -> (W s <= vstar s)%R.
Proof.
  intros W H s Hs. apply le_epsilon. intros e He. set (D := sup n (fun s => W s - vstar s)%R).
  destruct (small gamma gamma_ok D e (sup_nonneg _ _) He) as (N & HN). specialize (HN N (le_n N)).
  assert (A : forall k s, s < n -> (W s <= it bell W k s)%R).
  { induction k; intros s0 H0; simpl; [lra|]. eapply Rle_trans; [apply H; auto|]. apply bell_mono; auto. }
  assert (E : forall k s, s < n -> it bell vstar k s = vstar s).
  { induction k; intros s0 H0; simpl; auto. rewrite <- (vstar_fixed s0 H0). apply (F_ext n bell gamma); auto. apply bell_contr. }
  pose proof (it_gap n bell gamma gamma_ok bell_contr W vstar D N (sup_nonneg _ _) (fun j Hj => sup_ge n (fun s => W s - vstar s)%R j Hj) s Hs) as G.
  rewrite E in G by auto. specialize (A N s Hs). pose proof (Rle_abs (it bell W N s - vstar s)). lra.
Qed.

(** * value iteration *)
Definition vf (v : list R) (s : nat) : R := nth s v 0%R.

Lemma backup_qv : forall v s a, backup n p r gamma v s a = qv (vf v) s a.
Proof. reflexivity. Qed.

Lemma best_bell : forall v s, best n m p r gamma v s = Some (bell (vf v) s).
Proof.
  intros v s. unfold best. assert (E : seq 0 m = 0 :: seq 1 (m - 1)) by (replace m with (S (m - 1)) at 1 by lia; reflexivity). rewrite E. cbn [fold_left].
  destruct (fold_max_spec (backup n p r gamma v s) (seq 1 (m - 1)) (backup n p r gamma v s 0)) as (x & -> & A & B & C).
  f_equal. apply Rle_antisym.
  - destruct C as [->|(a & I & ->)]; rewrite backup_qv; apply bell_ge; [lia|apply in_seq in I; lia].
  - unfold bell. destruct (Nat.eq_dec (greedy (vf v) s) 0) as [->|N]; [rewrite backup_qv in A; auto|].
    rewrite <- backup_qv. apply B. apply in_seq. pose proof (greedy_lt (vf v) s). lia.
Qed.

Lemma sweep_spec : forall v, length v = n -> length (vi_sweep n m p r gamma v) = n /\ forall s, s < n -> vf (vi_sweep n m p r gamma v) s = bell (vf v) s.
Proof.
  intros v L. unfold vi_sweep.
  assert (G : forall k w, k <= n -> length w = n -> 
     let w' := fold_left (fun value s => setnth value s (match best n m p r gamma v s with Some x => x | None => 0%R end)) (seq 0 k) w in
     length w' = n /\ forall s, s < k -> nth s w' 0%R = bell (vf v) s).
  { induction k; intros w Hk Lw; [split; auto; intros; lia|]. rewrite seq_S, fold_left_app. cbn [fold_left Nat.add].
    destruct (IHk w ltac:(lia) Lw) as [A B]. split; [rewrite setnth_length; auto|]. intros s Hs. destruct (Nat.eq_dec s k) as [->|N].
    - rewrite nth_setnth_eq by (rewrite A; lia). rewrite best_bell. reflexivity.
    - rewrite nth_setnth_neq by auto. apply B. lia. }
  apply G; auto.
Qed.

Lemma norm_sup : forall v w, (norm_diff n v w <= INR n * sup n (fun s => vf v s - vf w s))%R /\ (forall s, s < n -> (Rabs (vf v s - vf w s) <= norm_diff n v w)%R).
Proof.
  intros v w. set (D := sup n (fun s => vf v s - vf w s)%R). assert (P : (0 <= D)%R) by apply sup_nonneg.
  assert (SQ : forall s, ((nth s v 0 - nth s w 0) ^ 2 = Rsqr (Rabs (vf v s - vf w s)))%R).
  { intros s. rewrite <- Rsqr_abs. unfold vf, Rsqr. ring. }
  split.
  - unfold norm_diff. destruct (Nat.eq_dec n 0) as [->|N]; [simpl; rewrite sqrt_0; lra|].
    assert (1 <= INR n)%R by (apply (le_INR 1); lia).
    rewrite <- (sqrt_Rsqr (INR n * D)) by nra. apply sqrt_le_1_alt.
    apply Rle_trans with (rsum (map (fun _ => Rsqr D) (seq 0 n))).
    + apply rsum_map_le. intros s Hs. apply in_seq in Hs. rewrite SQ. apply Rsqr_incr_1; auto; [apply (sup_ge n (fun s => vf v s - vf w s)%R); lia|apply Rabs_pos].
    + rewrite rsum_map_const, seq_length. unfold Rsqr. nra.
  - intros s Hs. unfold norm_diff. rewrite <- (sqrt_Rsqr (Rabs (vf v s - vf w s))) by apply Rabs_pos. apply sqrt_le_1_alt. rewrite <- SQ.
    apply rsum_in_le; [|apply (in_map (fun s => (nth s v 0 - nth s w 0) ^ 2)%R); apply in_seq; lia].
    intros y Hy. apply in_map_iff in Hy. destruct Hy as (x & <- & _). apply pow2_ge_0.
Qed.

Lemma vf_zeros : forall s, vf (repeat 0%R n) s = 0%R.
Proof. intros. unfold vf. destruct (Nat.lt_ge_cases s n); [apply nth_repeat|apply nth_overflow; rewrite repeat_length; auto]. Qed.

Lemma vi_terminates : forall eps, (0 < eps)%R -> exists fuel v, value_iteration n m p r gamma eps fuel = Some v.
Proof.
  intros eps He. set (V0 := fun _ : nat => 0%R). set (D := gap0 n bell V0).
  destruct (small gamma gamma_ok (INR n * D) eps) as (N & HN); auto.
  { apply Rmult_le_pos; [apply pos_INR|apply sup_nonneg]. }
  assert (G : forall d k v, d + k = N -> length v = n -> (forall s, s < n -> vf v s = it bell V0 k s) -> exists fuel w, vi_loop n m p r gamma eps fuel v = Some w).
  { induction d; intros k v E L H.
    - simpl in E. subst k. exists 1. simpl. destruct (sweep_spec v L) as [L' S]. destruct (Rle_dec _ _) as [Q|Q]; [eauto|]. exfalso. apply Q.
      eapply Rle_trans; [apply norm_sup|]. eapply Rle_trans; [|apply (HN N); lia].
      rewrite <- Rmult_assoc, (Rmult_comm _ (INR n)), Rmult_assoc. apply Rmult_le_compat_l; [apply pos_INR|].
      apply sup_lub; [apply Rmult_le_pos; [apply pow_le; lra|apply sup_nonneg]|]. intros s Hs.
      rewrite S by auto. rewrite H by auto. rewrite (F_ext n bell gamma bell_contr (vf v) (it bell V0 N)) by auto.
      apply (it_step n bell gamma gamma_ok bell_contr V0 N s Hs).
    - destruct (sweep_spec v L) as [L' S]. destruct (IHd (Datatypes.S k) (vi_sweep n m p r gamma v)) as (f & w & F); [lia|auto| |].
      + intros s Hs. rewrite S by auto. simpl. apply (F_ext n bell gamma bell_contr); auto.
      + exists (Datatypes.S f). cbn [vi_loop]. destruct (Rle_dec _ _); eauto. }
  apply (G N 0); [lia|apply repeat_length|]. intros s _. apply vf_zeros.
Qed.

Lemma vi_loop_result : forall eps fuel v w, length v = n -> vi_loop n m p r gamma eps fuel v = Some w ->
  exists u, length u = n /\ w = vi_sweep n m p r gamma u /\ (norm_diff n w u <= eps)%R.
Proof.
  intros eps. induction fuel; intros v w L H; [discriminate|]. cbn [vi_loop] in H. destruct (Rle_dec _ _) as [Q|Q].
  - injection H as <-. exists v. auto.
  - apply IHfuel in H; auto. apply sweep_spec; auto.
Qed.

Lemma vi_accuracy : forall eps fuel w, (0 <= eps)%R -> value_iteration n m p r gamma eps fuel = Some w ->
  length w = n /\ forall s, s < n -> (Rabs (vf w s - vstar s) <= gamma * eps / (1 - gamma))%R.
Proof.
  intros eps fuel w He H. apply vi_loop_result in H; [|apply repeat_length]. destruct H as (u & L & -> & Q).
  destruct (sweep_spec u L) as [L' S]. split; auto.
  set (w := vi_sweep n m p r gamma u) in *.
  assert (DU : forall s, s < n -> (Rabs (vf w s - vf u s) <= eps)%R) by (intros s Hs; eapply Rle_trans; [apply norm_sup; auto|auto]).
  apply (residual_bound n bell gamma gamma_ok bell_contr); [nra|apply vstar_fixed|].
  intros s Hs. rewrite (S s Hs). apply bell_contr; auto.
Qed.

(** * policy iteration *)
Section PolicyIteration.
Variable solve : (nat -> nat -> R) -> (nat -> R) -> list R.
Hypothesis solve_ok : exact_solver n solve.

Definition valid (pol : list nat) : Prop := length pol = n /\ forall s, s < n -> nth s pol 0 < m.
Definition pf (pol : list nat) (s : nat) : nat := nth s pol 0.
Definition pv (pol : list nat) : list R := solve (pi_matrix p gamma pol) (pi_reward n p r pol).

Lemma seq_select : forall k (g : nat -> R) s, rsum (map (fun j => (if Nat.eqb s j then 1 else 0) * g j)%R (seq 0 k)) = (if Nat.ltb s k then g s else 0)%R.
Proof.
  induction k; intros g s; [reflexivity|]. rewrite seq_S, map_app, rsum_app, IHk. cbn [map rsum Nat.add].
  destruct (Nat.ltb_spec s k), (Nat.eqb_spec s k), (Nat.ltb_spec s (S k)); try lia; subst; lra.
Qed.

Lemma pv_fixed : forall pol, valid pol -> length (pv pol) = n /\ forall s, s < n -> pol_op (pf pol) (vf (pv pol)) s = vf (pv pol) s.
Proof.
  intros pol [L HV]. destruct (solve_ok (pi_matrix p gamma pol) (pi_reward n p r pol) gamma gamma_ok) as [A B].
  { intros s Hs. destruct (p_ok s (nth s pol 0) Hs (HV s Hs)) as [P1 P2].
    rewrite (rsum_map_ext _ _ (fun j => gamma * p s (nth s pol 0%nat) j)%R).
    - rewrite rsum_map_scal. nra.
    - intros j Hj. apply in_seq in Hj. unfold pi_matrix. specialize (P1 j ltac:(lia)).
      match goal with |- Rabs ?x = ?y => replace x with y by (destruct (Nat.eqb s j); ring) end. apply Rabs_pos_eq. nra. }
  fold (pv pol) in A, B. split; auto. intros s Hs. specialize (B s Hs). unfold pol_op, qv, pf.
  set (a := nth s pol 0) in *.
  assert (X : (rsum (map (fun j => p s a j * (r s a j + gamma * vf (pv pol) j)) (seq 0 n)) =
     rsum (map (fun j => (if Nat.eqb s j then 1 else 0) * vf (pv pol) j) (seq 0 n)) + (pi_reward n p r pol s - rsum (map (fun j => pi_matrix p gamma pol s j * nth j (pv pol) 0) (seq 0 n))))%R).
  { unfold pi_reward, pi_matrix. fold a. unfold vf. generalize (seq 0 n). induction l; simpl; [ring|]. rewrite IHl. ring. }
  rewrite X, B, seq_select. destruct (Nat.ltb_spec s n); [ring|lia].
Qed.

(** one state of the improvement sweep *)
Lemma improve_actions : forall v s c0 v0 ch0, let l := fun k => fold_left (improve_action n p r gamma v s) (seq 0 k) (c0, v0, ch0) in
  qv (vf v) s c0 = v0 ->
  forall k, k <= m -> exists c vm ch, l k = (c, vm, ch) /\ qv (vf v) s c = vm /\ (c = c0 \/ c < k) /\ (v0 <= vm)%R /\
    ((c = c0 /\ vm = v0 /\ ch = ch0 /\ forall a, a < k -> (qv (vf v) s a <= v0 \/ isclose (qv (vf v) s a) v0 = true)%R) \/ ((v0 < vm)%R /\ ch = true)).
Proof.
  intros v s c0 v0 ch0 l E0. induction k; intros Hk.
  - exists c0, v0, ch0. split; auto. split; auto. split; auto. split; [lra|]. left. split; auto. split; auto. split; auto. intros; lia.
  - destruct (IHk ltac:(lia)) as (c & vm & ch & E & Q & C & M & K). unfold l in *. rewrite seq_S, fold_left_app, E. cbn [fold_left Nat.add].
    unfold improve_action. rewrite backup_qv.
    destruct (Nat.eqb_spec k c) as [->|N].
    { exists c, vm, ch. split; auto. split; auto. split; [lia|]. split; auto. destruct K as [(A1 & A2 & A3 & A4)|K]; auto.
      left. split; auto. split; auto. split; auto. intros a Ha. destruct (Nat.eq_dec a c) as [->|N]; [|apply A4; lia]. left. lra. }
    destruct (Rlt_dec vm (qv (vf v) s k)) as [L|L].
    + destruct (isclose (qv (vf v) s k) vm) eqn:I.
      * exists c, vm, ch. split; auto. split; auto. split; [lia|]. split; auto. destruct K as [(A1 & A2 & A3 & A4)|K]; auto.
        left. split; auto. split; auto. split; auto. intros a Ha. destruct (Nat.eq_dec a k) as [->|N']; [|apply A4; lia]. right. congruence.
      * exists k, (qv (vf v) s k), true. split; auto. split; auto. split; [lia|]. split; [lra|]. right. split; [lra|auto].
    + exists c, vm, ch. split; auto. split; auto. split; [lia|]. split; auto. destruct K as [(A1 & A2 & A3 & A4)|K]; auto.
      left. split; auto. split; auto. split; auto. intros a Ha. destruct (Nat.eq_dec a k) as [->|N']; [|apply A4; lia]. left. lra.
Qed.

Lemma improve_spec : forall pol, valid pol -> let v := pv pol in let '(pol', ch) := improve n m p r gamma v pol in
  valid pol' /\ (forall s, s < n -> (vf v s <= qv (vf v) s (pf pol' s))%R) /\
  (ch = true -> exists s, s < n /\ (vf v s < qv (vf v) s (pf pol' s))%R) /\
  (ch = false -> pol' = pol /\ forall s a, s < n -> a < m -> (qv (vf v) s a <= vf v s \/ isclose (qv (vf v) s a) (vf v s) = true)%R).
Proof.
  intros pol HV v. destruct (pv_fixed pol HV) as [LV FX]. fold v in LV, FX. unfold improve.
  assert (G : forall k, k <= n -> exists pol' ch, fold_left (improve_state n m p r gamma v) (seq 0 k) (pol, false) = (pol', ch) /\
     valid pol' /\ (forall s, s < n -> (vf v s <= qv (vf v) s (pf pol' s))%R) /\ (forall s, k <= s -> nth s pol' 0 = nth s pol 0) /\
     (ch = true -> exists s, s < k /\ (vf v s < qv (vf v) s (pf pol' s))%R) /\
     (ch = false -> pol' = pol /\ forall s a, s < k -> a < m -> (qv (vf v) s a <= vf v s \/ isclose (qv (vf v) s a) (vf v s) = true)%R)).
  { induction k; intros Hk.
    - exists pol, false. split; auto. split; auto. split; [intros s Hs; rewrite <- (FX s Hs) at 1; apply Rle_refl|].
      split; auto. split; [discriminate|]. intros _. split; auto. intros; lia.
    - destruct (IHk ltac:(lia)) as (pol1 & ch1 & E & [L1 V1] & B & K & T & F). rewrite seq_S, fold_left_app, E. cbn [fold_left Nat.add].
      unfold improve_state. cbn [fst snd].
      assert (Q0 : qv (vf v) k (nth k pol1 0) = nth k v 0%R) by (rewrite K by lia; apply FX; lia).
      destruct (improve_actions v k (nth k pol1 0) (nth k v 0%R) ch1 Q0 m (le_n m)) as (c & vm & ch & EA & Q & C & M & D).
      rewrite EA. exists (setnth pol1 k c), ch. split; auto.
      assert (CM : c < m) by (destruct C as [-> |]; auto; apply V1; lia).
      assert (NK : forall s, s <> k -> pf (setnth pol1 k c) s = pf pol1 s) by (intros; unfold pf; apply nth_setnth_neq; auto).
      assert (EK : pf (setnth pol1 k c) k = c) by (unfold pf; apply nth_setnth_eq; lia).
      split; [split; [rewrite setnth_length; auto|]|].
      { intros s Hs. fold (pf (setnth pol1 k c) s). destruct (Nat.eq_dec s k) as [->|N]; [rewrite EK; auto|rewrite NK by auto; apply V1; auto]. }
      split; [|split; [|split]].
      + intros s Hs. destruct (Nat.eq_dec s k) as [->|N]; [rewrite EK, Q; exact M|rewrite NK by auto; apply B; auto].
      + intros s Hs. rewrite nth_setnth_neq by lia. apply K. lia.
      + intros Hc. destruct D as [(-> & -> & -> & _)|[D _]].
        * destruct (T Hc) as (s & Hs & X). exists s. split; [lia|]. rewrite NK by lia. auto.
        * exists k. split; [lia|]. rewrite EK, Q. exact D.
      + intros Hc. destruct D as [(-> & E2 & -> & D)|[_ D]]; [|congruence]. destruct (F Hc) as [-> F2].
        split.
        * apply nth_ext with 0 0; [apply setnth_length|]. intros i Hi. destruct (Nat.eq_dec i k) as [->|N]; [apply nth_setnth_eq; lia|apply nth_setnth_neq; auto].
        * intros s a Hs Ha. destruct (Nat.eq_dec s k) as [->|N]; [apply D; auto|apply F2; [lia|auto]]. }
  destruct (G n (le_n n)) as (pol' & ch & E & A & B & _ & T & F). rewrite E. auto.
Qed.

(** improving policies have larger values *)
Lemma min_attained : forall k (f : nat -> R), k <> 0 -> exists s, s < k /\ forall j, j < k -> (f s <= f j)%R.
Proof.
  induction k; intros f H; [congruence|]. destruct k as [|k].
  - exists 0. split; auto. intros j Hj. replace j with 0 by lia. lra.
  - destruct (IHk f ltac:(discriminate)) as (s & Hs & A). destruct (Rle_dec (f s) (f (S k))) as [L|L].
    + exists s. split; [lia|]. intros j Hj. destruct (Nat.eq_dec j (S k)) as [->|N]; [auto|apply A; lia].
    + exists (S k). split; [lia|]. intros j Hj. destruct (Nat.eq_dec j (S k)) as [->|N]; [lra|]. specialize (A j ltac:(lia)). lra.
Qed.

Lemma dominate : forall (pol : nat -> nat) V W, (forall s, s < n -> pol s < m) -> (forall s, s < n -> pol_op pol V s = V s) ->
  (forall s, s < n -> (W s <= pol_op pol W s)%R) -> forall s, s < n -> (pol_op pol W s <= V s)%R /\ (W s <= V s)%R.
Proof.
  intros pol V W HP HV HW s Hs. assert (N : n <> 0) by lia.
  assert (A : forall s, s < n -> (W s <= V s)%R).
  { destruct (min_attained n (fun s => V s - W s)%R N) as (s0 & H0 & MIN). 
    assert (D : (0 <= V s0 - W s0)%R).
    { destruct (Rle_dec 0 (V s0 - W s0)) as [|NEG]; auto. exfalso.
      pose proof (HW s0 H0) as H1. rewrite <- (HV s0 H0) in NEG. rewrite <- (HV s0 H0) in MIN.
      assert (X : (pol_op pol V s0 - pol_op pol W s0 >= gamma * (pol_op pol V s0 - W s0))%R).
      { unfold pol_op at 1 2. rewrite qv_diff. apply Rle_ge. apply Rmult_le_compat_l; [lra|].
        assert (Y : (rsum (map (fun j => p s0 (pol s0) j * (- (V j - W j))) (seq 0 n)) <= - (pol_op pol V s0 - W s0))%R).
        { apply weighted_le; auto; [lra|]. intros j Hj. specialize (MIN j Hj). cbv beta in MIN. lra. }
        rewrite (rsum_map_ext _ _ (fun j => -1 * (p s0 (pol s0) j * (V j - W j)))%R) in Y by (intros; ring). rewrite rsum_map_scal in Y. lra. }
      nra. }
    intros s1 H1. specialize (MIN s1 H1). cbv beta in MIN. lra. }
  split; auto. rewrite <- (HV s Hs). apply qv_mono; auto.
Qed.

Definition total (v : list R) : R := rsum (map (vf v) (seq 0 n)).

Lemma improve_total : forall pol pol', valid pol -> improve n m p r gamma (pv pol) pol = (pol', true) -> valid pol' /\ (total (pv pol) < total (pv pol'))%R.
Proof.
  intros pol pol' HV E. pose proof (improve_spec pol HV) as S. cbv zeta in S. rewrite E in S. destruct S as (V' & A & B & _).
  split; auto. destruct (B eq_refl) as (s & Hs & X). destruct (pv_fixed pol' V') as [_ FX].
  pose proof (dominate (pf pol') (vf (pv pol')) (vf (pv pol)) (fun s Hs => proj2 V' s Hs) FX A) as DM.
  unfold total.
  assert (SPLIT : seq 0 n = seq 0 s ++ s :: seq (S s) (n - S s)).
  { replace n with (s + S (n - S s)) at 1 by lia. rewrite seq_app. reflexivity. }
  rewrite SPLIT, !map_app, !rsum_app. cbn [map rsum].
  assert (L1 : (rsum (map (vf (pv pol)) (seq 0 s)) <= rsum (map (vf (pv pol')) (seq 0 s)))%R) by (apply rsum_map_le; intros j Hj; apply in_seq in Hj; apply DM; lia).
  assert (L2 : (rsum (map (vf (pv pol)) (seq (S s) (n - S s))) <= rsum (map (vf (pv pol')) (seq (S s) (n - S s))))%R) by (apply rsum_map_le; intros j Hj; apply in_seq in Hj; apply DM; lia).
  destruct (DM s Hs) as [D1 _]. unfold pol_op in D1. lra.
Qed.

(** finiteness *)
Fixpoint policies (k : nat) : list (list nat) := match k with 0 => [[]] | S k' => flat_map (fun a => map (cons a) (policies k')) (seq 0 m) end.
Lemma policies_In : forall k pol, length pol = k -> (forall s, s < k -> nth s pol 0 < m) -> In pol (policies k).
Proof.
  induction k; intros pol L H.
  - destruct pol; [simpl; auto|discriminate].
  - destruct pol as [|a pol]; [discriminate|]. simpl. apply in_flat_map. exists a. split; [apply in_seq; specialize (H 0 ltac:(lia)); simpl in H; lia|].
    apply in_map. apply IHk; [simpl in L; lia|]. intros s Hs. apply (H (S s)). lia.
Qed.

Definition better (x : R) : list (list nat) := filter (fun pol => if Rlt_dec x (total (pv pol)) then true else false) (policies n).
Lemma better_decreases : forall x pol, valid pol -> (x < total (pv pol))%R -> length (better (total (pv pol))) < length (better x).
Proof.
  intros x pol HV L. unfold better. assert (I : In pol (policies n)) by (apply policies_In; apply HV).
  apply in_split in I. destruct I as (l1 & l2 & ->). rewrite !filter_app, !app_length. cbn [filter].
  destruct (Rlt_dec (total (pv pol)) (total (pv pol))) as [C|_]; [lra|]. destruct (Rlt_dec x (total (pv pol))) as [_|C]; [|contradiction].
  assert (F : forall l, length (filter (fun q => if Rlt_dec (total (pv pol)) (total (pv q)) then true else false) l) <= length (filter (fun q => if Rlt_dec x (total (pv q)) then true else false) l)).
  { induction l; simpl; auto. destruct (Rlt_dec (total (pv pol)) (total (pv a))), (Rlt_dec x (total (pv a))); simpl; try lia. exfalso. lra. }
  pose proof (F l1). pose proof (F l2). simpl. lia.
Qed.

Lemma pi_terminates : exists fuel v pol, policy_iteration n m p r gamma solve fuel = Some (v, pol).
Proof.
  assert (G : forall k pol, valid pol -> length (better (total (pv pol))) <= k -> exists fuel v pol', pi_loop n m p r gamma solve fuel pol = Some (v, pol')).
  { induction k; intros pol HV LK; destruct (improve n m p r gamma (pv pol) pol) as [pol' ch] eqn:E; destruct ch.
    - destruct (improve_total pol pol' HV E) as [V' T]. pose proof (better_decreases _ _ V' T). lia.
    - exists 1. cbn [pi_loop]. fold (pv pol). rewrite E. eauto.
    - destruct (improve_total pol pol' HV E) as [V' T]. pose proof (better_decreases _ _ V' T).
      destruct (IHk pol' V' ltac:(lia)) as (f & v & q & F). exists (S f). cbn [pi_loop]. fold (pv pol). rewrite E. eauto.
    - exists 1. cbn [pi_loop]. fold (pv pol). rewrite E. eauto. }
  apply (G (length (better (total (pv (repeat 0 n))))) (repeat 0 n)); [|apply le_n]. split; [apply repeat_length|]. intros s Hs. rewrite nth_repeat. auto.
Qed.

Lemma pi_result : forall fuel v pol, policy_iteration n m p r gamma solve fuel = Some (v, pol) ->
  valid pol /\ v = pv pol /\ forall s a, s < n -> a < m -> (qv (vf v) s a <= vf v s \/ isclose (qv (vf v) s a) (vf v s) = true)%R.
Proof.
  intros fuel v pol H. unfold policy_iteration in H.
  assert (V0 : valid (repeat 0 n)) by (split; [apply repeat_length|]; intros s Hs; rewrite nth_repeat; auto).
  revert H V0. generalize (repeat 0 n). induction fuel; intros pol0 H V0; [discriminate|]. cbn [pi_loop] in H. fold (pv pol0) in H.
  pose proof (improve_spec pol0 V0) as S. cbv zeta in S. destruct (improve n m p r gamma (pv pol0) pol0) as [pol' ch]. destruct ch.
  - apply IHfuel in H; auto. apply S.
  - injection H as <- <-. destruct S as (A & _ & _ & B). destruct (B eq_refl) as [-> C]. auto.
Qed.

Lemma isclose_bound : forall a b, isclose a b = true -> (Rabs (a - b) <= / 100000000 + / 100000 * Rabs b)%R.
Proof. intros a b. unfold isclose. destruct (Rle_dec _ _); [auto|discriminate]. Qed.

Lemma pi_near : forall fuel v pol M, policy_iteration n m p r gamma solve fuel = Some (v, pol) -> (forall s, s < n -> (Rabs (vf v s) <= M)%R) ->
  policy_value n p r gamma (pf pol) (vf v) /\
  forall s, s < n -> (vf v s <= vstar s <= vf v s + (/ 100000000 + / 100000 * M) / (1 - gamma))%R.
Proof.
  intros fuel v pol M H HM. apply pi_result in H. destruct H as (HV & -> & RES). destruct (pv_fixed pol HV) as [L FX].
  split; [apply policy_value_of_fixed; auto; apply HV|]. intros s Hs.
  assert (M0 : (0 <= M)%R) by (eapply Rle_trans; [apply Rabs_pos|apply (HM s Hs)]).
  assert (GE : forall s, s < n -> (vf (pv pol) s <= bell (vf (pv pol)) s)%R).
  { intros s0 H0. rewrite <- (FX s0 H0) at 1. apply bell_ge. apply HV. auto. }
  split.
  - (* V* dominates *)
    apply below_vstar; auto.
  - set (e := (/ 100000000 + / 100000 * M)%R).
    assert (E0 : (0 <= e)%R) by (unfold e; lra).
    pose proof (residual_bound n bell gamma gamma_ok bell_contr (vf (pv pol)) vstar e E0 vstar_fixed) as RB.
    assert (Y : (Rabs (vf (pv pol) s - vstar s) <= e / (1 - gamma))%R).
    { apply RB; auto. intros s0 H0. rewrite Rabs_pos_eq by (specialize (GE s0 H0); lra).
      destruct (RES s0 (greedy (vf (pv pol)) s0) H0 (greedy_lt _ _)) as [A|A].
      - unfold bell. lra.
      - apply isclose_bound in A. fold (bell (vf (pv pol)) s0) in A. pose proof (HM s0 H0). pose proof (Rle_abs (bell (vf (pv pol)) s0 - vf (pv pol) s0)). unfold e. lra. }
    revert Y. unfold Rabs. destruct (Rcase_abs _); lra.
Qed.
End PolicyIteration.
End Bellman.

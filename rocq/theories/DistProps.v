(** Theorems about quantile DQN (C78) and the dueling, noisy and categorical heads (C79). *)
From Coq Require Import List Arith Lia Reals Lra Bool FunctionalExtensionality.
From Verif Require Import Common Mat LqrGrad DqnModel DqnProofs GaussProofs DistModel DistProofs.
Import ListNotations.
Local Open Scope R_scope.

(** * Quantile DQN (C78) *)

(** The levels are the midpoints of the n quantile bins. *)
Theorem quantile_levels : forall n i, (i < n)%nat ->
  tau_at n i = (2 * INR i + 1) / (2 * INR n) /\ 0 < tau_at n i < 1 /\
  tau_at n i + tau_at n (n - 1 - i) = 1 /\
  (forall k, (k < n)%nat -> (i < k)%nat -> tau_at n i < tau_at n k).
Proof.
  intros n i H. split; [apply tau_at_mid; auto|]. split; [apply tau_at_range; auto|].
  assert (P : 0 < INR n) by (apply lt_0_INR; lia). split.
  - rewrite !tau_at_mid by lia. rewrite !minus_INR by lia. simpl (INR 1). field. lra.
  - intros k Hk Hik. rewrite !tau_at_mid by lia. apply lt_INR in Hik. unfold Rdiv. apply Rmult_lt_compat_r; [apply Rinv_0_lt_compat|]; lra.
Qed.

(** The loss of a batch is the mean, over all samples and all pairs of a predicted and a target
    quantile of the same sample, of the asymmetric Huber penalty of the level of the
    prediction, for every batch size, as soon as there are two quantiles. *)
Theorem quantile_loss_value : forall B N x y, (1 <= B)%nat -> (2 <= N)%nat ->
  quantile_fit_loss (Some N) B N x y =
    Some (sm B (fun b => sm N (fun i => sm N (fun j =>
            (if Rlt_dec (y b j) (x b i) then 1 - tau_at N i else tau_at N i) * smooth_l1 (x b i - y b j))))
          / (INR B * INR N * INR N)).
Proof.
  intros B N x y HB HN. rewrite loss_core by auto. f_equal. unfold qr_loss. f_equal.
  apply sm_ext. intros b _. apply sm_ext. intros i _. apply sm_ext. intros j _. unfold pair_loss, tau_of. rewrite eqb1 by auto. reflexivity.
Qed.

(** it is non-negative, and zero only when every prediction equals every target of its sample *)
Theorem quantile_loss_zero : forall B N x y L, (1 <= B)%nat -> (2 <= N)%nat ->
  quantile_fit_loss (Some N) B N x y = Some L ->
  0 <= L /\ (L = 0 <-> forall b i j, (b < B)%nat -> (i < N)%nat -> (j < N)%nat -> x b i = y b j).
Proof.
  intros B N x y L HB HN E. rewrite quantile_loss_value in E by auto. inversion E as [E']. clear E.
  assert (PB : 0 < INR B) by (apply lt_0_INR; lia). assert (PN : 0 < INR N) by (apply lt_0_INR; lia).
  assert (PD : 0 < INR B * INR N * INR N) by (repeat apply Rmult_lt_0_compat; auto).
  set (F := fun b i j => (if Rlt_dec (y b j) (x b i) then 1 - tau_at N i else tau_at N i) * smooth_l1 (x b i - y b j)).
  assert (W : forall b i j, (i < N)%nat -> 0 < (if Rlt_dec (y b j) (x b i) then 1 - tau_at N i else tau_at N i)).
  { intros b i j Hi. pose proof (tau_at_range N i Hi). destruct (Rlt_dec _ _); lra. }
  assert (NF : forall b i j, (i < N)%nat -> 0 <= F b i j).
  { intros b i j Hi. apply Rmult_le_pos; [left; auto|apply smooth_l1_nonneg]. }
  assert (NS : 0 <= sm B (fun b => sm N (fun i => sm N (fun j => F b i j)))) by (repeat (apply sm_nonneg; intros); auto).
  split.
  - unfold Rdiv. apply Rmult_le_pos; auto. left. apply Rinv_0_lt_compat. auto.
  - assert (ZZ : forall n f, (forall i, (i < n)%nat -> 0 <= f i) -> sm n f = 0 -> forall i, (i < n)%nat -> f i = 0).
    { induction n as [|n IH]; intros f Hf Z i Hi; [lia|]. rewrite sm_S in Z. assert (0 <= sm n f) by (apply sm_nonneg; auto). assert (0 <= f n) by auto.
      destruct (Nat.eq_dec i n) as [->|]; [lra|]. apply IH; auto; [|lia]. lra. }
    split.
    + intros Z b i j Hb Hi Hj. apply Rmult_integral in Z. destruct Z as [Z|Z]; [|exfalso; revert Z; apply Rinv_neq_0_compat; apply Rgt_not_eq; exact PD].
      pose proof (ZZ _ _ (fun b _ => sm_nonneg _ _ (fun i Hi => sm_nonneg _ _ (fun j _ => NF b i j Hi))) Z b Hb) as Z1. cbv beta in Z1.
      pose proof (ZZ _ _ (fun i Hi => sm_nonneg _ _ (fun j _ => NF b i j Hi)) Z1 i Hi) as Z2. cbv beta in Z2.
      pose proof (ZZ _ _ (fun j _ => NF b i j Hi) Z2 j Hj) as Z3. cbv beta in Z3.
      unfold F in Z3. apply Rmult_integral in Z3. destruct Z3 as [Z3|Z3]; [specialize (W b i j Hi); lra|]. apply (proj1 (smooth_l1_zero _)) in Z3. apply Rminus_diag_uniq. exact Z3.
    + intros H. rewrite (sm_zero B); [unfold Rdiv; ring|]. intros b Hb. apply sm_zero. intros i Hi. apply sm_zero. intros j Hj.
      rewrite (H b i j) by auto. replace (y b j - y b j) with 0 by ring. rewrite (proj2 (smooth_l1_zero 0) eq_refl). ring.
Qed.

(** Gradient: the derivative with respect to the predicted quantile i of sample b only
    depends on the targets of this sample. When no target is within one of the prediction, it is
    proportional to the share of targets below the prediction minus the level: descent moves
    the prediction towards the quantile of its level. *)
Definition set2 (x : nat -> nat -> R) (b i : nat) (z : R) : nat -> nat -> R :=
  fun b' i' => if andb (Nat.eqb b' b) (Nat.eqb i' i) then z else x b' i'.
Definition below (N : nat) (y : nat -> R) (z : R) : R := sm N (fun j => if Rlt_dec (y j) z then 1 else 0).
Theorem quantile_loss_gradient : forall B N x y b i, (1 <= B)%nat -> (2 <= N)%nat -> (b < B)%nat -> (i < N)%nat ->
  exists L, (forall z, quantile_fit_loss (Some N) B N (set2 x b i z) y = Some (L z)) /\
  forall z,
    derivable_pt_lim L z (sm N (fun j => (if Rlt_dec (y b j) z then 1 - tau_at N i else tau_at N i) * Rmax (-1) (Rmin 1 (z - y b j)))
                          / (INR B * INR N * INR N)) /\
    ((forall j, (j < N)%nat -> 1 <= Rabs (z - y b j)) ->
     derivable_pt_lim L z ((below N (y b) z / INR N - tau_at N i) / (INR B * INR N))).
Proof.
  intros B N x y b i HB HN Hb Hi. eexists. split; [intros z; apply quantile_loss_value; auto|]. cbv beta.
  assert (PB : 0 < INR B) by (apply lt_0_INR; lia). assert (PN : 0 < INR N) by (apply lt_0_INR; lia).
  intros z.
  assert (D : derivable_pt_lim (fun z => sm B (fun b0 => sm N (fun i0 => sm N (fun j => (if Rlt_dec (y b0 j) (set2 x b i z b0 i0) then 1 - tau_at N i0 else tau_at N i0) * smooth_l1 (set2 x b i z b0 i0 - y b0 j)))) / (INR B * INR N * INR N)) z
    (sm N (fun j => (if Rlt_dec (y b j) z then 1 - tau_at N i else tau_at N i) * Rmax (-1) (Rmin 1 (z - y b j))) / (INR B * INR N * INR N))).
  { apply dl_scal_r.
    set (g := sm N _).
    replace g with (sm B (fun b0 => sm N (fun i0 => sm N (fun j => if andb (Nat.eqb b0 b) (Nat.eqb i0 i) then (if Rlt_dec (y b j) z then 1 - tau_at N i else tau_at N i) * Rmax (-1) (Rmin 1 (z - y b j)) else 0)))).
    2:{ rewrite (sm_single B b); auto.
        - rewrite (sm_single N i); auto.
          + rewrite !Nat.eqb_refl. reflexivity.
          + intros k _ NE. apply sm_zero. intros. replace (Nat.eqb k i) with false by (symmetry; apply Nat.eqb_neq; auto). rewrite andb_false_r. reflexivity.
        - intros k _ NE. apply sm_zero. intros. apply sm_zero. intros. replace (Nat.eqb k b) with false by (symmetry; apply Nat.eqb_neq; auto). reflexivity. }
    apply (sm_derivable B (fun b0 z => sm N (fun i0 => sm N (fun j => (if Rlt_dec (y b0 j) (set2 x b i z b0 i0) then 1 - tau_at N i0 else tau_at N i0) * smooth_l1 (set2 x b i z b0 i0 - y b0 j))))).
    intros b0 Hb0.
    apply (sm_derivable N (fun i0 z => sm N (fun j => (if Rlt_dec (y b0 j) (set2 x b i z b0 i0) then 1 - tau_at N i0 else tau_at N i0) * smooth_l1 (set2 x b i z b0 i0 - y b0 j)))).
    intros i0 Hi0.
    apply (sm_derivable N (fun j z => (if Rlt_dec (y b0 j) (set2 x b i z b0 i0) then 1 - tau_at N i0 else tau_at N i0) * smooth_l1 (set2 x b i z b0 i0 - y b0 j))).
    intros j Hj. unfold set2. destruct (Nat.eqb_spec b0 b) as [->|NE]; [destruct (Nat.eqb_spec i0 i) as [->|NE]|]; cbn [andb].
    - apply pair_loss_deriv. pose proof (tau_at_range N i Hi). lra.
    - apply dl_const.
    - apply dl_const. }
  split; [exact D|]. intros FAR.
  match goal with |- derivable_pt_lim _ _ ?l => replace l with (sm N (fun j => (if Rlt_dec (y b j) z then 1 - tau_at N i else tau_at N i) * Rmax (-1) (Rmin 1 (z - y b j))) / (INR B * INR N * INR N)) end; [exact D|].
  rewrite (sm_ext N _ (fun j => (if Rlt_dec (y b j) z then 1 else 0) - tau_at N i)).
  - rewrite sm_minus, sm_const. unfold below. field. lra.
  - intros j Hj. specialize (FAR j Hj). fold (clamp1 (z - y b j)).
    destruct (smooth_l1_cases (z - y b j)) as [(A & _)|[(A & _ & E)|(A & _ & E)]].
    + exfalso. unfold Rabs in FAR. destruct (Rcase_abs (z - y b j)); lra.
    + rewrite E. destruct (Rlt_dec (y b j) z); lra.
    + rewrite E. destruct (Rlt_dec (y b j) z); lra.
Qed.

(** Targets: their mean is the DQN target of the mean values, and they keep the order of the
    quantiles they come from. *)
Theorem quantile_target_mean : forall na N reward gamma absorbing q, (1 <= na)%nat -> (1 <= N)%nat ->
  exists a, (a < na)%nat /\ (forall a', (a' < na)%nat -> sm N (q a') / INR N <= sm N (q a) / INR N) /\
    sm N (quantile_target na N reward gamma absorbing q) / INR N
      = reward + gamma * (if absorbing then 0 else sm N (q a) / INR N) /\
    (absorbing = true -> forall i, quantile_target na N reward gamma absorbing q i = reward) /\
    (0 <= gamma -> forall i j, q a i <= q a j -> quantile_target na N reward gamma absorbing q i <= quantile_target na N reward gamma absorbing q j).
Proof.
  intros na N reward gamma absorbing q Ha HN. unfold quantile_target.
  set (qs := map (fun a => qmean N (q a)) (seq 0 na)). set (a := argmax qs).
  assert (LQ : length qs = na) by (unfold qs; rewrite map_length, seq_length; auto).
  assert (NQ : qs <> []) by (intros E; rewrite E in LQ; simpl in LQ; lia).
  destruct (argmax_spec qs NQ) as [A1 [_ A2]]. fold a in A1, A2. rewrite LQ in A1.
  assert (PN : 0 < INR N) by (apply lt_0_INR; lia).
  exists a. split; auto. split; [|split; [|split]].
  - intros a' Ha'. assert (E : forall k, (k < na)%nat -> nth k qs 0 = sm N (q k) / INR N) by (intros k Hk; unfold qs; rewrite nth_mapseq; auto).
    rewrite <- !E by auto. apply A2. apply nth_In. lia.
  - rewrite sm_plus, sm_const, sm_scal, sm_scal_r. unfold flag. destruct absorbing; field; lra.
  - intros -> i. unfold flag. ring.
  - intros HG i j H. unfold flag. destruct absorbing; nra.
Qed.

(** The levels live on the class: if all quantile agents of a process have the same number of
    quantiles and one of them was constructed, every fit uses the right levels. *)
Theorem quantile_shared_levels : forall es N B x y, (1 <= B)%nat -> (2 <= N)%nat ->
  (forall n, In (Construct n) es -> n = N) -> In (Construct N) es ->
  quantile_fit_loss (cls_after es) B N x y = Some (qr_loss B N (tau_at N) x y).
Proof.
  intros es N B x y HB HN HA HI.
  assert (C : cls_after es = Some N).
  { unfold cls_after. assert (G : forall es c, (forall n, In (Construct n) es -> n = N) -> (c = Some N \/ In (Construct N) es) -> fold_left cls_step es c = Some N).
    { clear. induction es as [|e es IH]; intros c HA H; simpl; [tauto|]. apply IH; [intros; apply HA; right; auto|].
      destruct e as [n|n]; simpl.
      - left. f_equal. apply HA. left. auto.
      - destruct H as [H|[H|H]]; auto. discriminate. }
    apply G; auto. }
  rewrite C, loss_core by auto. f_equal. unfold qr_loss. f_equal.
  apply sm_ext. intros b _. apply sm_ext. intros i _. apply sm_ext. intros j _. unfold tau_of. rewrite eqb1 by auto. reflexivity.
Qed.

(** Otherwise not: constructing another agent with a different number of quantiles breaks every later
    fit of the first one, with one quantile silently (all levels become 1/2), and an agent loaded in
    a fresh process cannot be fitted. *)
Theorem quantile_shared_levels_refuted :
  (forall B N n x y, (1 <= B)%nat -> (2 <= N)%nat -> (2 <= n)%nat -> n <> N ->
     quantile_fit_loss (cls_after [Construct N; Construct n]) B N x y = None) /\
  (forall B N x y, (1 <= B)%nat -> (2 <= N)%nat ->
     quantile_fit_loss (cls_after [Construct N; Construct 1]) B N x y = Some (qr_loss B N (fun _ => 1 / 2) x y)) /\
  (forall B N x y, quantile_fit_loss (cls_after [LoadAgent N]) B N x y = None).
Proof.
  split; [|split].
  - intros. apply loss_mismatch; auto.
  - intros B N x y HB HN. simpl cls_after. unfold cls_after. cbn [fold_left cls_step]. rewrite loss_core by auto. f_equal. unfold qr_loss. f_equal.
    apply sm_ext. intros b _. apply sm_ext. intros i _. apply sm_ext. intros j _. unfold tau_of, tau_at. simpl Nat.eqb. cbv iota. simpl INR. f_equal. lra.
  - reflexivity.
Qed.

(** With one quantile the loss mixes the samples of a batch: here every prediction equals its
    target, and the loss is not zero. *)
Theorem quantile_single_refuted : exists x y L,
  (forall b, (b < 2)%nat -> x b 0%nat = y b 0%nat) /\ quantile_fit_loss (Some 1%nat) 2 1 x y = Some L /\ 0 < L.
Proof.
  set (x := fun b i : nat => INR b). exists x, x. eexists. split; [auto|]. split; [reflexivity|].
  unfold tmean, sm. cbn. unfold smooth_l1, x. simpl. repeat (destruct (Rlt_dec _ _); try lra);
    repeat match goal with H : context [Rabs] |- _ => revert H end; unfold Rabs; repeat destruct (Rcase_abs _); intros; try lra.
Qed.

Example quantile_levels_ex : tau_at 4 0 = 1 / 8 /\ tau_at 4 3 = 7 / 8.
Proof. unfold tau_at. simpl. split; lra. Qed.
(** targets 0 and 10, prediction 4 of level 1/4: half of the targets are below *)
Example quantile_gradient_ex : let x := fun _ i : nat => if Nat.eqb i 0 then 4 else 7 in let y := fun _ j : nat => if Nat.eqb j 0 then 0 else 10 in
  exists L, (forall z, quantile_fit_loss (Some 2%nat) 1 2 (set2 x 0 0 z) y = Some (L z)) /\ derivable_pt_lim L 4 (1 / 8).
Proof.
  intros x y. destruct (quantile_loss_gradient 1 2 x y 0 0) as (L & E & D); [lia..|]. exists L. split; [exact E|].
  destruct (D 4) as [_ D4]. replace (1 / 8) with ((below 2 (y 0%nat) 4 / INR 2 - tau_at 2 0) / (INR 1 * INR 2)).
  - apply D4. intros [|[|j]] Hj; try lia; unfold y; simpl; unfold Rabs; destruct (Rcase_abs _); lra.
  - unfold below, sm, y, tau_at. simpl. destruct (Rlt_dec 0 4), (Rlt_dec 10 4); lra.
Qed.
Example quantile_target_ex : let q := fun a i : nat => INR (a + i) in
  quantile_target 2 2 1 (1 / 2) false q 0 = 3 / 2 /\ quantile_target 2 2 1 (1 / 2) false q 1 = 2 /\ quantile_target 2 2 1 (1 / 2) true q 1 = 1.
Proof.
  intros q. unfold quantile_target, argmax, qmean, sm, q. simpl. destruct (Rlt_dec _ _); simpl; lra.
Qed.

Print Assumptions quantile_levels.
Print Assumptions quantile_loss_value.
Print Assumptions quantile_loss_zero.
Print Assumptions quantile_loss_gradient.
Print Assumptions quantile_target_mean.
Print Assumptions quantile_shared_levels.
Print Assumptions quantile_shared_levels_refuted.
Print Assumptions quantile_single_refuted.

(** Lemmas for the distributional heads. *)
From Coq Require Import List Arith Lia Reals Lra Bool FunctionalExtensionality.
From Verif Require Import Common Mat LqrGrad DqnModel GaussProofs DistModel.
Import ListNotations.
Local Open Scope R_scope.

(** the quantile-regression Huber penalty of one pair *)
Definition pair_loss (tau y x : R) : R := (if Rlt_dec y x then 1 - tau else tau) * smooth_l1 (x - y).
(** its mean over all pairs of a prediction and a target of the same sample *)
Definition qr_loss (B N : nat) (tau : nat -> R) (x y : nat -> nat -> R) : R :=
  sm B (fun b => sm N (fun i => sm N (fun j => pair_loss (tau i) (y b j) (x b i)))) / (INR B * INR N * INR N).

Lemma tau_at_mid : forall n i, (i < n)%nat -> tau_at n i = (2 * INR i + 1) / (2 * INR n).
Proof.
  intros n i H. unfold tau_at. rewrite S_INR. field. apply not_0_INR. lia.
Qed.
Lemma tau_at_range : forall n i, (i < n)%nat -> 0 < tau_at n i < 1.
Proof.
  intros n i H. rewrite tau_at_mid by auto. pose proof (pos_INR i). assert (0 < INR n) by (apply lt_0_INR; lia).
  assert (INR (S i) <= INR n) by (apply le_INR; lia). rewrite S_INR in *.
  split; [apply Rdiv_lt_0_compat; lra|]. apply Rmult_lt_reg_r with (2 * INR n); [lra|]. unfold Rdiv. rewrite Rmult_assoc, Rinv_l by lra. lra.
Qed.

Lemma pair_loss_abs : forall tau y x, 0 <= tau <= 1 ->
  Rabs (tau - (if Rlt_dec (y - x) 0 then 1 else 0)) * smooth_l1 (x - y) = pair_loss tau y x.
Proof.
  intros tau y x H. unfold pair_loss. destruct (Rlt_dec (y - x) 0), (Rlt_dec y x); try lra.
  - rewrite Rabs_left1 by lra. ring.
  - rewrite Rabs_pos_eq by lra. ring.
Qed.

Lemma sm_ext2 : forall n m f g, (forall i j, (i < n)%nat -> (j < m)%nat -> f i j = g i j) -> sm n (fun i => sm m (f i)) = sm n (fun i => sm m (g i)).
Proof. intros. apply sm_ext. intros. apply sm_ext. auto. Qed.

Definition tau_of (n i : nat) : R := tau_at n (if Nat.eqb n 1 then 0%nat else i).

Lemma eqb1 : forall n, (2 <= n)%nat -> Nat.eqb n 1 = false.
Proof. intros. apply Nat.eqb_neq. lia. Qed.
Lemma eqb1' : forall n, (2 <= n)%nat -> Nat.eqb 1 n = false.
Proof. intros. apply Nat.eqb_neq. lia. Qed.

Ltac shapes := repeat (progress (
  cbn [shp dat length Nat.ltb Nat.leb obind tau_hat repeat app Nat.sub map2 last tr unsqueeze_last bop bshape rev option_map tmap tmean repeat_t];
  rewrite ?Nat.mul_1_l, ?Nat.mul_1_r, ?Nat.eqb_refl; rewrite ?eqb1, ?eqb1' by lia)).

Ltac idx := repeat (progress (
  cbn [bindex map2 length Nat.sub skipn unsq nth hd rev app removelast];
  unfold bindex; simpl (Nat.eqb 1 1); cbv iota;
  rewrite ?Nat.mod_1_r; rewrite ?eqb1 by lia; rewrite ?Nat.mod_small by lia)).

Lemma loss_core : forall n B N x y, (1 <= B)%nat -> (2 <= N)%nat -> n = N \/ n = 1%nat ->
  quantile_fit_loss (Some n) B N x y = Some (qr_loss B N (tau_of n) x y).
Proof.
  intros n B N x y HB HN Hn. unfold quantile_fit_loss. cbn [obind]. unfold quantile_huber_loss, quant_acted, quant_targets, squeeze.
  cbn [shp dat filter].
  assert (TR : forall i, (i < N)%nat -> 0 <= tau_of n i <= 1).
  { intros i Hi. unfold tau_of. destruct Hn as [-> | ->].
    - rewrite eqb1 by auto. pose proof (tau_at_range N i Hi). lra.
    - simpl Nat.eqb. cbv iota. pose proof (tau_at_range 1 0 (Nat.lt_0_1)). lra. }
  assert (IN : INR N <> 0) by (apply not_0_INR; lia). assert (IB : INR B <> 0) by (apply not_0_INR; lia).
  assert (SW : forall F : nat -> nat -> nat -> R, sm N (fun j => sm B (fun b => sm N (fun i => F j b i))) = sm B (fun b => sm N (fun i => sm N (fun j => F j b i)))).
  { intros F. rewrite sm_swap. apply sm_ext. intros b Hb. apply sm_swap. }
  destruct (Nat.eq_dec B 1) as [->|NB].
  - simpl Nat.eqb. cbn [negb]. rewrite eqb1 by auto. cbn [negb]. cbn [filter].
    destruct Hn as [-> | ->].
    + unfold repeat_t, unsqueeze_last, bop, tmap. shapes. unfold tmean. cbn [shp dat tsum fold_right]. f_equal.
      rewrite (sm_ext N _ (fun j => INR N * sm 1 (fun b => sm N (fun i => pair_loss (tau_of N i) (y b j) (x b i))))).
      2:{ intros j Hj. rewrite <- sm_const. apply sm_ext. intros k Hk. replace (sm 1 _) with (sm N (fun i => pair_loss (tau_of N i) (y 0%nat j) (x 0%nat i))) by (unfold sm; simpl; ring).
          apply sm_ext. intros i Hi. idx. rewrite <- (pair_loss_abs (tau_of N i)) by auto. unfold tau_of. rewrite eqb1 by auto. reflexivity. }
      rewrite sm_scal, SW. unfold qr_loss. rewrite !mult_INR. simpl (INR 1). field. auto.
    + unfold repeat_t, unsqueeze_last, bop, tmap. shapes. unfold tmean. cbn [shp dat tsum fold_right]. f_equal.
      rewrite (sm_ext N _ (fun j => INR N * sm 1 (fun b => sm N (fun i => pair_loss (tau_of 1 i) (y b j) (x b i))))).
      2:{ intros j Hj. rewrite <- sm_const. apply sm_ext. intros k Hk. replace (sm 1 _) with (sm N (fun i => pair_loss (tau_of 1 i) (y 0%nat j) (x 0%nat i))) by (unfold sm; simpl; ring).
          apply sm_ext. intros i Hi. idx. rewrite <- (pair_loss_abs (tau_of 1 i)) by auto. reflexivity. }
      rewrite sm_scal, SW. unfold qr_loss. rewrite !mult_INR. simpl (INR 1). field. auto.
  - simpl Nat.eqb. cbn [negb]. rewrite !eqb1 by lia. cbn [negb]. cbn [filter].
    destruct Hn as [-> | ->].
    + unfold repeat_t, unsqueeze_last, bop, tmap. shapes. unfold tmean. cbn [shp dat tsum fold_right]. f_equal.
      rewrite (sm_ext N _ (fun j => sm B (fun b => sm N (fun i => pair_loss (tau_of N i) (y b j) (x b i))))).
      2:{ intros j Hj. apply sm_ext. intros b Hb.
          apply sm_ext. intros i Hi. idx. rewrite <- (pair_loss_abs (tau_of N i)) by auto. unfold tau_of. rewrite eqb1 by auto. reflexivity. }
      rewrite SW. unfold qr_loss. rewrite !mult_INR. simpl (INR 1). field. auto.
    + unfold repeat_t, unsqueeze_last, bop, tmap. shapes. unfold tmean. cbn [shp dat tsum fold_right]. f_equal.
      rewrite (sm_ext N _ (fun j => sm B (fun b => sm N (fun i => pair_loss (tau_of 1 i) (y b j) (x b i))))).
      2:{ intros j Hj. apply sm_ext. intros b Hb.
          apply sm_ext. intros i Hi. idx. rewrite <- (pair_loss_abs (tau_of 1 i)) by auto. reflexivity. }
      rewrite SW. unfold qr_loss. rewrite !mult_INR. simpl (INR 1). field. auto.
Qed.

(** a class attribute of another size: the operands do not broadcast *)
Lemma loss_mismatch : forall n B N x y, (1 <= B)%nat -> (2 <= N)%nat -> (2 <= n)%nat -> n <> N ->
  quantile_fit_loss (Some n) B N x y = None.
Proof.
  intros n B N x y HB HN Hn NE. unfold quantile_fit_loss. cbn [obind]. unfold quantile_huber_loss, quant_acted, quant_targets, squeeze.
  cbn [shp dat filter]. assert (E : Nat.eqb n N = false) by (apply Nat.eqb_neq; auto). assert (E' : Nat.eqb N n = false) by (apply Nat.eqb_neq; auto).
  destruct (Nat.eq_dec B 1) as [->|NB].
  - simpl Nat.eqb. cbn [negb]. rewrite eqb1 by auto. cbn [negb filter].
    unfold repeat_t, unsqueeze_last, bop, tmap. shapes. rewrite E. shapes. reflexivity.
  - simpl Nat.eqb. cbn [negb]. rewrite !eqb1 by lia. cbn [negb filter].
    unfold repeat_t, unsqueeze_last, bop, tmap. shapes. rewrite E. shapes. reflexivity.
Qed.

(** * The Huber penalty *)
Definition clamp1 (d : R) : R := Rmax (-1) (Rmin 1 d).
Lemma smooth_l1_nonneg : forall d, 0 <= smooth_l1 d.
Proof. intros d. unfold smooth_l1. destruct (Rlt_dec (Rabs d) 1); [|lra]. pose proof (Rle_0_sqr d). unfold Rsqr in *. lra. Qed.
Lemma smooth_l1_zero : forall d, smooth_l1 d = 0 <-> d = 0.
Proof.
  intros d. unfold smooth_l1. destruct (Rlt_dec (Rabs d) 1); split; intros H.
  - destruct (Req_dec d 0); auto. assert (0 < d * d) by (destruct (Rtotal_order d 0) as [|[|]]; nra). lra.
  - subst. lra.
  - lra.
  - subst. rewrite Rabs_R0 in n. lra.
Qed.

(** the penalty lies between its tangent and the tangent plus half the square of the step *)
Lemma smooth_l1_cases : forall d, (-1 < d < 1 /\ smooth_l1 d = d * d / 2 /\ clamp1 d = d) \/
  (1 <= d /\ smooth_l1 d = d - / 2 /\ clamp1 d = 1) \/ (d <= -1 /\ smooth_l1 d = - d - / 2 /\ clamp1 d = -1).
Proof.
  intros d. unfold smooth_l1, clamp1. destruct (Rlt_dec (Rabs d) 1) as [H|H].
  - apply Rabs_def2 in H. left. split; [lra|]. split; auto. rewrite (Rmin_right 1) by lra. apply Rmax_right. lra.
  - right. unfold Rabs in *. destruct (Rcase_abs d) as [C|C].
    + right. split; [lra|]. split; [lra|]. rewrite (Rmin_right 1) by lra. apply Rmax_left. lra.
    + left. split; [lra|]. split; [lra|]. rewrite (Rmin_left 1) by lra. apply Rmax_right. lra.
Qed.
Lemma smooth_l1_quad : forall d h, 0 <= smooth_l1 (d + h) - smooth_l1 d - clamp1 d * h <= h * h / 2.
Proof.
  intros d h. destruct (smooth_l1_cases d) as [(A & E1 & E2)|[(A & E1 & E2)|(A & E1 & E2)]], (smooth_l1_cases (d + h)) as [(C & F1 & _)|[(C & F1 & _)|(C & F1 & _)]];
    rewrite E1, E2, F1; split; nra.
Qed.

Lemma quad_deriv : forall f t l (c : R) (del : posreal), (forall h, Rabs h < del -> Rabs (f (t + h) - f t - l * h) <= c * (h * h)) -> derivable_pt_lim f t l.
Proof.
  intros f t l c del H eps He.
  assert (Hd : 0 < Rmin del (eps / (Rabs c + 1))).
  { apply Rmin_pos; [apply cond_pos|]. apply Rdiv_lt_0_compat; auto. pose proof (Rabs_pos c). lra. }
  exists (mkposreal _ Hd). intros h Hh Hlt. simpl in Hlt.
  assert (L1 : Rabs h < del) by (eapply Rlt_le_trans; [exact Hlt|apply Rmin_l]).
  assert (L2 : Rabs h < eps / (Rabs c + 1)) by (eapply Rlt_le_trans; [exact Hlt|apply Rmin_r]).
  specialize (H h L1). replace ((f (t + h) - f t) / h - l) with ((f (t + h) - f t - l * h) / h) by (field; auto).
  unfold Rdiv at 1. rewrite Rabs_mult, Rabs_inv. pose proof (Rabs_pos_lt h Hh) as PH. pose proof (Rabs_pos c).
  apply Rmult_lt_reg_r with (Rabs h); auto. rewrite Rmult_assoc, Rinv_l, Rmult_1_r by lra.
  apply Rle_lt_trans with (c * (h * h)); auto. replace (h * h) with (Rabs h * Rabs h) by (unfold Rabs; destruct (Rcase_abs h); ring).
  assert (c <= Rabs c) by apply Rle_abs.
  assert (M : Rabs h * (Rabs c + 1) < eps). { apply Rmult_lt_reg_r with (/ (Rabs c + 1)); [apply Rinv_0_lt_compat; lra|]. rewrite Rmult_assoc, Rinv_r, Rmult_1_r by lra. exact L2. }
  nra.
Qed.

Lemma pair_loss_deriv : forall tau y x, 0 <= tau <= 1 ->
  derivable_pt_lim (fun z => pair_loss tau y z) x ((if Rlt_dec y x then 1 - tau else tau) * clamp1 (x - y)).
Proof.
  intros tau y x H. destruct (Req_dec x y) as [->|NE].
  - apply (quad_deriv _ _ _ 1 (mkposreal 1 Rlt_0_1)). intros h _. unfold pair_loss.
    replace (y - y) with 0 by ring. destruct (smooth_l1_cases 0) as [(A & E1 & E2)|[(A & _)|(A & _)]]; try lra. rewrite E1, E2.
    pose proof (smooth_l1_quad 0 h) as Q. rewrite E1, E2 in Q. replace (y + h - y) with (0 + h) by ring.
    set (w := if Rlt_dec y (y + h) then 1 - tau else tau). assert (0 <= w <= 1) by (unfold w; destruct (Rlt_dec y (y + h)); lra).
    rewrite Rabs_pos_eq by nra. nra.
  - assert (P : 0 < Rabs (x - y)) by (apply Rabs_pos_lt; lra).
    apply (quad_deriv _ _ _ 1 (mkposreal _ P)). simpl. intros h Hh. unfold pair_loss.
    assert (W : (if Rlt_dec y (x + h) then 1 - tau else tau) = (if Rlt_dec y x then 1 - tau else tau)).
    { unfold Rabs in Hh. destruct (Rlt_dec y (x + h)), (Rlt_dec y x); auto; destruct (Rcase_abs h), (Rcase_abs (x - y)); lra. }
    rewrite W. pose proof (smooth_l1_quad (x - y) h) as Q. replace (x + h - y) with (x - y + h) by ring.
    set (w := if Rlt_dec y x then 1 - tau else tau) in *. assert (0 <= w <= 1) by (unfold w; destruct (Rlt_dec y x); lra).
    replace (w * smooth_l1 (x - y + h) - w * smooth_l1 (x - y) - w * clamp1 (x - y) * h) with (w * (smooth_l1 (x - y + h) - smooth_l1 (x - y) - clamp1 (x - y) * h)) by ring.
    rewrite Rabs_pos_eq by nra. nra.
Qed.

(** Lemmas for running statistics, preprocessors, minibatches and angles. *)
From Coq Require Import List Arith Lia Reals Bool Lra Psatz ZArith.
From Verif Require Import Common UtilModel UtilSpec.
Import ListNotations.

Lemma map_nth_in : forall A B (f : A -> B) l i d d', i < length l -> nth i (map f l) d = f (nth i l d').
Proof. intros A B f l. induction l as [|x l IH]; intros [|i] d d' H; simpl in *; try lia; auto. apply IH. lia. Qed.

Lemma rs_n_total : forall amin bs st, rs_n (fold_left (rs_update amin) bs st) = rs_n st + length (concat bs).
Proof. induction bs as [|b bs IH]; intros; simpl; [lia|]. rewrite IH. simpl. rewrite app_length. lia. Qed.

Lemma bmean_mul : forall v, v <> [] -> (INR (length v) * bmean v = rsum v)%R.
Proof. intros v H. unfold bmean. field. apply not_0_INR. destruct v; simpl; [congruence|lia]. Qed.

Lemma rs_mean_inv : forall amin bs st, rs_n st >= 1 -> Forall (fun b => b <> []) bs ->
  (amin * INR (rs_n st + length (concat bs)) <= 1)%R -> (0 <= amin)%R ->
  (INR (rs_n (fold_left (rs_update amin) bs st)) * rs_m (fold_left (rs_update amin) bs st) = INR (rs_n st) * rs_m st + rsum (concat bs))%R.
Proof.
  intros amin bs. induction bs as [|b bs IH]; intros st Hn F HA H0; simpl; [ring|].
  inversion F as [|? ? NE F']; subst. rewrite IH; auto.
  - cbn [rs_n rs_m rs_update]. rewrite rsum_app. 
    assert (L1 : 1 <= length b) by (destruct b; simpl; [congruence|lia]).
    assert (P : (0 < INR (rs_n st + length b))%R) by (apply lt_0_INR; lia).
    assert (M : Rmax (INR (length b) / INR (rs_n st + length b)) amin = (INR (length b) / INR (rs_n st + length b))%R).
    { apply Rmax_left. apply (Rmult_le_reg_r (INR (rs_n st + length b))); auto.
      unfold Rdiv. rewrite Rmult_assoc, Rinv_l by lra. rewrite Rmult_1_r.
      assert (INR (rs_n st + length b) <= INR (rs_n st + length (concat (b :: bs))))%R
        by (apply le_INR; simpl; rewrite app_length; lia).
      assert (1 <= INR (length b))%R by (change 1%R with (INR 1); apply le_INR; auto). nra. }
    unfold rs_update. cbn [rs_n rs_m]. rewrite M. rewrite <- (bmean_mul b NE), plus_INR. field.
    rewrite <- plus_INR. lra.
  - unfold rs_update; cbn [rs_n]. lia.
  - unfold rs_update; cbn [rs_n]. simpl in HA. rewrite app_length in HA.
    replace (rs_n st + length b + length (concat bs)) with (rs_n st + (length b + length (concat bs))) by lia. auto.
Qed.

Lemma fold_setnth : forall (f : nat -> R) mask base, NoDup mask -> (forall i, In i mask -> i < length base) ->
  let o := fold_left (fun o i => setnth o i (f i)) mask base in
  length o = length base /\ forall j, j < length base ->
    (In j mask -> nth j o 0%R = f j) /\ (~ In j mask -> nth j o 0%R = nth j base 0%R).
Proof.
  intros f mask. induction mask as [|i mask IH]; intros base ND R; cbn [fold_left].
  - split; auto. intros; split; [intros []|auto].
  - inversion ND as [|? ? NI ND']; subst. destruct (IH (setnth base i (f i))) as [A B]; auto.
    { intros j Hj. rewrite setnth_length. apply R. simpl; auto. }
    rewrite setnth_length in A, B. split; auto. intros j Hj. destruct (B j Hj) as [B1 B2]. split.
    + intros [->|I]; [|auto]. rewrite B2 by auto. apply nth_setnth_eq; auto.
    + intros N. rewrite B2 by (intros I; apply N; simpl; auto). apply nth_setnth_neq. intros ->. apply N. simpl; auto.
Qed.

Lemma mm_indices_In : forall bs i, In i (mm_indices bs) <-> i < length bs /\ nth i bs None <> None.
Proof.
  intros. unfold mm_indices. rewrite filter_In, in_seq. unfold bounded. destruct (nth i bs None) eqn:E.
  - split; intros [A B]; split; auto; try lia; discriminate.
  - split; [intros [A B]; discriminate|intros [A B]; congruence].
Qed.

Lemma mm_indices_NoDup : forall bs, NoDup (mm_indices bs).
Proof. intros. apply NoDup_filter, seq_NoDup. Qed.

Lemma slice_step : forall A (l : list A) m b size, length l = size -> 1 <= b ->
  firstn (m * b) l ++ slice (m * b) (Nat.min size ((m + 1) * b)) l = firstn ((m + 1) * b) l.
Proof.
  intros A l m b size L Hb. unfold slice.
  destruct (le_lt_dec size (m * b)) as [G|G].
  - rewrite (skipn_all2 l) by lia. rewrite firstn_nil, app_nil_r. rewrite !firstn_all2 by nia. reflexivity.
  - rewrite <- (firstn_skipn (m * b) l) at 3. rewrite firstn_app, firstn_firstn, firstn_length, L.
    replace (Nat.min ((m + 1) * b) (m * b)) with (m * b) by nia. f_equal.
    replace (Nat.min (m * b) size) with (m * b) by lia.
    destruct (le_lt_dec size ((m + 1) * b)) as [G'|G'].
    + rewrite !firstn_all2; auto; rewrite skipn_length; lia.
    + f_equal. lia.
Qed.

Lemma chunks_concat : forall A (l : list A) b size m, length l = size -> 1 <= b ->
  concat (map (fun i => slice (i * b) (Nat.min size ((i + 1) * b)) l) (seq 0 m)) = firstn (m * b) l.
Proof.
  intros A l b size m L Hb. induction m as [|m IH]; [reflexivity|].
  rewrite seq_S, map_app, concat_app, IH. cbn [map concat plus]. rewrite app_nil_r, slice_step by auto.
  f_equal. lia.
Qed.

Lemma number_bound : forall size b, 1 <= b -> size <= minibatch_number size b * b /\ (minibatch_number size b * b < size + b).
Proof.
  intros size b Hb. unfold minibatch_number. pose proof (Nat.div_mod (size + b - 1) b ltac:(lia)).
  pose proof (Nat.mod_upper_bound (size + b - 1) b ltac:(lia)). nia.
Qed.

(** Angles. *)
Lemma Int_part_bounds : forall z, (IZR (Int_part z) <= z < IZR (Int_part z) + 1)%R.
Proof. intros. destruct (base_Int_part z). lra. Qed.

Lemma fmod_spec : forall x y, (0 < y)%R ->
  (exists k : Z, x = IZR k * y + fmod x y)%R /\
  ((0 <= x)%R -> (0 <= fmod x y < y)%R) /\ ((x < 0)%R -> (- y < fmod x y <= 0)%R).
Proof.
  intros x y Hy. unfold fmod, trunc. split; [exists (if Rle_dec 0 (x / y) then Int_part (x / y) else (- Int_part (- (x / y)))%Z); ring|].
  assert (E : (x = x / y * y)%R) by (field; lra). set (z := (x / y)%R) in *. clearbody z. split; intros H.
  - assert (0 <= z)%R by nra. destruct (Rle_dec 0 z); [|contradiction].
    pose proof (Int_part_bounds z). rewrite E. nra.
  - assert (z < 0)%R by nra. destruct (Rle_dec 0 z); [lra|].
    pose proof (Int_part_bounds (- z)). rewrite opp_IZR. rewrite E. nra.
Qed.

Lemma norm_pos_spec : forall a, (0 <= normalize_angle_positive a < 2 * PI)%R /\ same_angle a (normalize_angle_positive a).
Proof.
  intros a. pose proof PI_RGT_0. assert (P : (0 < 2 * PI)%R) by lra. unfold normalize_angle_positive.
  destruct (fmod_spec a (2 * PI) P) as ((k1 & E1) & A1 & B1). set (f := fmod a (2 * PI)) in *.
  assert (F : (- (2 * PI) < f < 2 * PI)%R) by (destruct (Rle_dec 0 a); [specialize (A1 r)|specialize (B1 ltac:(lra))]; lra).
  destruct (fmod_spec (f + 2 * PI) (2 * PI) P) as ((k2 & E2) & A2 & _). set (g := fmod (f + 2 * PI) (2 * PI)) in *.
  specialize (A2 ltac:(lra)). split; auto. exists (k1 + k2 - 1)%Z. rewrite minus_IZR, plus_IZR. lra.
Qed.

Lemma same_angle_close : forall a b c, same_angle a b -> same_angle a c -> (Rabs (b - c) < 2 * PI)%R -> b = c.
Proof.
  intros a b c (k & K) (j & J) H. pose proof PI_RGT_0.
  assert (E : (b - c = IZR (j - k) * (2 * PI))%R) by (rewrite minus_IZR; lra).
  assert (Z : (j - k = 0)%Z).
  { destruct (Z.eq_dec (j - k) 0) as [|N]; auto. exfalso. rewrite E, Rabs_mult, (Rabs_right (2 * PI)) in H by lra.
    assert (1 <= Rabs (IZR (j - k)))%R; [|nra].
    rewrite <- abs_IZR. apply IZR_le. lia. }
  rewrite Z in E. lra.
Qed.

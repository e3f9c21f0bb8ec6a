(** Theorems about the dueling, noisy and categorical network heads (C79). *)
From Coq Require Import List Arith Lia Reals Lra Bool FunctionalExtensionality.
From Verif Require Import Common Mat LqrGrad DqnModel DqnSpec DqnProofs GaussProofs DistModel DistProofs.
Import ListNotations.
Local Open Scope R_scope.

(** * Dueling networks *)
(** The mean of the action values is the value head, so that the advantage head is identified up to
    a constant; differences of action values, hence the greedy action, are those of the advantages,
    and shifting all advantages changes nothing. *)
Theorem dueling_identifiable : forall na v adv, (1 <= na)%nat ->
  sm na (dueling_q na v adv) / INR na = v /\
  (forall a b, dueling_q na v adv a - dueling_q na v adv b = adv a - adv b) /\
  (forall c a, dueling_q na v (fun a => adv a + c) a = dueling_q na v adv a) /\
  (forall v' adv', (forall a, (a < na)%nat -> dueling_q na v adv a = dueling_q na v' adv' a) ->
     v = v' /\ forall a b, (a < na)%nat -> (b < na)%nat -> adv a - adv b = adv' a - adv' b).
Proof.
  intros na v adv H. assert (P : 0 < INR na) by (apply lt_0_INR; lia).
  assert (M : forall v adv, sm na (dueling_q na v adv) / INR na = v).
  { intros v0 a0. unfold dueling_q. rewrite sm_minus, sm_plus, !sm_const. field. lra. }
  split; [apply M|]. split; [|split].
  - intros. unfold dueling_q. ring.
  - intros c a. unfold dueling_q. rewrite sm_plus, sm_const. field. lra.
  - intros v' adv' E. split.
    + rewrite <- (M v adv), <- (M v' adv'). f_equal. apply sm_ext. auto.
    + intros a b Ha Hb. pose proof (E a Ha). pose proof (E b Hb). unfold dueling_q in *. lra.
Qed.

(** * Noisy layers *)
Lemma noise_nonneg : forall x, 0 <= x -> noise x = sqrt x.
Proof.
  intros x H. unfold noise. rewrite Rabs_pos_eq by auto. destruct (Rlt_dec 0 x); [ring|]. destruct (Rlt_dec x 0); [lra|].
  replace x with 0 by lra. rewrite sqrt_0. ring.
Qed.
Lemma sqrt_unit : forall x, 0 <= x < 1 -> 0 <= sqrt x < 1.
Proof. intros x H. split; [apply sqrt_pos|]. rewrite <- sqrt_1. apply sqrt_lt_1; lra. Qed.

(** torch.rand draws from [0, 1): every noisy weight and bias lies between its mean and its mean
    plus sigma; with sigma zero the layer is the mean layer. *)
Theorem noisy_range : forall ni muw sw mub sb eo ei x,
  (forall o, 0 <= eo o < 1) -> (forall i, 0 <= ei i < 1) ->
  (forall o i, exists t, 0 <= t < 1 /\ noisy_weight muw sw eo ei o i = muw o i + t * sw o i) /\
  (forall o, exists t, 0 <= t < 1 /\ noisy_bias mub sb eo o = mub o + t * sb o) /\
  ((forall o i, sw o i = 0) -> (forall o, sb o = 0) -> forall o, noisy_linear ni muw sw mub sb eo ei x o = linear ni muw mub x o).
Proof.
  intros ni muw sw mub sb eo ei x Ho Hi. split; [|split].
  - intros o i. exists (sqrt (eo o) * sqrt (ei i)). pose proof (sqrt_unit _ (Ho o)). pose proof (sqrt_unit _ (Hi i)). split; [nra|].
    unfold noisy_weight. rewrite !noise_nonneg by (apply Ho || apply Hi). ring.
  - intros o. exists (sqrt (eo o)). split; [apply sqrt_unit; auto|]. unfold noisy_bias. rewrite noise_nonneg by apply Ho. ring.
  - intros Z1 Z2 o. unfold noisy_linear, linear, noisy_weight, noisy_bias. rewrite Z2. f_equal; [|ring].
    apply sm_ext. intros i _. rewrite Z1. ring.
Qed.

(** Consequently the noise is not centred: on non-negative features (as after a ReLU) with
    non-negative sigma (their initial value is positive) no draw ever lowers an output below the
    one of the mean layer, and a draw with a positive output noise raises it when the bias sigma is positive. *)
Theorem noisy_centred_refuted : forall ni muw sw mub sb eo ei x o,
  (forall o, 0 <= eo o < 1) -> (forall i, 0 <= ei i < 1) ->
  (forall o i, 0 <= sw o i) -> (forall o, 0 < sb o) -> (forall i, 0 <= x i) ->
  linear ni muw mub x o <= noisy_linear ni muw sw mub sb eo ei x o /\
  (0 < eo o -> linear ni muw mub x o < noisy_linear ni muw sw mub sb eo ei x o).
Proof.
  intros ni muw sw mub sb eo ei x o Ho Hi Hw Hb Hx.
  assert (W : sm ni (fun i => x i * muw o i) <= sm ni (fun i => x i * noisy_weight muw sw eo ei o i)).
  { apply sm_le. intros i _. unfold noisy_weight. rewrite !noise_nonneg by (apply Ho || apply Hi).
    pose proof (sqrt_pos (eo o)). pose proof (sqrt_pos (ei i)). specialize (Hx i). specialize (Hw o i).
    assert (0 <= x i * (sw o i * (sqrt (eo o) * sqrt (ei i)))) by (repeat apply Rmult_le_pos; auto). nra. }
  unfold noisy_linear, linear, noisy_bias. rewrite noise_nonneg by apply Ho. specialize (Hb o). split.
  - pose proof (Rmult_le_pos _ _ (Rlt_le _ _ Hb) (sqrt_pos (eo o))). lra.
  - intros P. pose proof (Rmult_lt_0_compat _ _ Hb (sqrt_lt_R0 _ P)). lra.
Qed.

(** * Categorical heads *)
Lemma softmax_den : forall n l, (1 <= n)%nat -> 0 < sm n (fun j => exp (l j)).
Proof.
  intros n l H. destruct n; [lia|]. rewrite sm_S. assert (0 <= sm n (fun j => exp (l j))) by (apply sm_nonneg; intros; left; apply exp_pos).
  pose proof (exp_pos (l n)). lra.
Qed.
Lemma softmax_pos : forall n l i, (1 <= n)%nat -> 0 < softmax n l i.
Proof. intros. unfold softmax. apply Rdiv_lt_0_compat; [apply exp_pos|apply softmax_den; auto]. Qed.
Lemma softmax_sum : forall n l, (1 <= n)%nat -> sm n (softmax n l) = 1.
Proof.
  intros n l H. unfold softmax, Rdiv. rewrite sm_scal_r. pose proof (softmax_den n l H). field. lra.
Qed.

(** The distribution head gives a probability distribution over the atoms whatever the logits, so the
    action values of CategoricalDQN and Rainbow are defined and stay within [v_min, v_max]. *)
Theorem categorical_q_range : forall n vmin vmax eps logits, (2 <= n)%nat -> vmin < vmax -> 0 < eps <= delta n vmin vmax ->
  (forall i, 0 < softmax n logits i) /\ sm n (softmax n logits) = 1 /\
  exists q, categorical_q n vmin vmax eps logits = Some q /\ vmin <= q <= vmax.
Proof.
  intros n vmin vmax eps logits Hn HV He. split; [intros; apply softmax_pos; lia|]. split; [apply softmax_sum; lia|].
  unfold categorical_q. rewrite (atoms_spec n vmin vmax Hn HV eps He), map_length, seq_length, Nat.eqb_refl. eexists. split; [reflexivity|].
  assert (I1 : 1 < INR n) by (apply (lt_INR 1); lia).
  assert (A : forall i, (i < n)%nat -> vmin <= nth i (map (atom n vmin vmax) (seq 0 n)) 0 <= vmax).
  { intros i Hi. rewrite nth_mapseq by auto. unfold atom. rewrite minus_INR by lia. simpl (INR 1).
    assert (0 <= INR i) by apply pos_INR. assert (INR (S i) <= INR n) by (apply le_INR; lia). rewrite S_INR in *.
    assert (E : (vmax - vmin) / (INR n - 1) * (INR n - 1) = vmax - vmin) by (field; lra).
    assert (0 < (vmax - vmin) / (INR n - 1)) by (apply Rdiv_lt_0_compat; lra). nra. }
  assert (S1 := softmax_sum n logits ltac:(lia)). split.
  - apply Rle_trans with (sm n (fun i => softmax n logits i * vmin)); [rewrite sm_scal_r, S1; lra|].
    apply sm_le. intros i Hi. apply Rmult_le_compat_l; [left; apply softmax_pos; lia|]. apply A. auto.
  - apply Rle_trans with (sm n (fun i => softmax n logits i * vmax)); [|rewrite sm_scal_r, S1; lra].
    apply sm_le. intros i Hi. apply Rmult_le_compat_l; [left; apply softmax_pos; lia|]. apply A. auto.
Qed.

(** Rainbow's dueling logits: adding to the advantage logits of all actions an amount per atom, or to one
    action's logits an amount per action, leaves every distribution unchanged, and the average logit over the
    actions is the value stream. *)
Theorem rainbow_dueling : forall na n pv pa, (1 <= na)%nat -> (1 <= n)%nat ->
  (forall c a i, rainbow_logits na pv (fun a i => pa a i + c i) a i = rainbow_logits na pv pa a i) /\
  (forall c a i, softmax n (rainbow_logits na pv (fun a i => pa a i + c a) a) i = softmax n (rainbow_logits na pv pa a) i) /\
  (forall i, sm na (fun a => rainbow_logits na pv pa a i) / INR na = pv i).
Proof.
  intros na n pv pa Hna Hn. assert (P : 0 < INR na) by (apply lt_0_INR; lia). split; [|split].
  - intros c a i. unfold rainbow_logits. rewrite sm_plus, sm_const. field. lra.
  - intros c a i. set (k := c a - sm na c / INR na).
    assert (E : rainbow_logits na pv (fun a i => pa a i + c a) a = fun i => rainbow_logits na pv pa a i + k).
    { apply functional_extensionality. intros j. unfold rainbow_logits, k. rewrite sm_plus. field. lra. }
    rewrite E. unfold softmax. rewrite (sm_ext n (fun j => exp (rainbow_logits na pv pa a j + k)) (fun j => exp (rainbow_logits na pv pa a j) * exp k)) by (intros; apply exp_plus).
    rewrite exp_plus, sm_scal_r. pose proof (softmax_den n (rainbow_logits na pv pa a) Hn). pose proof (exp_pos k). field. lra.
  - intros i. unfold rainbow_logits. rewrite sm_minus, sm_plus, !sm_const. field. lra.
Qed.

(** The cross-entropy loss: the derivative with respect to logit k, when no probability sits exactly
    on the clamp. Probabilities below the clamp pass no gradient. *)
Definition setv (l : vec) (k : nat) (z : R) : vec := fun i => if Nat.eqb i k then z else l i.
Definition live (p : R) : R := if Rlt_dec (/ 10 ^ 5) p then 1 else 0.
Lemma softmax_deriv : forall n l k i, (1 <= n)%nat -> (k < n)%nat -> 
  derivable_pt_lim (fun z => softmax n (setv l k z) i) (l k) (softmax n l i * ((if Nat.eqb i k then 1 else 0) - softmax n l k)).
Proof.
  intros n l k i Hn Hk. unfold softmax.
  assert (SK : forall i, setv l k (l k) i = l i) by (intros j; unfold setv; destruct (Nat.eqb_spec j k); congruence).
  assert (D1 : forall j, derivable_pt_lim (fun z => exp (setv l k z j)) (l k) (exp (l j) * (if Nat.eqb j k then 1 else 0))).
  { intros j. eapply dl_eq; [apply (dl_exp (fun z => setv l k z j) (l k) (if Nat.eqb j k then 1 else 0))|reflexivity|cbv beta; rewrite SK; reflexivity].
    unfold setv. destruct (Nat.eqb j k); [apply dl_id|apply dl_const]. }
  pose proof (softmax_den n l Hn) as P.
  eapply dl_eq; [apply (dl_div (fun z => exp (setv l k z i)) (fun z => sm n (fun j => exp (setv l k z j))) (l k) _ _ (D1 i) (sm_derivable n (fun j z => exp (setv l k z j)) _ (l k) (fun j _ => D1 j)))| |].
  - rewrite (sm_ext n _ (fun j => exp (l j))) by (intros; rewrite SK; auto). lra.
  - reflexivity.
  - cbv beta. rewrite (sm_ext n (fun j => exp (setv l k (l k) j)) (fun j => exp (l j))) by (intros; rewrite SK; auto). rewrite SK.
    rewrite (sm_single n k (fun j => exp (l j) * _)); auto.
    + rewrite Nat.eqb_refl. unfold Rsqr. field. lra.
    + intros j _ NE. replace (Nat.eqb j k) with false by (symmetry; apply Nat.eqb_neq; auto). ring.
Qed.

Lemma lnmax_deriv : forall f t f' c, 0 < c -> derivable_pt_lim f t f' -> f t <> c ->
  derivable_pt_lim (fun u => ln (Rmax (f u) c)) t (if Rlt_dec c (f t) then / f t * f' else 0).
Proof.
  intros f t f' c Hc D NE.
  assert (CT : continuity_pt f t) by (apply derivable_continuous_pt; exists f'; exact D).
  destruct (Rlt_dec c (f t)) as [L|L].
  - assert (DL : derivable_pt_lim (fun u => ln (f u)) t (/ f t * f')) by (apply dl_ln; auto; lra).
    destruct (CT (f t - c) ltac:(lra)) as (a & Ha & Hc2). intros eps He. destruct (DL eps He) as [d Hd].
    assert (PM : 0 < Rmin d a) by (apply Rmin_pos; [apply cond_pos|auto]). exists (mkposreal _ PM). intros h Hh Hlt. simpl in Hlt.
    assert (V : c < f (t + h)).
    { specialize (Hc2 (t + h)). unfold D_x, no_cond, dist in Hc2. simpl in Hc2. unfold R_dist in Hc2.
      assert (Q : Rabs (f (t + h) - f t) < f t - c).
      { apply Hc2. split; [split; [exact Logic.I|lra]|]. replace (t + h - t) with h by ring. eapply Rlt_le_trans; [exact Hlt|apply Rmin_r]. }
      apply Rabs_def2 in Q. lra. }
    rewrite (Rmax_left (f (t + h))), (Rmax_left (f t)) by lra. apply Hd; auto. eapply Rlt_le_trans; [exact Hlt|apply Rmin_l].
  - destruct (CT (c - f t) ltac:(lra)) as (a & Ha & Hc2). intros eps He. exists (mkposreal _ Ha). intros h Hh Hlt. simpl in Hlt.
    assert (V : f (t + h) < c).
    { specialize (Hc2 (t + h)). unfold D_x, no_cond, dist in Hc2. simpl in Hc2. unfold R_dist in Hc2.
      assert (Q : Rabs (f (t + h) - f t) < c - f t).
      { apply Hc2. split; [split; [exact Logic.I|lra]|]. replace (t + h - t) with h by ring. exact Hlt. }
      apply Rabs_def2 in Q. lra. }
    rewrite (Rmax_right (f (t + h))), (Rmax_right (f t)) by lra. replace ((ln c - ln c) / h - 0) with 0 by (field; auto). rewrite Rabs_R0. auto.
Qed.

Theorem categorical_loss_gradient : forall n l m k, (1 <= n)%nat -> (k < n)%nat ->
  (forall i, (i < n)%nat -> softmax n l i <> / 10 ^ 5) ->
  derivable_pt_lim (fun z => categorical_loss n (softmax n (setv l k z)) m) (l k)
    (softmax n l k * sm n (fun i => live (softmax n l i) * m i) - live (softmax n l k) * m k) /\
  (sm n m = 1 -> (forall i, (i < n)%nat -> / 10 ^ 5 < softmax n l i) ->
   derivable_pt_lim (fun z => categorical_loss n (softmax n (setv l k z)) m) (l k) (softmax n l k - m k)).
Proof.
  intros n l m k Hn Hk NC. assert (Hc : 0 < / 10 ^ 5) by (apply Rinv_0_lt_compat; apply pow_lt; lra).
  assert (SK : softmax n (setv l k (l k)) = softmax n l).
  { f_equal. apply functional_extensionality. intros j. unfold setv. destruct (Nat.eqb_spec j k); congruence. }
  assert (D : derivable_pt_lim (fun z => categorical_loss n (softmax n (setv l k z)) m) (l k)
    (softmax n l k * sm n (fun i => live (softmax n l i) * m i) - live (softmax n l k) * m k)).
  { unfold categorical_loss. remember (/ 10 ^ 5) as c eqn:EC.
    eapply dl_eq; [apply (dl_opp (fun z => sm n (fun i => m i * ln (Rmax (softmax n (setv l k z) i) c))));
      apply (sm_derivable n (fun i z => m i * ln (Rmax (softmax n (setv l k z) i) c))); intros i Hi; apply dl_scal; apply (lnmax_deriv (fun z => softmax n (setv l k z) i)); [exact Hc|apply softmax_deriv; auto|rewrite SK; auto]| |].
    - reflexivity.
    - cbv beta. rewrite SK. rewrite (sm_ext n _ (fun i => (if Nat.eqb i k then live (softmax n l i) * m i else 0) - softmax n l k * (live (softmax n l i) * m i))).
      + rewrite sm_minus, sm_scal. rewrite (sm_single n k); auto.
        * rewrite Nat.eqb_refl. ring.
        * intros j _ NE. replace (Nat.eqb j k) with false by (symmetry; apply Nat.eqb_neq; auto). reflexivity.
      + intros i Hi. unfold live. rewrite <- EC. pose proof (softmax_pos n l i Hn). destruct (Rlt_dec c (softmax n l i)), (Nat.eqb i k); field; lra. }
  split; [exact D|]. intros SM LV.
  assert (LE : forall i, (i < n)%nat -> live (softmax n l i) = 1).
  { intros i Hi. unfold live. destruct (Rlt_dec (/ 10 ^ 5) (softmax n l i)) as [|Q]; auto. exfalso. apply Q. auto. }
  rewrite (sm_ext n _ m) in D by (intros i Hi; rewrite LE by auto; ring). rewrite SM, LE in D by auto.
  eapply dl_eq; [exact D|reflexivity|ring].
Qed.

(** A prediction that gives the target atom less than the clamp gets no gradient at all: the loss is
    positive and flat, so it cannot be unlearned from this sample. *)
Theorem categorical_loss_stuck_refuted : exists l m, sm 2 m = 1 /\ (forall i, 0 <= m i) /\
  0 < categorical_loss 2 (softmax 2 l) m /\
  forall k, (k < 2)%nat -> derivable_pt_lim (fun z => categorical_loss 2 (softmax 2 (setv l k z)) m) (l k) 0.
Proof.
  assert (C5 : / 10 ^ 5 = / 100000) by (f_equal; simpl; ring).
  set (l := fun i : nat => if Nat.eqb i 0 then 0 else ln 1000000). set (m := fun i : nat => if Nat.eqb i 0 then 1 else 0).
  assert (P0 : softmax 2 l 0%nat = / 1000001). { unfold softmax, l, sm. simpl rsum. simpl Nat.eqb. cbv iota. rewrite exp_0, exp_ln by lra. field. }
  assert (P1 : softmax 2 l 1%nat = 1000000 / 1000001). { unfold softmax, l, sm. simpl rsum. simpl Nat.eqb. cbv iota. rewrite exp_0, exp_ln by lra. field. }
  exists l, m. split; [unfold sm, m; simpl; ring|]. split; [intros i; unfold m; destruct (Nat.eqb i 0); lra|]. split.
  - unfold categorical_loss. rewrite C5. unfold sm. cbn [seq map rsum fold_right]. rewrite P0, P1. unfold m. simpl Nat.eqb. cbv iota.
    rewrite Rmax_right by lra. assert (ln (/ 100000) < 0) by (rewrite <- ln_1; apply ln_increasing; lra).
    simpl. lra.
  - intros k Hk. destruct (categorical_loss_gradient 2 l m k) as [D _]; [lia|auto| |].
    + rewrite C5. intros [|[|i]] Hi; try lia; [rewrite P0|rewrite P1]; lra.
    + eapply dl_eq; [exact D|reflexivity|]. unfold live. rewrite C5. unfold sm. cbn [seq map]. rewrite P0, P1. unfold m.
      destruct k as [|[|k]]; try lia; rewrite ?P0, ?P1; simpl; repeat destruct (Rlt_dec _ _); lra.
Qed.

Example dueling_ex : dueling_q 3 5 (fun a => INR a) 2%nat = 6 /\ dueling_q 3 5 (fun a => INR a) 0%nat = 4.
Proof. unfold dueling_q, sm. simpl. lra. Qed.
Example noisy_ex : noisy_linear 1 (fun _ _ => 1) (fun _ _ => 2) (fun _ => 0) (fun _ => 4) (fun _ => / 4) (fun _ => / 4) (fun _ => 3) 0%nat = 13 / 2.
Proof.
  unfold noisy_linear, linear, noisy_weight, noisy_bias, sm. rewrite !noise_nonneg by lra.
  replace (sqrt (/ 4)) with (/ 2) by (symmetry; apply sqrt_lem_1; lra). simpl. lra.
Qed.
Example categorical_q_ex : categorical_q 3 (-1) 1 (/ 100) (fun _ => 0) = Some 0.
Proof.
  unfold categorical_q. rewrite (atoms_spec 3 (-1) 1) by (try lia; try lra; unfold delta; simpl; lra). simpl length. rewrite Nat.eqb_refl.
  f_equal. unfold softmax, sm, atom, delta. simpl. rewrite exp_0. field.
Qed.
Example categorical_gradient_ex : derivable_pt_lim (fun z => categorical_loss 2 (softmax 2 (setv (fun _ => 0) 0%nat z)) (fun i => if Nat.eqb i 0 then 1 else 0)) 0 (- (1 / 2)).
Proof.
  assert (C5 : / 10 ^ 5 = / 100000) by (f_equal; simpl; ring).
  assert (P : forall i, softmax 2 (fun _ => 0) i = / 2) by (intros; unfold softmax, sm; simpl; rewrite exp_0; field).
  destruct (categorical_loss_gradient 2 (fun _ => 0) (fun i => if Nat.eqb i 0 then 1 else 0) 0%nat) as [_ D]; [lia|lia|intros; rewrite P, C5; lra|].
  eapply dl_eq; [apply D|reflexivity|].
  - unfold sm. simpl. ring.
  - intros. rewrite P, C5. lra.
  - rewrite P. simpl. lra.
Qed.

Print Assumptions dueling_identifiable.
Print Assumptions noisy_range.
Print Assumptions noisy_centred_refuted.
Print Assumptions categorical_q_range.
Print Assumptions rainbow_dueling.
Print Assumptions categorical_loss_gradient.
Print Assumptions categorical_loss_stuck_refuted.

(** Lemmas for ConstrainedREPS. *)
From Coq Require Import List Bool Arith Lia Reals Lra FunctionalExtensionality.
From Verif Require Import Common Mat GaussModel GaussProofs BboProps ConRepsModel ConRepsSpec.
Import ListNotations.
Local Open Scope R_scope.

(** * Minima of convex functions of one variable with a continuous subgradient *)
Lemma slope_min : forall (g b : R -> R) lb x d, lb <= x -> 0 < d ->
  (forall u v, lb <= u -> lb <= v -> Rabs (u - x) < d -> Rabs (v - x) < d -> g v + (u - v) * b v <= g u) ->
  (forall y, lb <= y -> Rabs (y - x) < d -> g x <= g y) ->
  continuity_pt b x -> 0 <= b x /\ (lb < x -> b x = 0).
Proof.
  intros g b lb x d Hl Hd Sub Min C.
  assert (X0 : Rabs (x - x) < d) by (rewrite Rminus_diag_eq by reflexivity; rewrite Rabs_R0; auto).
  assert (M : forall y, lb <= y -> Rabs (y - x) < d -> 0 <= (y - x) * b y).
  { intros y Hy Hyd. pose proof (Sub x y Hl Hy X0 Hyd). pose proof (Min y Hy Hyd). nra. }
  assert (NN : 0 <= b x).
  { destruct (Rle_lt_dec 0 (b x)) as [|Neg]; auto. exfalso. destruct (C (- b x) ltac:(lra)) as (e & Pe & He).
    set (h := Rmin (e / 2) (d / 2)). assert (0 < h) by (apply Rmin_glb_lt; lra). assert (h <= e / 2) by apply Rmin_l. assert (h <= d / 2) by apply Rmin_r.
    assert (X : R_dist (b (x + h)) (b x) < - b x).
    { apply He. split; [split; [exact Logic.I|lra]|]. simpl. unfold R_dist. rewrite Rabs_right; lra. }
    unfold R_dist in X. apply Rabs_def2 in X. assert (Y : Rabs (x + h - x) < d) by (rewrite Rabs_right; lra).
    pose proof (M (x + h) ltac:(lra) Y). assert (0 < (x + h - x) * - b (x + h)) by (apply Rmult_lt_0_compat; lra). lra. }
  split; auto. intros Lt. destruct (Rle_lt_dec (b x) 0) as [|Pos]; [lra|]. exfalso. destruct (C (b x) ltac:(lra)) as (e & Pe & He).
  set (h := Rmin (Rmin (e / 2) (d / 2)) (x - lb)). assert (0 < h) by (repeat apply Rmin_glb_lt; lra).
  assert (h <= Rmin (e / 2) (d / 2)) by apply Rmin_l. assert (Rmin (e / 2) (d / 2) <= e / 2) by apply Rmin_l.
  assert (Rmin (e / 2) (d / 2) <= d / 2) by apply Rmin_r. assert (h <= x - lb) by apply Rmin_r.
  assert (X : R_dist (b (x - h)) (b x) < b x).
  { apply He. split; [split; [exact Logic.I|lra]|]. simpl. unfold R_dist. rewrite Rabs_left; lra. }
  unfold R_dist in X. apply Rabs_def2 in X. assert (Y : Rabs (x - h - x) < d) by (rewrite Rabs_left; lra).
  pose proof (M (x - h) ltac:(lra) Y). assert (0 < (x - (x - h)) * b (x - h)) by (apply Rmult_lt_0_compat; lra). lra.
Qed.
(** Squeezed between two continuous functions *)
Lemma squeeze : forall (f lo hi : R -> R) x d, 0 < d -> (forall y, Rabs (y - x) < d -> lo y <= f y <= hi y) ->
  lo x = f x -> hi x = f x -> continuity_pt lo x -> continuity_pt hi x -> continuity_pt f x.
Proof.
  intros f lo hi x d Hd S E1 E2 C1 C2 e He. destruct (C1 e He) as (d1 & P1 & H1). destruct (C2 e He) as (d2 & P2 & H2).
  exists (Rmin d (Rmin d1 d2)). split; [repeat apply Rmin_glb_lt; auto|]. intros y [Dy Hy]. simpl in *. unfold R_dist in *.
  assert (Rabs (y - x) < d) by (eapply Rlt_le_trans; [exact Hy|apply Rmin_l]).
  assert (Rabs (y - x) < d1) by (eapply Rlt_le_trans; [exact Hy|eapply Rle_trans; [apply Rmin_r|apply Rmin_l]]).
  assert (Rabs (y - x) < d2) by (eapply Rlt_le_trans; [exact Hy|eapply Rle_trans; [apply Rmin_r|apply Rmin_r]]).
  specialize (H1 y (conj Dy H0)). specialize (H2 y (conj Dy H3)). apply Rabs_def2 in H1. apply Rabs_def2 in H2.
  destruct (S y H). apply Rabs_def1; lra.
Qed.
(** Continuity in the form of functions of one variable *)
Lemma c_id : forall x, continuity_pt (fun y => y) x.
Proof. intros x. apply derivable_continuous_pt, derivable_pt_id. Qed.
Lemma c_const : forall c x, continuity_pt (fun _ => c) x.
Proof. intros c x. apply derivable_continuous_pt, derivable_pt_const. Qed.
Lemma c_plus : forall f g x, continuity_pt f x -> continuity_pt g x -> continuity_pt (fun y => f y + g y) x.
Proof. intros. apply (continuity_pt_plus f g); auto. Qed.
Lemma c_minus : forall f g x, continuity_pt f x -> continuity_pt g x -> continuity_pt (fun y => f y - g y) x.
Proof. intros. apply (continuity_pt_minus f g); auto. Qed.
Lemma c_mult : forall f g x, continuity_pt f x -> continuity_pt g x -> continuity_pt (fun y => f y * g y) x.
Proof. intros. apply (continuity_pt_mult f g); auto. Qed.
Lemma c_inv : forall f x, continuity_pt f x -> f x <> 0 -> continuity_pt (fun y => / f y) x.
Proof. intros. apply (continuity_pt_inv f); auto. Qed.
Lemma c_div : forall f g x, continuity_pt f x -> continuity_pt g x -> g x <> 0 -> continuity_pt (fun y => f y / g y) x.
Proof. intros. unfold Rdiv. apply c_mult; auto. apply c_inv; auto. Qed.
Lemma c_pow2 : forall f x, continuity_pt f x -> continuity_pt (fun y => f y ^ 2) x.
Proof. intros f x C. simpl. apply c_mult; auto. apply c_mult; auto. apply c_const. Qed.
Lemma c_ln : forall f x, continuity_pt f x -> 0 < f x -> continuity_pt (fun y => ln (f y)) x.
Proof.
  intros f x C P. apply (continuity_pt_comp f ln); auto. apply derivable_continuous_pt. exists (/ f x). apply derivable_pt_lim_ln. auto.
Qed.
Lemma c_abs : forall f x, continuity_pt f x -> continuity_pt (fun y => Rabs (f y)) x.
Proof. intros f x C. apply (continuity_pt_comp f Rabs); auto. apply Rcontinuity_abs. Qed.
Lemma c_sm : forall n (f : nat -> R -> R) x, (forall i, (i < n)%nat -> continuity_pt (f i) x) -> continuity_pt (fun y => sm n (fun i => f i y)) x.
Proof.
  induction n; intros f x H.
  - change (continuity_pt (fun _ : R => 0) x). apply c_const.
  - replace (fun y => sm (S n) (fun i => f i y)) with (fun y => sm n (fun i => f i y) + f n y) by (apply functional_extensionality; intros; rewrite sm_S; reflexivity).
    apply c_plus; [apply IHn; intros; apply H; lia|apply H; lia].
Qed.
(** equal near the point *)
Lemma c_near : forall (f g : R -> R) x d, 0 < d -> (forall y, Rabs (y - x) < d -> f y = g y) -> continuity_pt f x -> continuity_pt g x.
Proof.
  intros f g x d Hd E C. assert (Rabs (x - x) < d) by (rewrite Rminus_diag_eq by reflexivity; rewrite Rabs_R0; auto).
  apply (squeeze g f f x d); auto. intros y Hy. rewrite (E y Hy). lra.
Qed.

(** * The fixed covariance *)
Lemma gd_kl_cont : forall n N w theta mu sigma S ld eta, sm N w + eta <> 0 ->
  continuity_pt (fun e => kl_constraint n mu (con_mu N w theta mu e) sigma S ld ld) eta.
Proof.
  intros n N w theta mu sigma S ld eta H.
  assert (Cm : forall k, continuity_pt (fun e => con_mu N w theta mu e k) eta).
  { intros k. unfold con_mu. apply c_div; [apply c_plus; [apply c_const|apply c_mult; [apply c_id|apply c_const]]|apply c_plus; [apply c_const|apply c_id]|exact H]. }
  unfold kl_constraint. apply c_mult; [apply c_const|]. apply c_plus; [apply c_const|].
  unfold dot, mv, vsub. apply (c_sm n (fun i e => (con_mu N w theta mu e i - mu i) * sm n (fun j => S i j * (con_mu N w theta mu e j - mu j)))).
  intros i Hi. apply c_mult; [apply c_minus; [apply Cm|apply c_const]|].
  apply (c_sm n (fun j e => S i j * (con_mu N w theta mu e j - mu j))). intros j Hj. apply c_mult; [apply c_const|]. apply c_minus; [apply Cm|apply c_const].
Qed.

(** * Diagonal covariance *)
Lemma sqdev_pos : forall N w theta mu std eta k m, (forall i, (i < N)%nat -> 0 <= w i) -> 0 < eta -> std k <> 0 -> 0 < sqdev N w theta mu std eta k m.
Proof.
  intros N w theta mu std eta k m Hw He Hs. unfold sqdev. pose proof (sq_pos _ Hs).
  assert (0 <= sm N (fun i => w i * (theta i k - m) ^ 2)) by (apply sm_nonneg; intros; apply Rmult_le_pos; [auto|apply pow2_ge_0]).
  pose proof (pow2_ge_0 (m - mu k)). nra.
Qed.
Lemma con_std_sq : forall N w theta mu std eta omg k, (forall i, (i < N)%nat -> 0 <= w i) -> 0 < eta -> 0 < sm N w + eta - omg -> std k <> 0 ->
  con_std N w theta mu std eta omg k ^ 2 = sqdev N w theta mu std eta k (con_mu N w theta mu eta k) / (sm N w + eta - omg) /\
  0 < con_std N w theta mu std eta omg k.
Proof.
  intros N w theta mu std eta omg k Hw He HB Hs. pose proof (sqdev_pos N w theta mu std eta k (con_mu N w theta mu eta k) Hw He Hs) as P.
  assert (Q : 0 < sqdev N w theta mu std eta k (con_mu N w theta mu eta k) / (sm N w + eta - omg)) by (apply Rmult_lt_0_compat; [auto|apply Rinv_0_lt_compat; auto]).
  unfold con_std. cbv zeta. fold (sqdev N w theta mu std eta k (con_mu N w theta mu eta k)).
  split; [apply pow2_sqrt; lra|apply sqrt_lt_R0; auto].
Qed.
Lemma diag_kl_form : forall n mu std m s,
  diag_kl n mu std m s = / 2 * (sm n (fun k => std k ^ 2 / s k ^ 2) - INR n + sm n (fun k => ln (s k ^ 2)) - sm n (fun k => ln (std k ^ 2))
    + sm n (fun k => (m k - mu k) ^ 2 / s k ^ 2)).
Proof.
  intros. unfold diag_kl, kl_constraint. rewrite trace_diagm, quad_diagm.
  rewrite (sm_ext n (fun k => / s k ^ 2 * std k ^ 2) (fun k => std k ^ 2 / s k ^ 2)) by (intros; unfold Rdiv; ring).
  rewrite (sm_ext n (fun k => / s k ^ 2 * (vsub m mu k * vsub m mu k)) (fun k => (m k - mu k) ^ 2 / s k ^ 2)) by (intros; unfold Rdiv, vsub; ring).
  reflexivity.
Qed.
Section Diag.
Variables (n N : nat) (w : vec) (theta : nat -> vec) (mu std : vec) (eta omg : R).
Hypothesis Hw : forall i, (i < N)%nat -> 0 <= w i.
Hypothesis He : 0 < eta.
Hypothesis HB : 0 < sm N w + eta - omg.
Hypothesis Hs : forall k, (k < n)%nat -> std k <> 0.
Let W := sm N w.
Lemma W_pos : 0 <= W.
Proof. apply sm_nonneg; auto. Qed.
Definition var_at (e o : R) (k : nat) : R := sqdev N w theta mu std e k (con_mu N w theta mu e k) / (W + e - o).
Lemma con_mu_cont : forall k, continuity_pt (fun e => con_mu N w theta mu e k) eta.
Proof.
  intros k. pose proof W_pos. unfold con_mu. apply c_div; [apply c_plus; [apply c_const|apply c_mult; [apply c_id|apply c_const]]|apply c_plus; [apply c_const|apply c_id]|]. fold W. lra.
Qed.
Lemma var_cont_eta : forall k, continuity_pt (fun e => var_at e omg k) eta.
Proof.
  intros k. unfold var_at, sqdev. apply c_div.
  - apply c_plus; [apply c_plus|].
    + apply (c_sm N (fun i e => w i * (theta i k - con_mu N w theta mu e k) ^ 2)). intros i Hi. apply c_mult; [apply c_const|]. apply c_pow2, c_minus; [apply c_const|apply con_mu_cont].
    + apply c_mult; [apply c_id|apply c_const].
    + apply c_mult; [apply c_id|]. apply c_pow2, c_minus; [apply con_mu_cont|apply c_const].
  - apply c_minus; [apply c_plus; [apply c_const|apply c_id]|apply c_const].
  - fold W in HB. lra.
Qed.
Lemma var_pos : forall k, (k < n)%nat -> 0 < var_at eta omg k.
Proof. intros k Hk. unfold var_at. apply Rmult_lt_0_compat; [apply sqdev_pos; auto|apply Rinv_0_lt_compat; auto]. Qed.
Lemma diag_kl_cont : continuity_pt (fun e => diag_kl n mu std (con_mu N w theta mu e) (con_std N w theta mu std e omg)) eta.
Proof.
  set (d := Rmin (eta / 2) ((W + eta - omg) / 2)). assert (Hd : 0 < d) by (apply Rmin_glb_lt; fold W in HB; lra).
  assert (d <= eta / 2) by apply Rmin_l. assert (d <= (W + eta - omg) / 2) by apply Rmin_r.
  apply (c_near (fun e => / 2 * (sm n (fun k => std k ^ 2 / var_at e omg k) - INR n + sm n (fun k => ln (var_at e omg k)) - sm n (fun k => ln (std k ^ 2))
    + sm n (fun k => (con_mu N w theta mu e k - mu k) ^ 2 / var_at e omg k))) _ eta d Hd).
  - intros y Hy. apply Rabs_def2 in Hy. rewrite diag_kl_form.
    assert (E : forall k, (k < n)%nat -> con_std N w theta mu std y omg k ^ 2 = var_at y omg k) by (intros k Hk; apply con_std_sq; auto; fold W; fold W in HB; lra).
    rewrite (sm_ext n (fun k => std k ^ 2 / con_std N w theta mu std y omg k ^ 2) (fun k => std k ^ 2 / var_at y omg k)) by (intros; rewrite E by auto; reflexivity).
    rewrite (sm_ext n (fun k => ln (con_std N w theta mu std y omg k ^ 2)) (fun k => ln (var_at y omg k))) by (intros; rewrite E by auto; reflexivity).
    rewrite (sm_ext n (fun k => (con_mu N w theta mu y k - mu k) ^ 2 / con_std N w theta mu std y omg k ^ 2) (fun k => (con_mu N w theta mu y k - mu k) ^ 2 / var_at y omg k)) by (intros; rewrite E by auto; reflexivity).
    reflexivity.
  - apply c_mult; [apply c_const|]. apply c_plus; [apply c_minus; [apply c_plus; [apply c_minus|]|]|].
    + apply (c_sm n (fun k e => std k ^ 2 / var_at e omg k)). intros k Hk. pose proof (var_pos k Hk). apply c_div; [apply c_const|apply var_cont_eta|lra].
    + apply c_const.
    + apply (c_sm n (fun k e => ln (var_at e omg k))). intros k Hk. apply c_ln; [apply var_cont_eta|apply var_pos; auto].
    + apply c_const.
    + apply (c_sm n (fun k e => (con_mu N w theta mu e k - mu k) ^ 2 / var_at e omg k)). intros k Hk. pose proof (var_pos k Hk).
      apply c_div; [apply c_pow2, c_minus; [apply con_mu_cont|apply c_const]|apply var_cont_eta|lra].
Qed.
Lemma diag_entropy_cont : continuity_pt (fun o => diag_entropy n (con_std N w theta mu std eta o)) omg.
Proof.
  set (d := (W + eta - omg) / 2). assert (Hd : 0 < d) by (unfold d; fold W in HB; lra).
  apply (c_near (fun o => / 2 * (sm n (fun k => ln (var_at eta o k)) + INR n * ln (2 * PI) + INR n)) _ omg d Hd).
  - intros y Hy. apply Rabs_def2 in Hy. unfold d in Hy. unfold diag_entropy, entropy. f_equal. f_equal. f_equal. apply sm_ext. intros k Hk. f_equal.
    symmetry. apply con_std_sq; auto. fold W. fold W in HB. lra.
  - apply c_mult; [apply c_const|]. apply c_plus; [apply c_plus|]; try apply c_const.
    apply (c_sm n (fun k o => ln (var_at eta o k))). intros k Hk. apply c_ln; [|apply var_pos; auto].
    unfold var_at. apply c_div; [apply c_const|apply c_minus; [apply c_const|apply c_id]|]. fold W in HB. lra.
Qed.
End Diag.

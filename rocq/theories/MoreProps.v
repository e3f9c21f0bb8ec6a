(** MORE: the dual function and the closed-form update belong together, and the update keeps the divergence and the entropy bounds (C99). *)
From Coq Require Import Reals Lra Lia List FunctionalExtensionality.
From Verif Require Import Common Mat GaussModel GaussProofs RepsProps MoreModel.
Local Open Scope R_scope.

(** the quadratic model of the return that was fitted *)
Definition surrogate (n : nat) (Rm : mat) (r : vec) (r0 : R) (x : vec) : R := dot n x (mv n Rm x) + dot n x r + r0.

Section More.
Variable n : nat.
Variable slog : mat -> R.
(** contract of slogdet: the log-determinant of a multiple *)
Hypothesis slog_scal : forall c X, 0 < c -> slog (mscal c X) = INR n * ln c + slog X.
Variables Q Qi Rm : mat.
Variables b r : vec.
Variables r0 eps beta : R.
Hypothesis Qi_sym : forall i j, (i < n)%nat -> (j < n)%nat -> Qi i j = Qi j i.
Hypothesis Rm_sym : forall i j, (i < n)%nat -> (j < n)%nat -> Rm i j = Rm j i.
(** [F eta]: the inverse taken by the code for this multiplier *)
Variable F : R -> mat.
Notation inv_of eta := (forall i j, (i < n)%nat -> (j < n)%nat -> mm n (more_M Qi Rm eta) (F eta) i j = eye i j).
Notation dual eta omg := (more_dual n slog Q Qi (F eta) b r r0 eps beta eta omg).
(** log densities of the old distribution and of the one the update moves to; [more_M / (eta + omg)] is the inverse of the new
    covariance, see [more_precision] *)
Definition lq (x : vec) : R := logpdf n b Qi (slog Q) x.
Definition lnew (eta omg : R) (x : vec) : R :=
  logpdf n (more_mu n (F eta) Qi b r eta) (mscal (/ (eta + omg)) (more_M Qi Rm eta)) (slog (more_sigma (F eta) eta omg)) x.

Lemma more_precision : forall eta omg, 0 < eta + omg -> inv_of eta ->
  forall i j, (i < n)%nat -> (j < n)%nat -> mm n (mscal (/ (eta + omg)) (more_M Qi Rm eta)) (more_sigma (F eta) eta omg) i j = eye i j.
Proof.
  intros eta omg Hk I i j Hi Hj. rewrite <- (I i j Hi Hj). unfold mm, more_sigma, mscal. apply sm_ext. intros l Hl. field. lra.
Qed.
Lemma more_M_sym : forall eta i j, (i < n)%nat -> (j < n)%nat -> more_M Qi Rm eta i j = more_M Qi Rm eta j i.
Proof. intros. unfold more_M, msub, mscal. rewrite (Qi_sym i j), (Rm_sym i j) by auto. reflexivity. Qed.
Lemma quad_sub : forall S u v, (forall i j, (i < n)%nat -> (j < n)%nat -> S i j = S j i) ->
  dot n (vsub u v) (mv n S (vsub u v)) = dot n u (mv n S u) - 2 * dot n u (mv n S v) + dot n v (mv n S v).
Proof.
  intros S u v Hs. replace (vsub u v) with (vadd u (vscal (-1) v)) by (apply functional_extensionality; intros; unfold vsub, vadd, vscal; ring).
  rewrite (quad_add n S u (vscal (-1) v) Hs), quad_neg, mv_scal, dot_scal_r. ring.
Qed.

(** The new density is the old one raised to eta / (eta + omg), times the exponential of the surrogate over eta + omg, normalised; and the
    normalisation constant is what the dual function adds to eta * eps - omg * beta. *)
Theorem more_density : forall eta omg x, 0 < eta + omg -> inv_of eta ->
  (eta + omg) * lnew eta omg x = eta * lq x + surrogate n Rm r r0 x - (dual eta omg + / 2 * r0 - eta * eps + omg * beta).
Proof.
  intros eta omg x Hk I. unfold lnew, lq, logpdf, more_dual, surrogate. cbv zeta.
  set (M := more_M Qi Rm eta). set (f := more_f n Qi b r eta). set (mu := more_mu n (F eta) Qi b r eta).
  assert (MF : forall i, (i < n)%nat -> mv n M mu i = f i).
  { intros i Hi. unfold mu, more_mu. fold f. rewrite <- mv_mm. rewrite <- (mv_eye n f i Hi). apply mv_ext; auto. }
  assert (Q1 : dot n (vsub x mu) (mv n (mscal (/ (eta + omg)) M) (vsub x mu)) =
               / (eta + omg) * (eta * dot n x (mv n Qi x) - 2 * dot n x (mv n Rm x) - 2 * (eta * dot n x (mv n Qi b) + dot n x r) + dot n f (mv n (F eta) f))).
  { rewrite mv_mscal, dot_scal_r. f_equal. rewrite (quad_sub M x mu (more_M_sym eta)).
    rewrite (dot_ext n x (mv n M mu) x f), (dot_ext n mu (mv n M mu) mu f) by auto.
    rewrite (dot_comm n mu f). change mu with (mv n (F eta) f). unfold f at 1. unfold more_f. rewrite dot_add_r, mv_mscal, dot_scal_r.
    unfold M, more_M. rewrite mv_msub, dot_sub_r, !mv_mscal, !dot_scal_r. ring. }
  rewrite Q1, (quad_sub Qi x b Qi_sym).
  assert (PI2 : 0 < 2 * PI) by (pose proof PI_RGT_0; lra).
  rewrite !slog_scal by (try apply Rmult_lt_0_compat; lra). unfold more_sigma. rewrite slog_scal by lra. rewrite (ln_mult (2 * PI) (eta + omg)) by lra. field. lra.
Qed.

(** [E] is the expectation over the parameters under some distribution with log density [lp] *)
Section Expectation.
Variable E : (vec -> R) -> R.
Variable lp : vec -> R.
Hypothesis E_add : forall f g, E (fun x => f x + g x) = E f + E g.
Hypothesis E_scal : forall c f, E (fun x => c * f x) = c * E f.
Hypothesis E_one : E (fun _ => 1) = 1.
Definition kl_to (l : vec -> R) : R := E (fun x => lp x - l x).
Definition ent : R := - E lp.
(** surrogate return with multipliers for the divergence from the old distribution and for the entropy *)
Definition lagrangian (eta omg : R) : R := E (surrogate n Rm r r0) + eta * (eps - kl_to lq) + omg * (ent - beta).
Lemma more_lagrangian : forall eta omg, 0 < eta + omg -> inv_of eta ->
  lagrangian eta omg = dual eta omg + / 2 * r0 - (eta + omg) * kl_to (lnew eta omg).
Proof.
  intros eta omg Hk I. unfold lagrangian, ent, kl_to.
  assert (Ext : forall f g, (forall x, f x = g x) -> E f = E g) by (intros f g H; f_equal; apply functional_extensionality; exact H).
  assert (Sub : forall f g, E (fun x => f x - g x) = E f - E g).
  { intros f g. rewrite (Ext _ (fun x => f x + -1 * g x)) by (intros; ring). rewrite E_add, E_scal. ring. }
  assert (K : E (fun x => (eta + omg) * lnew eta omg x) = eta * E lq + E (surrogate n Rm r r0) - (dual eta omg + / 2 * r0 - eta * eps + omg * beta)).
  { set (c := dual eta omg + / 2 * r0 - eta * eps + omg * beta).
    rewrite (Ext _ (fun x => (eta * lq x + surrogate n Rm r r0 x) - c * 1)) by (intros x; rewrite (more_density eta omg x Hk I); unfold c; ring).
    rewrite Sub, E_add, !E_scal, E_one. ring. }
  rewrite E_scal in K. rewrite !Sub. set (el := E (lnew eta omg)) in *. replace ((eta + omg) * (E lp - el)) with ((eta + omg) * E lp - (eta + omg) * el) by ring. rewrite K. ring.
Qed.
(** Weak duality: whatever the distribution, if it stays within eps of the old one and keeps entropy beta, its expected surrogate return is
    below the dual value, for all positive multipliers. The dual of the code lacks half of the constant r0. *)
Theorem more_weak_duality : forall eta omg, 0 <= eta -> 0 <= omg -> 0 < eta + omg -> inv_of eta -> 0 <= kl_to (lnew eta omg) ->
  kl_to lq <= eps -> beta <= ent -> E (surrogate n Rm r r0) <= dual eta omg + / 2 * r0.
Proof.
  intros eta omg He Ho Hk I G K H. pose proof (more_lagrangian eta omg Hk I) as L. unfold lagrangian in L.
  assert (0 <= eta * (eps - kl_to lq)) by (apply Rmult_le_pos; lra). assert (0 <= omg * (ent - beta)) by (apply Rmult_le_pos; lra).
  assert (0 <= (eta + omg) * kl_to (lnew eta omg)) by (apply Rmult_le_pos; lra). lra.
Qed.
(** and the new distribution attains the Lagrangian bound *)
Theorem more_attained : forall eta omg, 0 < eta + omg -> inv_of eta -> (forall x, lp x = lnew eta omg x) -> lagrangian eta omg = dual eta omg + / 2 * r0.
Proof.
  intros eta omg Hk I H. rewrite (more_lagrangian eta omg Hk I). assert (Z : kl_to (lnew eta omg) = 0).
  { unfold kl_to. replace (fun x => lp x - lnew eta omg x) with (fun x : vec => 0 * (1 : R)) by (apply functional_extensionality; intros; rewrite H; ring). rewrite (E_scal 0 (fun _ => 1)). ring. }
  rewrite Z. ring.
Qed.
End Expectation.

(** [E eta omg] is the expectation under the distribution the update would move to for these multipliers *)
Variable E : R -> R -> (vec -> R) -> R.
Hypothesis E_add : forall eta omg f g, E eta omg (fun x => f x + g x) = E eta omg f + E eta omg g.
Hypothesis E_scal : forall eta omg c f, E eta omg (fun x => c * f x) = c * E eta omg f.
Hypothesis E_one : forall eta omg, E eta omg (fun _ => 1) = 1.
Variable lb : R.
Hypothesis lb_pos : 0 < lb.
Hypothesis F_inv : forall eta, lb <= eta -> inv_of eta.
(** divergences between these distributions are not negative *)
Hypothesis gibbs : forall eta omg eta' omg', lb <= eta -> lb <= omg -> lb <= eta' -> lb <= omg' -> 0 <= kl_to (E eta omg) (lnew eta omg) (lnew eta' omg').
Definition kl_new (eta omg : R) : R := kl_to (E eta omg) (lnew eta omg) lq.
Definition ent_new (eta omg : R) : R := ent (E eta omg) (lnew eta omg).
(** the multipliers found by the optimiser: a minimum of the dual within the bounds *)
Definition optimal (eta omg : R) : Prop := lb <= eta /\ lb <= omg /\ forall eta' omg', lb <= eta' -> lb <= omg' -> dual eta omg <= dual eta' omg'.

Lemma more_subgradient : forall eta omg eta' omg', lb <= eta -> lb <= omg -> lb <= eta' -> lb <= omg' ->
  dual eta' omg' - dual eta omg <= (eta' - eta) * (eps - kl_new eta' omg') + (omg' - omg) * (ent_new eta' omg' - beta).
Proof.
  intros eta omg eta' omg' H1 H2 H3 H4.
  pose proof (more_attained (E eta' omg') (lnew eta' omg') (E_add eta' omg') (E_scal eta' omg') (E_one eta' omg') eta' omg' ltac:(lra) (F_inv eta' H3) (fun x => eq_refl)) as A.
  pose proof (more_lagrangian (E eta' omg') (lnew eta' omg') (E_add eta' omg') (E_scal eta' omg') (E_one eta' omg') eta omg ltac:(lra) (F_inv eta H1)) as B.
  pose proof (gibbs eta' omg' eta omg H3 H4 H1 H2) as G. assert (0 <= (eta + omg) * kl_to (E eta' omg') (lnew eta' omg') (lnew eta omg)) by (apply Rmult_le_pos; lra).
  unfold lagrangian in A, B. unfold kl_new, ent_new. lra.
Qed.
(** The bounds of the update: with the optimal multipliers the divergence from the old distribution is at most eps and the entropy at
    least beta, provided that both change continuously with the multipliers. *)
Theorem more_bounds : forall eta omg, optimal eta omg ->
  (forall eta', eta < eta' -> kl_new eta' omg <= eps) /\ (forall omg', omg < omg' -> beta <= ent_new eta omg') /\
  (continuity_pt (fun e => kl_new e omg) eta -> kl_new eta omg <= eps) /\
  (continuity_pt (fun o => ent_new eta o) omg -> beta <= ent_new eta omg).
Proof.
  intros eta omg (H1 & H2 & Opt).
  assert (A : forall eta', eta < eta' -> kl_new eta' omg <= eps).
  { intros eta' L. pose proof (more_subgradient eta omg eta' omg H1 H2 ltac:(lra) H2) as S. specialize (Opt eta' omg ltac:(lra) H2).
    assert (P : 0 <= (eta' - eta) * (eps - kl_new eta' omg)) by lra. destruct (Rle_lt_dec (kl_new eta' omg) eps) as [Q0|Q0]; [exact Q0|exfalso].
    assert (0 < (eta' - eta) * (kl_new eta' omg - eps)) by (apply Rmult_lt_0_compat; lra). lra. }
  assert (B : forall omg', omg < omg' -> beta <= ent_new eta omg').
  { intros omg' L. pose proof (more_subgradient eta omg eta omg' H1 H2 H1 ltac:(lra)) as S. specialize (Opt eta omg' H1 ltac:(lra)).
    assert (P : 0 <= (omg' - omg) * (ent_new eta omg' - beta)) by lra. destruct (Rle_lt_dec beta (ent_new eta omg')) as [Q0|Q0]; [exact Q0|exfalso].
    assert (0 < (omg' - omg) * (beta - ent_new eta omg')) by (apply Rmult_lt_0_compat; lra). lra. }
  split; [exact A|]. split; [exact B|]. split.
  - intros C. destruct (Rle_lt_dec (kl_new eta omg) eps) as [Q0|Q0]; [exact Q0|exfalso].
    destruct (C (kl_new eta omg - eps)) as (d & Pd & Hd); [lra|]. specialize (Hd (eta + d / 2)). specialize (A (eta + d / 2) ltac:(lra)).
    assert (X : R_dist (kl_new (eta + d / 2) omg) (kl_new eta omg) < kl_new eta omg - eps).
    { apply Hd. split; [split; [exact Logic.I|lra]|]. simpl. unfold R_dist. rewrite Rabs_right; lra. }
    unfold R_dist in X. apply Rabs_def2 in X. lra.
  - intros C. destruct (Rle_lt_dec beta (ent_new eta omg)) as [Q0|Q0]; [exact Q0|exfalso].
    destruct (C (beta - ent_new eta omg)) as (d & Pd & Hd); [lra|]. specialize (Hd (omg + d / 2)). specialize (B (omg + d / 2) ltac:(lra)).
    assert (X : R_dist (ent_new eta (omg + d / 2)) (ent_new eta omg) < beta - ent_new eta omg).
    { apply Hd. split; [split; [exact Logic.I|lra]|]. simpl. unfold R_dist. rewrite Rabs_right; lra. }
    unfold R_dist in X. apply Rabs_def2 in X. lra.
Qed.
(** A bound that is not at its limit is active: if the divergence multiplier is above its lower bound, smaller multipliers would break
    the divergence bound. *)
Theorem more_active : forall eta omg, optimal eta omg ->
  (forall eta', lb <= eta' < eta -> eps <= kl_new eta' omg) /\ (forall omg', lb <= omg' < omg -> ent_new eta omg' <= beta).
Proof.
  intros eta omg (H1 & H2 & Opt). split.
  - intros eta' L. pose proof (more_subgradient eta omg eta' omg H1 H2 ltac:(lra) H2) as S. specialize (Opt eta' omg ltac:(lra) H2).
    assert (P : 0 <= (eta' - eta) * (eps - kl_new eta' omg)) by lra. destruct (Rle_lt_dec eps (kl_new eta' omg)) as [Q0|Q0]; [exact Q0|exfalso].
    assert (0 < (eta - eta') * (eps - kl_new eta' omg)) by (apply Rmult_lt_0_compat; lra). lra.
  - intros omg' L. pose proof (more_subgradient eta omg eta omg' H1 H2 H1 ltac:(lra)) as S. specialize (Opt eta omg' H1 ltac:(lra)).
    assert (P : 0 <= (omg' - omg) * (ent_new eta omg' - beta)) by lra. destruct (Rle_lt_dec (ent_new eta omg') beta) as [Q0|Q0]; [exact Q0|exfalso].
    assert (0 < (omg - omg') * (ent_new eta omg' - beta)) by (apply Rmult_lt_0_compat; lra). lra.
Qed.
End More.

(** One dimension, unit variance, mean 0, surrogate - x^2 / 2 + 3 x, both multipliers one: new mean 3/2, new variance 1, and the dual value. *)
Example more_one : let one : mat := fun _ _ => 1 in let F : mat := fun _ _ => / 2 in
  mm 1 (more_M one (fun _ _ => - / 2) 1) F 0%nat 0%nat = eye 0%nat 0%nat /\
  more_mu 1 F one (fun _ => 0) (fun _ => 3) 1 0%nat = 3 / 2 /\ more_sigma F 1 1 0%nat 0%nat = 1 /\
  more_dual 1 (fun X => ln (X 0%nat 0%nat)) one one F (fun _ => 0) (fun _ => 3) 0 (/ 2) 1 1 1 = 7 / 4 + / 2 * ln (2 * PI).
Proof.
  cbv zeta. unfold more_mu, more_sigma, more_dual, more_f, more_M, mm, mv, dot, mscal, msub, vadd, eye, sm. simpl. cbv zeta.
  repeat split; try lra. replace (2 * PI * (1 + 1) * / 2) with (2 * PI) by field. replace (2 * PI * 1) with (2 * PI) by ring. field.
Qed.
Print Assumptions more_density.
Print Assumptions more_weak_duality.
Print Assumptions more_attained.
Print Assumptions more_bounds.
Print Assumptions more_active.

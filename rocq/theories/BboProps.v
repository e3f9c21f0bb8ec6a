(** Properties C51 (weighted maximum-likelihood updates) and C52 (MORE), and the gradient
    estimate of PGPE. *)
From Coq Require Import List Arith Lia Reals Lra FunctionalExtensionality.
From Verif Require Import Common Mat LqrGrad GaussModel GaussProofs.
Import ListNotations.
Local Open Scope R_scope.

(** * Maximum *)
Lemma vmax_S : forall n f, (1 <= n)%nat -> vmax (S n) f = Rmax (vmax n f) (f n).
Proof. intros [|n] f H; [lia|reflexivity]. Qed.
Lemma vmax_ge : forall n f i, (i < n)%nat -> f i <= vmax n f.
Proof.
  induction n; intros f i Hi; [lia|]. destruct n as [|n].
  - assert (i = 0%nat) as -> by lia. simpl. lra.
  - rewrite vmax_S by lia. destruct (Nat.eq_dec i (S n)) as [->|NE]; [apply Rmax_r|]. eapply Rle_trans; [apply IHn; lia|apply Rmax_l].
Qed.
Lemma vmax_in : forall n f, (1 <= n)%nat -> exists i, (i < n)%nat /\ vmax n f = f i.
Proof.
  induction n; intros f Hn; [lia|]. destruct n as [|n]; [exists 0%nat; split; [lia|reflexivity]|].
  destruct (IHn f) as [i [Hi E]]; [lia|]. rewrite vmax_S by lia. unfold Rmax. destruct (Rle_dec (vmax (S n) f) (f (S n))).
  - exists (S n). split; [lia|auto].
  - exists i. split; [lia|auto].
Qed.
Lemma vmax_shift : forall n f c, vmax n (fun i => f i + c) = vmax n f + c.
Proof.
  induction n; intros; [reflexivity|]. destruct n as [|n]; [reflexivity|]. rewrite (vmax_S (S n) f), vmax_S by lia. rewrite IHn. cbv beta.
  generalize (vmax (S n) f) (f (S n)). intros a b. unfold Rmax. destruct (Rle_dec (a + c) (b + c)); destruct (Rle_dec a b); lra.
Qed.

(** * C51: the weights *)
Theorem rwr_weights_spec : forall N beta J, 0 <= beta -> (1 <= N)%nat ->
  (forall i, (i < N)%nat -> 0 < rwr_weights N beta J i <= 1) /\
  (exists i, (i < N)%nat /\ J i = vmax N J /\ rwr_weights N beta J i = 1) /\
  (forall i j, (i < N)%nat -> (j < N)%nat -> J i <= J j -> rwr_weights N beta J i <= rwr_weights N beta J j) /\
  (forall c i, (i < N)%nat -> rwr_weights N beta (fun k => J k + c) i = rwr_weights N beta J i).
Proof.
  intros N beta J Hb HN.
  assert (M : forall a b, a <= b -> exp (beta * (a - vmax N J)) <= exp (beta * (b - vmax N J))).
  { intros a b H. destruct (Req_dec (beta * (a - vmax N J)) (beta * (b - vmax N J))) as [->|NE]; [lra|]. left. apply exp_increasing. nra. }
  destruct (vmax_in N J HN) as [m [Hm Em]].
  assert (E1 : exp (beta * (vmax N J - vmax N J)) = 1) by (rewrite Rminus_diag_eq, Rmult_0_r by reflexivity; apply exp_0).
  split; [|split; [|split]]; unfold rwr_weights.
  - intros i Hi. split; [apply exp_pos|]. rewrite <- E1. apply M. apply vmax_ge. auto.
  - exists m. rewrite <- Em. auto.
  - intros. apply M. auto.
  - intros. rewrite vmax_shift. f_equal. ring.
Qed.

Theorem reps_weights_spec : forall N eta J, 0 < eta -> (1 <= N)%nat ->
  (forall i, (i < N)%nat -> 0 < reps_weights N eta J i <= 1) /\
  (exists i, (i < N)%nat /\ J i = vmax N J /\ reps_weights N eta J i = 1) /\
  (forall i j, (i < N)%nat -> (j < N)%nat -> J i <= J j -> reps_weights N eta J i <= reps_weights N eta J j) /\
  (forall c i, (i < N)%nat -> reps_weights N eta (fun k => J k + c) i = reps_weights N eta J i).
Proof.
  intros N eta J He HN. assert (0 <= / eta) by (left; apply Rinv_0_lt_compat; auto).
  assert (E : forall J, reps_weights N eta J = rwr_weights N (/ eta) J) by (intros; apply functional_extensionality; intros; unfold reps_weights, rwr_weights; f_equal; unfold Rdiv; ring).
  destruct (rwr_weights_spec N (/ eta) J H HN) as [A [B [C D]]]. split; [|split; [|split]]; intros; rewrite ?E; auto.
Qed.

(** * C51: the means are convex combinations *)
Theorem mle_mean_hull : forall N w theta, (forall i, (i < N)%nat -> 0 <= w i) -> 0 < sm N w ->
  exists p : vec, (forall i, (i < N)%nat -> 0 <= p i) /\ sm N p = 1 /\ forall k, mle_mu N w theta k = sm N (fun i => p i * theta i k).
Proof.
  intros N w theta Hw HW. exists (fun i => w i / sm N w). split; [|split].
  - intros i Hi. apply Rmult_le_pos; [auto|left; apply Rinv_0_lt_compat; auto].
  - unfold Rdiv. rewrite sm_scal_r. field. lra.
  - intros k. unfold mle_mu, Rdiv. rewrite <- sm_scal_r. apply sm_ext. intros. ring.
Qed.
Theorem con_mean_hull : forall N w theta mu eta, (forall i, (i < N)%nat -> 0 <= w i) -> 0 <= eta -> 0 < sm N w + eta ->
  exists (p : vec) q, (forall i, (i < N)%nat -> 0 <= p i) /\ 0 <= q /\ sm N p + q = 1 /\
    forall k, con_mu N w theta mu eta k = sm N (fun i => p i * theta i k) + q * mu k.
Proof.
  intros N w theta mu eta Hw He HW. exists (fun i => w i / (sm N w + eta)), (eta / (sm N w + eta)).
  assert (0 < / (sm N w + eta)) by (apply Rinv_0_lt_compat; auto). split; [|split; [|split]].
  - intros i Hi. apply Rmult_le_pos; [auto|lra].
  - apply Rmult_le_pos; lra.
  - unfold Rdiv. rewrite sm_scal_r. field. lra.
  - intros k. unfold con_mu, Rdiv. rewrite Rmult_plus_distr_r, <- sm_scal_r. f_equal; [|ring]. apply sm_ext. intros. ring.
Qed.

(** The normaliser: non-negative, and zero exactly when there is a single sample *)
Lemma sum_sq_le : forall N w, (forall i, (i < N)%nat -> 0 <= w i) -> sm N (fun i => w i ^ 2) <= sm N w ^ 2.
Proof.
  induction N; intros w H; [unfold sm; simpl; lra|]. rewrite !sm_S.
  assert (0 <= sm N w) by (apply sm_nonneg; intros; apply H; lia). assert (0 <= w N) by (apply H; lia).
  pose proof (IHN w (fun i Hi => H i ltac:(lia))). nra.
Qed.
Lemma sum_sq_lt : forall N w, (2 <= N)%nat -> (forall i, (i < N)%nat -> 0 < w i) -> sm N (fun i => w i ^ 2) < sm N w ^ 2.
Proof.
  intros [|N] w HN H; [lia|]. rewrite !sm_S.
  assert (0 < sm N w).
  { destruct N as [|N]; [lia|]. rewrite sm_S. assert (0 <= sm N w) by (apply sm_nonneg; intros; left; apply H; lia). pose proof (H N ltac:(lia)). lra. }
  pose proof (H N ltac:(lia)). pose proof (sum_sq_le N w (fun i Hi => Rlt_le _ _ (H i ltac:(lia)))). nra.
Qed.
Theorem mle_Z_spec : forall N w, (1 <= N)%nat -> (forall i, (i < N)%nat -> 0 < w i) ->
  0 <= mle_Z N w <= sm N w /\ (mle_Z N w = 0 <-> N = 1%nat).
Proof.
  intros N w HN Hw. assert (HW : 0 < sm N w).
  { destruct N as [|N]; [lia|]. rewrite sm_S. assert (0 <= sm N w) by (apply sm_nonneg; intros; left; apply Hw; lia). pose proof (Hw N ltac:(lia)). lra. }
  assert (E : mle_Z N w = (sm N w ^ 2 - sm N (fun i => w i ^ 2)) / sm N w) by (unfold mle_Z; field; lra).
  pose proof (sum_sq_le N w (fun i Hi => Rlt_le _ _ (Hw i Hi))) as LE.
  assert (PI_ : 0 < / sm N w) by (apply Rinv_0_lt_compat; auto). split; [split|split].
  - rewrite E. apply Rmult_le_pos; lra.
  - unfold mle_Z. assert (0 <= sm N (fun i => w i ^ 2) / sm N w) by (apply Rmult_le_pos; [apply sm_nonneg; intros; apply pow2_ge_0|lra]). lra.
  - intros Z. destruct (Nat.eq_dec N 1) as [|NE]; auto. pose proof (sum_sq_lt N w ltac:(lia) Hw) as LT.
    exfalso. rewrite E in Z. assert (0 < (sm N w ^ 2 - sm N (fun i => w i ^ 2)) / sm N w) by (apply Rmult_lt_0_compat; lra). lra.
  - intros ->. rewrite E. unfold sm. simpl. unfold Rdiv. ring.
Qed.

(** The normaliser makes the variance estimate unbiased: [E] is the expectation over the draws of
    the samples, which are uncorrelated with common mean [m] and variance [v]; the weights are
    fixed. *)
Theorem mle_var_unbiased : forall (Omega : Type) (E : (Omega -> R) -> R) N w (x : nat -> Omega -> R) m v,
  (forall f g, E (fun o => f o + g o) = E f + E g) -> (forall c f, E (fun o => c * f o) = c * E f) ->
  0 < sm N w -> mle_Z N w <> 0 ->
  (forall i j, (i < N)%nat -> (j < N)%nat -> E (fun o => x i o * x j o) = m * m + (if Nat.eqb i j then v else 0)) ->
  E (fun o => let c := mle_mu N w (fun i _ => x i o) 0%nat in sm N (fun i => w i * (x i o - c) ^ 2) / mle_Z N w) = v.
Proof.
  intros Omega E N w x m v Hadd Hscal HW HZ Hcov. cbv zeta.
  assert (Hsm : forall n (f : nat -> Omega -> R), E (fun o => sm n (fun i => f i o)) = sm n (fun i => E (f i))).
  { induction n; intros f.
    - unfold sm. simpl. replace (fun _ : Omega => 0) with (fun _ : Omega => 0 * 0) by (apply functional_extensionality; intros; ring). rewrite (Hscal 0 (fun _ => 0)). ring.
    - replace (fun o => sm (S n) (fun i => f i o)) with (fun o => sm n (fun i => f i o) + f n o) by (apply functional_extensionality; intros; rewrite sm_S; reflexivity).
      rewrite Hadd, IHn, sm_S. reflexivity. }
  set (W := sm N w) in *.
  replace (fun o => sm N (fun i => w i * (x i o - mle_mu N w (fun i0 _ => x i0 o) 0%nat) ^ 2) / mle_Z N w)
    with (fun o => / mle_Z N w * (sm N (fun i => w i * (x i o * x i o)) + - / W * sm N (fun i => sm N (fun j => w i * w j * (x i o * x j o))))).
  2:{ apply functional_extensionality. intros o. unfold Rdiv. rewrite Rmult_comm. f_equal.
      unfold mle_mu. fold W. rewrite (sm_ext N (fun i => w i * (x i o - sm N (fun i0 => w i0 * x i0 o) / W) ^ 2)
        (fun i => w i * (x i o * x i o) + (w i * x i o * (-2 * (sm N (fun i0 => w i0 * x i0 o) / W)) + w i * (sm N (fun i0 => w i0 * x i0 o) / W) ^ 2))) by (intros; ring).
      rewrite !sm_plus, !sm_scal_r. fold W.
      rewrite (sm_ext N (fun i => sm N (fun j => w i * w j * (x i o * x j o))) (fun i => sm N (fun j => (w i * x i o) * (w j * x j o)))) by (intros; apply sm_ext; intros; ring).
      rewrite <- (sm_mul N N (fun i => w i * x i o) (fun j => w j * x j o)). field. lra. }
  rewrite Hscal, Hadd, Hscal.
  assert (E1 : E (fun o => sm N (fun i => w i * (x i o * x i o))) = W * (m * m + v)).
  { rewrite (Hsm N (fun i o => w i * (x i o * x i o))).
    rewrite (sm_ext N _ (fun i => w i * (m * m + v))) by (intros i Hi; rewrite Hscal, Hcov, Nat.eqb_refl by auto; reflexivity). apply sm_scal_r. }
  assert (E2 : E (fun o => sm N (fun i => sm N (fun j => w i * w j * (x i o * x j o)))) = W * W * (m * m) + sm N (fun i => w i ^ 2) * v).
  { rewrite (Hsm N (fun i o => sm N (fun j => w i * w j * (x i o * x j o)))).
    rewrite (sm_ext N _ (fun i => w i * (W * (m * m)) + w i ^ 2 * v)).
    - rewrite sm_plus, !sm_scal_r. fold W. ring.
    - intros i Hi. rewrite (Hsm N (fun j o => w i * w j * (x i o * x j o))).
      rewrite (sm_ext N _ (fun j => w i * (w j * (m * m)) + w i * w j * (if Nat.eqb i j then v else 0))) by (intros j Hj; rewrite Hscal, Hcov by auto; ring).
      rewrite sm_plus, sm_scal, sm_scal_r. fold W. f_equal. rewrite (sm_single N i); auto; [rewrite Nat.eqb_refl; ring|].
      intros j Hj NE. destruct (Nat.eqb_spec i j); [congruence|ring]. }
  rewrite E1, E2. unfold mle_Z. fold W. unfold mle_Z in HZ. fold W in HZ. field. split; [lra|]. intros C. apply HZ.
  assert (C' : W * W - sm N (fun i => w i ^ 2) = 0) by lra.
  replace (W - sm N (fun i => w i ^ 2) / W) with ((W * W - sm N (fun i => w i ^ 2)) / W) by (field; lra). rewrite C'. unfold Rdiv. ring.
Qed.

(** * C51: maximum likelihood.  The weighted mean maximises the weighted log-likelihood *)
Definition psd (n : nat) (S : mat) : Prop :=
  (forall i j, (i < n)%nat -> (j < n)%nat -> S i j = S j i) /\ forall u, 0 <= dot n u (mv n S u).
Theorem mle_mean_maximises : forall n N w theta S ld m, psd n S -> (forall i, (i < N)%nat -> 0 <= w i) -> 0 < sm N w ->
  sm N (fun i => w i * logpdf n m S ld (theta i)) <= sm N (fun i => w i * logpdf n (mle_mu N w theta) S ld (theta i)).
Proof.
  intros n N w theta S ld m [Hs Hp] Hw HW.
  assert (E : forall m0, sm N (fun i => w i * logpdf n m0 S ld (theta i))
     = sm N w * (- / 2 * (INR n * ln (2 * PI) + ld)) - / 2 * sm N (fun i => w i * dot n (vsub (theta i) m0) (mv n S (vsub (theta i) m0)))).
  { intros m0. rewrite <- sm_scal_r, <- sm_scal, <- sm_minus. apply sm_ext. intros. unfold logpdf. field. }
  rewrite !E. pose proof (con_decomp n N w theta (fun _ => 0) 0 S m Hs ltac:(lra)) as D. cbv zeta in D.
  replace (con_mu N w theta (fun _ => 0) 0) with (mle_mu N w theta) in D.
  - pose proof (Hp (vsub m (mle_mu N w theta))). nra.
  - apply functional_extensionality. intros k. unfold mle_mu, con_mu. f_equal; ring.
Qed.

(** The Lagrangian of the constrained update is maximal at the computed mean *)
Theorem gd_dual_max : forall n N w theta mu sigma S ld eps eta m, psd n S -> (forall i, (i < N)%nat -> 0 <= w i) -> 0 < eta ->
  gd_lagrangian n N w theta mu sigma S ld eps eta m <= gd_dual n N w theta mu sigma S ld eps eta.
Proof.
  intros n N w theta mu sigma S ld eps eta m [Hs Hp] Hw He. unfold gd_dual.
  assert (HW : 0 <= sm N w) by (apply sm_nonneg; auto).
  assert (E : forall m0, gd_lagrangian n N w theta mu sigma S ld eps eta m0
     = sm N w * (- / 2 * ld - / 2 * (INR n * ln (2 * PI))) + eta * (eps - / 2 * (trace n (mm n S sigma) - INR n))
       - / 2 * (sm N (fun i => w i * dot n (vsub (theta i) m0) (mv n S (vsub (theta i) m0))) + eta * dot n (vsub m0 mu) (mv n S (vsub m0 mu)))).
  { intros m0. unfold gd_lagrangian, kl_constraint.
    rewrite (sm_ext N _ (fun i => w i * (- / 2 * ld - / 2 * (INR n * ln (2 * PI))) + - / 2 * (w i * dot n (vsub (theta i) m0) (mv n S (vsub (theta i) m0))))) by (intros; ring).
    rewrite sm_plus, sm_scal_r, sm_scal. ring. }
  rewrite !E. pose proof (con_decomp n N w theta mu eta S m Hs ltac:(lra)) as D. cbv zeta in D. rewrite D.
  pose proof (Hp (vsub m (con_mu N w theta mu eta))). nra.
Qed.

(** * Diagonal covariance: constrained and unconstrained updates *)
Definition sqdev (N : nat) (w : vec) (theta : nat -> vec) (mu std : vec) (eta : R) (k : nat) (m : R) : R :=
  sm N (fun i => w i * (theta i k - m) ^ 2) + eta * std k ^ 2 + eta * (m - mu k) ^ 2.
Lemma diag_lagr_form : forall n N w theta mu std eps kappa eta omg m s,
  diag_lagrangian n N w theta mu std eps kappa eta omg m s
  = (sm N w * (- (INR n * ln (2 * PI) / 2)) + eta * (eps + / 2 * INR n + / 2 * sm n (fun k => ln (std k ^ 2)))
     + omg * (kappa - / 2 * sm n (fun k => ln (std k ^ 2))))
    - / 2 * sm n (fun k => sqdev N w theta mu std eta k (m k) / s k ^ 2 + (sm N w + eta - omg) * ln (s k ^ 2)).
Proof.
  intros. unfold diag_lagrangian, diag_loglik, diag_kl, kl_constraint, diag_entropy, entropy. cbv zeta.
  rewrite trace_diagm, quad_diagm.
  rewrite (sm_ext N _ (fun i => w i * (- / 2 * sm n (fun k => ln (s k ^ 2)) - INR n * ln (2 * PI) / 2)
     + - / 2 * sm n (fun k => w i * (theta i k - m k) ^ 2 / s k ^ 2))).
  2:{ intros i Hi. rewrite quad_diagm.
      rewrite (sm_ext n (fun k => w i * (theta i k - m k) ^ 2 / s k ^ 2) (fun k => w i * (/ s k ^ 2 * (vsub (theta i) m k * vsub (theta i) m k)))) by (intros; unfold vsub, Rdiv; ring).
      rewrite sm_scal. ring. }
  rewrite sm_plus, sm_scal_r, sm_scal, sm_swap.
  rewrite (sm_ext n (fun k => sqdev N w theta mu std eta k (m k) / s k ^ 2 + (sm N w + eta - omg) * ln (s k ^ 2))
    (fun k => sm N (fun i => w i * (theta i k - m k) ^ 2 / s k ^ 2) + (eta * (/ s k ^ 2 * std k ^ 2) + (eta * (/ s k ^ 2 * (vsub m mu k * vsub m mu k)) + (sm N w + eta - omg) * ln (s k ^ 2))))).
  - rewrite !sm_plus, !sm_scal. field.
  - intros k Hk. unfold sqdev, vsub, Rdiv. rewrite (sm_scal_r N (/ s k ^ 2) (fun i => w i * (theta i k - m k) ^ 2)). ring.
Qed.
(** One dimension: A/s^2 + B ln s^2 is minimal at s^2 = A/B *)
Lemma one_dim : forall A A' B s, 0 < A -> A <= A' -> 0 < B -> s <> 0 ->
  A / sqrt (A / B) ^ 2 + B * ln (sqrt (A / B) ^ 2) <= A' / s ^ 2 + B * ln (s ^ 2).
Proof.
  intros A A' B s HA HA' HB Hs. assert (HS : 0 < s ^ 2) by (apply sq_pos; auto).
  assert (HAB : 0 < A / B) by (apply Rmult_lt_0_compat; [auto|apply Rinv_0_lt_compat; auto]).
  rewrite pow2_sqrt by lra. set (y := s ^ 2) in *. clearbody y. clear s Hs.
  replace (A / (A / B)) with B by (field; lra).
  apply Rle_trans with (A / y + B * ln y).
  2:{ apply Rplus_le_compat_r. apply Rmult_le_compat_r; [left; apply Rinv_0_lt_compat; auto|auto]. }
  assert (HX : 0 < A / (B * y)) by (apply Rmult_lt_0_compat; [auto|apply Rinv_0_lt_compat; nra]).
  pose proof (ln_le_sub1 _ HX) as L.
  replace (ln (A / (B * y))) with (ln (A / B) - ln y) in L.
  - assert (B * (ln (A / B) - ln y) <= B * (A / (B * y) - 1)) by (apply Rmult_le_compat_l; lra).
    replace (B * (A / (B * y) - 1)) with (A / y - B) in H by (field; lra). lra.
  - replace (A / (B * y)) with (A / B * / y) by (field; lra). rewrite ln_mult, ln_Rinv; auto. apply Rinv_0_lt_compat; auto.
Qed.
Lemma sqdev_min : forall N w theta mu std eta k m, 0 <= eta -> 0 < sm N w + eta ->
  sqdev N w theta mu std eta k (con_mu N w theta mu eta k) <= sqdev N w theta mu std eta k m.
Proof.
  intros N w theta mu std eta k m He HW. unfold sqdev. set (c := con_mu N w theta mu eta k).
  rewrite (sm_ext N (fun i => w i * (theta i k - m) ^ 2) (fun i => w i * (theta i k - c) ^ 2 + (2 * (c - m) * (w i * theta i k) + w i * (m ^ 2 - c ^ 2)))) by (intros; ring).
  rewrite !sm_plus, sm_scal, sm_scal_r.
  assert (E : sm N (fun i => w i * theta i k) = (sm N w + eta) * c - eta * mu k) by (unfold c, con_mu; field; lra).
  rewrite E. pose proof (Rle_0_sqr (m - c)) as Q. unfold Rsqr in Q. nra.
Qed.

Theorem diag_dual_max : forall n N w theta mu std eps kappa eta omg m s,
  (forall i, (i < N)%nat -> 0 <= w i) -> 0 < eta -> 0 < sm N w + eta - omg -> (forall k, (k < n)%nat -> std k <> 0) -> (forall k, (k < n)%nat -> s k <> 0) ->
  diag_lagrangian n N w theta mu std eps kappa eta omg m s <= diag_dual n N w theta mu std eps kappa eta omg.
Proof.
  intros n N w theta mu std eps kappa eta omg m s Hw He HB Hstd Hs. unfold diag_dual. rewrite !diag_lagr_form.
  assert (HW : 0 <= sm N w) by (apply sm_nonneg; auto).
  apply Rplus_le_compat_l, Ropp_le_contravar, Rmult_le_compat_l; [lra|]. apply sm_le. intros k Hk.
  unfold con_std. cbv zeta.
  change (sm N (fun i => w i * (theta i k - con_mu N w theta mu eta k) ^ 2) + eta * std k ^ 2 + eta * (con_mu N w theta mu eta k - mu k) ^ 2)
    with (sqdev N w theta mu std eta k (con_mu N w theta mu eta k)).
  apply one_dim; auto.
  - unfold sqdev. pose proof (sq_pos _ (Hstd k Hk)).
    assert (0 <= sm N (fun i => w i * (theta i k - con_mu N w theta mu eta k) ^ 2)) by (apply sm_nonneg; intros; apply Rmult_le_pos; [auto|apply pow2_ge_0]).
    pose proof (pow2_ge_0 (con_mu N w theta mu eta k - mu k)). nra.
  - apply sqdev_min; lra.
Qed.
(** Weak duality: the minimised function bounds the weighted log-likelihood of every distribution
    that satisfies the divergence and the entropy constraint. *)
Theorem diag_dual_bound : forall n N w theta mu std eps kappa eta omg m s,
  (forall i, (i < N)%nat -> 0 <= w i) -> 0 < eta -> 0 <= omg -> 0 < sm N w + eta - omg ->
  (forall k, (k < n)%nat -> std k <> 0) -> (forall k, (k < n)%nat -> s k <> 0) ->
  diag_kl n mu std m s <= eps -> diag_entropy n std - kappa <= diag_entropy n s ->
  sm N (fun i => w i * diag_logpdf n m (fun k => s k ^ 2) (theta i)) <= diag_dual n N w theta mu std eps kappa eta omg.
Proof.
  intros n N w theta mu std eps kappa eta omg m s Hw He Ho HB Hstd Hs HK HE.
  pose proof (diag_dual_max n N w theta mu std eps kappa eta omg m s Hw He HB Hstd Hs) as D. unfold diag_lagrangian in D.
  assert (E : diag_loglik n N w theta m s = sm N (fun i => w i * diag_logpdf n m (fun k => s k ^ 2) (theta i))).
  { unfold diag_loglik, diag_logpdf, logpdf. cbv zeta. apply sm_ext. intros. field. }
  rewrite E in D. nra.
Qed.

(** Without weights: mean and numpy.std maximise the likelihood *)
Theorem diag_mle_maximises : forall n N theta m s, (1 <= N)%nat -> (forall k, (k < n)%nat -> s k <> 0) ->
  (forall k, (k < n)%nat -> exists i, (i < N)%nat /\ theta i k <> mean_mu N theta k) ->
  sm N (fun i => diag_logpdf n m (fun k => s k ^ 2) (theta i))
  <= sm N (fun i => diag_logpdf n (mean_mu N theta) (fun k => diag_mean_std N theta k ^ 2) (theta i)).
Proof.
  intros n N theta m s HN Hs Hd.
  assert (HI : 0 < INR N) by (apply lt_0_INR; lia).
  assert (HS : sm N (fun _ => 1) = INR N) by (rewrite sm_const; ring).
  assert (EM : con_mu N (fun _ => 1) theta (fun _ => 0) 0 = mean_mu N theta).
  { apply functional_extensionality. intros k. unfold con_mu, mean_mu. rewrite HS. rewrite (sm_ext N (fun i => 1 * theta i k) (fun i => theta i k)) by (intros; ring). f_equal; ring. }
  assert (F : forall m0 s0, sm N (fun i => diag_logpdf n m0 (fun k => s0 k ^ 2) (theta i))
     = INR N * (- / 2 * (INR n * ln (2 * PI))) - / 2 * sm n (fun k => sqdev N (fun _ => 1) theta (fun _ => 0) (fun _ => 0) 0 k (m0 k) / s0 k ^ 2 + INR N * ln (s0 k ^ 2))).
  { intros m0 s0. rewrite (sm_ext N _ (fun i => - / 2 * (INR n * ln (2 * PI)) - / 2 * sm n (fun k => ln (s0 k ^ 2) + (theta i k - m0 k) ^ 2 / s0 k ^ 2))) by (intros; apply diag_logpdf_form).
    rewrite sm_minus, sm_const, sm_scal, sm_swap. f_equal. f_equal. apply sm_ext. intros k Hk. rewrite sm_plus, sm_const. unfold sqdev, Rdiv.
    rewrite sm_scal_r. rewrite (sm_ext N (fun i => 1 * (theta i k - m0 k) ^ 2) (fun i => (theta i k - m0 k) ^ 2)) by (intros; ring). ring. }
  rewrite !F. apply Rplus_le_compat_l, Ropp_le_contravar, Rmult_le_compat_l; [lra|]. apply sm_le. intros k Hk.
  assert (ES : sm N (fun i => (theta i k - mean_mu N theta k) ^ 2) = sqdev N (fun _ => 1) theta (fun _ => 0) (fun _ => 0) 0 k (mean_mu N theta k)).
  { unfold sqdev. rewrite (sm_ext N (fun i => 1 * (theta i k - mean_mu N theta k) ^ 2) (fun i => (theta i k - mean_mu N theta k) ^ 2)) by (intros; ring). ring. }
  unfold diag_mean_std. rewrite ES. apply one_dim; auto.
  - rewrite <- ES. destruct (Hd k Hk) as [i [Hi NE]].
    assert (0 < (theta i k - mean_mu N theta k) ^ 2) by (apply sq_pos; lra).
    apply Rlt_le_trans with (sm N (fun j => if Nat.eqb j i then (theta i k - mean_mu N theta k) ^ 2 else 0)).
    + rewrite (sm_single N i); auto; [rewrite Nat.eqb_refl; auto|]. intros j Hj N2. destruct (Nat.eqb_spec j i); [congruence|auto].
    + apply sm_le. intros j Hj. destruct (Nat.eqb_spec j i); [subst; lra|apply pow2_ge_0].
  - rewrite <- EM. apply sqdev_min; [lra|rewrite HS; lra].
Qed.

(** * Full covariance: the computed matrices are symmetric and positive semidefinite *)
Lemma outer_psd : forall n N (w : vec) (u : nat -> vec) z, (forall i, (i < N)%nat -> 0 <= w i) ->
  dot n z (mv n (fun a b => sm N (fun i => u i a * w i * u i b)) z) = sm N (fun i => w i * dot n (u i) z ^ 2) /\
  0 <= sm N (fun i => w i * dot n (u i) z ^ 2).
Proof.
  intros n N w u z Hw. split; [|apply sm_nonneg; intros; apply Rmult_le_pos; [auto|apply pow2_ge_0]].
  unfold dot at 1, mv.
  rewrite (sm_ext n _ (fun a => sm N (fun i => w i * (u i a * z a) * dot n (u i) z))).
  - rewrite sm_swap. apply sm_ext. intros i Hi.
    rewrite (sm_ext n _ (fun a => (u i a * z a) * (w i * dot n (u i) z))) by (intros; ring). rewrite sm_scal_r. fold (dot n (u i) z). ring.
  - intros a Ha. rewrite (sm_ext n (fun j => sm N (fun i => u i a * w i * u i j) * z j) (fun j => sm N (fun i => u i a * w i * (u i j * z j)))) by (intros; rewrite <- sm_scal_r; apply sm_ext; intros; ring).
    rewrite sm_swap, <- sm_scal. apply sm_ext. intros i Hi. rewrite sm_scal. fold (dot n (u i) z). ring.
Qed.
Lemma psd_scal : forall n c X, 0 <= c -> psd n X -> psd n (fun a b => X a b * c).
Proof.
  intros n c X Hc [Hs Hp]. split; [intros; rewrite Hs by auto; reflexivity|]. intros u.
  replace (mv n (fun a b => X a b * c) u) with (vscal c (mv n X u)).
  - rewrite dot_scal_r. apply Rmult_le_pos; auto.
  - apply functional_extensionality. intros i. unfold vscal, mv. rewrite <- sm_scal. apply sm_ext. intros. ring.
Qed.
Lemma psd_add : forall n X Y, psd n X -> psd n Y -> psd n (fun a b => X a b + Y a b).
Proof.
  intros n X Y [Hs Hp] [Hs' Hp']. split; [intros; rewrite Hs, Hs' by auto; reflexivity|]. intros u.
  change (mv n (fun a b => X a b + Y a b) u) with (mv n (madd X Y) u). rewrite mv_madd, dot_add_r. specialize (Hp u). specialize (Hp' u). lra.
Qed.
Lemma psd_outer : forall n N (w : vec) (u : nat -> vec), (forall i, (i < N)%nat -> 0 <= w i) -> psd n (fun a b => sm N (fun i => u i a * w i * u i b)).
Proof.
  intros. split; [intros; apply sm_ext; intros; ring|]. intros z. destruct (outer_psd n N w u z H) as [-> ?]. auto.
Qed.
Theorem chol_mle_psd : forall n N w theta, (2 <= N)%nat -> (forall i, (i < N)%nat -> 0 < w i) -> psd n (chol_mle_sigma N w theta).
Proof.
  intros n N w theta HN Hw. unfold chol_mle_sigma, Rdiv.
  apply (psd_scal n (/ mle_Z N w) (fun a b => sm N (fun i => (theta i a - mle_mu N w theta a) * w i * (theta i b - mle_mu N w theta b)))).
  - destruct (mle_Z_spec N w ltac:(lia) Hw) as [[H _] HZ]. destruct (Req_dec (mle_Z N w) 0) as [E|NE]; [apply HZ in E; lia|]. left. apply Rinv_0_lt_compat. lra.
  - apply (psd_outer n N w (fun i a => theta i a - mle_mu N w theta a)). intros; left; auto.
Qed.
Theorem chol_con_psd : forall n N w theta mu sigma eta omg, (forall i, (i < N)%nat -> 0 <= w i) -> 0 <= eta -> 0 < sm N w + eta - omg ->
  psd n sigma -> psd n (chol_con_sigma N w theta mu sigma eta omg).
Proof.
  intros n N w theta mu sigma eta omg Hw He HB Hsig. unfold chol_con_sigma. cbv zeta. unfold Rdiv.
  set (m := con_mu N w theta mu eta).
  apply (psd_scal n (/ (sm N w + eta - omg)) (fun a b => sm N (fun i => (theta i a - m a) * w i * (theta i b - m b)) + eta * sigma a b + eta * ((m a - mu a) * (m b - mu b)))).
  - left. apply Rinv_0_lt_compat. auto.
  - apply (psd_add n (fun a b => sm N (fun i => (theta i a - m a) * w i * (theta i b - m b)) + eta * sigma a b)).
    + apply psd_add; [apply (psd_outer n N w (fun i a => theta i a - m a)); auto|].
      replace (fun a b => eta * sigma a b) with (fun a b => sigma a b * eta) by (apply functional_extensionality; intros; apply functional_extensionality; intros; ring). apply psd_scal; auto.
    + replace (fun a b => eta * ((m a - mu a) * (m b - mu b))) with (fun a b => sm 1 (fun _ => (m a - mu a) * eta * (m b - mu b))).
      * apply (psd_outer n 1 (fun _ => eta) (fun _ a => m a - mu a)). auto.
      * apply functional_extensionality. intros a. apply functional_extensionality. intros b. unfold sm. simpl. ring.
Qed.

(** * Concrete cases *)
Example rwr_weights_ex : rwr_weights 2 1 (fun i => INR i) 1%nat = 1 /\ rwr_weights 2 1 (fun i => INR i) 0%nat = exp (-1).
Proof.
  unfold rwr_weights. simpl. rewrite Rmax_right by lra. split; [|f_equal; lra]. replace (1 * (1 - 1)) with 0 by ring. apply exp_0.
Qed.
Example reps_weights_ex : reps_weights 2 2 (fun i => INR i) 0%nat = exp (-1/2).
Proof. unfold reps_weights. simpl. rewrite Rmax_right by lra. f_equal. lra. Qed.
Example mle_mu_ex : mle_mu 2 (fun i => INR (S i)) (fun i _ => INR i) 0%nat = 2 / 3.
Proof. unfold mle_mu, sm. simpl. lra. Qed.
Example con_mu_ex : con_mu 2 (fun i => INR (S i)) (fun i _ => INR i) (fun _ => 4) 1 0%nat = 3 / 2.
Proof. unfold con_mu, sm. simpl. lra. Qed.
Example mle_Z_ex : mle_Z 2 (fun i => INR (S i)) = 4 / 3.
Proof. unfold mle_Z, sm. simpl. lra. Qed.
Example mle_Z_one : mle_Z 1 (fun _ => 7) = 0.
Proof. unfold mle_Z, sm. simpl. lra. Qed.
Example chol_mle_ex : chol_mle_sigma 2 (fun _ => 1) (fun i k => INR i * INR (S k)) 0%nat 1%nat = 1.
Proof. unfold chol_mle_sigma, mle_mu, mle_Z, sm. simpl. lra. Qed.
Example chol_con_ex : chol_con_sigma 2 (fun _ => 1) (fun i k => INR i * INR (S k)) (fun _ => 0) eye 2 1 0%nat 1%nat = 1 / 2.
Proof. unfold chol_con_sigma, con_mu, sm, eye. simpl. lra. Qed.
Example diag_std_ex : diag_mle_std 2 (fun _ => 1) (fun i _ => 2 * INR i) 0%nat ^ 2 = 2 /\ diag_mean_std 2 (fun i _ => 2 * INR i) 0%nat ^ 2 = 1.
Proof.
  unfold diag_mle_std, diag_mean_std, mle_mu, mean_mu, mle_Z, sm. simpl. rewrite !Rmult_1_r, !sqrt_sqrt; lra.
Qed.
(** The unbiased estimate on two equally likely samples of two fair coins: mean over the four
    outcomes of the estimate is the variance 1/4. *)
Example mle_var_unbiased_ex :
  let x (i o : nat) := INR (if Nat.eqb i 0 then Nat.div o 2 else Nat.modulo o 2) in
  / 4 * sm 4 (fun o => let c := mle_mu 2 (fun _ => 1) (fun i _ => x i o) 0%nat in sm 2 (fun i => 1 * (x i o - c) ^ 2) / mle_Z 2 (fun _ => 1)) = / 4.
Proof.
  assert (Z : mle_Z 2 (fun _ => 1) = 1) by (unfold mle_Z, sm; simpl; lra). cbv zeta. rewrite Z. unfold mle_mu, sm. simpl. lra.
Qed.

Print Assumptions rwr_weights_spec.
Print Assumptions reps_weights_spec.
Print Assumptions mle_mean_hull.
Print Assumptions con_mean_hull.
Print Assumptions mle_Z_spec.
Print Assumptions mle_var_unbiased.
Print Assumptions mle_mean_maximises.
Print Assumptions gd_dual_max.
Print Assumptions diag_dual_max.
Print Assumptions diag_dual_bound.
Print Assumptions diag_mle_maximises.
Print Assumptions chol_mle_psd.
Print Assumptions chol_con_psd.

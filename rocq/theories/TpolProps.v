(** Theorems about torch policies and torch distributions (C82). *)
From Coq Require Import List Arith Lia Reals Lra Bool FunctionalExtensionality.
From Verif Require Import Common Mat LqrGrad DistModel GaussModel GaussProofs GaussProps HeadProps SacModel SacProps TpolModel.
Import ListNotations.
Local Open Scope R_scope.

(** * Gaussian policies *)
Fixpoint prodR (n : nat) (f : nat -> R) : R := match n with O => 1 | S k => prodR k f * f k end.
(** the univariate Gaussian density, as in a textbook *)
Definition gauss_density (mu sd x : R) : R := / (sd * sqrt (2 * PI)) * exp (- ((x - mu) ^ 2) / (2 * sd ^ 2)).

Lemma mvn_diag_sum : forall n mu d x, (forall i, (i < n)%nat -> 0 < d i) ->
  mvn_diag_logp n mu d x = sm n (fun i => norm_logp (mu i) (d i) (x i)).
Proof.
  intros n mu d x Hd. unfold mvn_diag_logp, norm_logp.
  rewrite <- (sm_const n (ln (2 * PI))), <- sm_plus, <- sm_scal, <- sm_minus. apply sm_ext. intros i Hi. specialize (Hd i Hi). field. lra.
Qed.
Lemma exp_sm : forall n f, exp (sm n f) = prodR n (fun i => exp (f i)).
Proof. induction n; intros f; [unfold sm; simpl; apply exp_0|]. rewrite sm_S, exp_plus, IHn. reflexivity. Qed.
Lemma prodR_ext : forall n f g, (forall i, (i < n)%nat -> f i = g i) -> prodR n f = prodR n g.
Proof. induction n; intros f g H; simpl; [reflexivity|]. rewrite (IHn f g), (H n) by (auto; intros; apply H; lia). reflexivity. Qed.

(** The probability a Gaussian torch policy reports for an action is the product of the univariate Gaussian densities
    with the mean of the network and the standard deviations exp(log_sigma), and the log-probability is its logarithm. *)
Theorem torch_gaussian_density : forall n mu ls x,
  gauss_call n mu ls x = prodR n (fun i => gauss_density (mu i) (exp (ls i)) (x i)) /\
  0 < gauss_call n mu ls x /\ gauss_logp n mu ls x = ln (gauss_call n mu ls x).
Proof.
  intros n mu ls x. unfold gauss_call. split; [|split; [apply exp_pos|rewrite ln_exp; reflexivity]].
  unfold gauss_logp. rewrite mvn_diag_sum by (intros; apply exp_pos). rewrite exp_sm. apply prodR_ext. intros i _. apply norm_logp_exp. apply exp_pos.
Qed.
Example gaussian_density_demo :
  gauss_call 2 (fun _ => 1) (fun _ => 0) (fun _ => 1) = / (sqrt (2 * PI) * sqrt (2 * PI)).
Proof.
  rewrite (proj1 (torch_gaussian_density _ _ _ _)). simpl. unfold gauss_density. rewrite exp_0.
  replace (- ((1 - 1) ^ 2) / (2 * 1 ^ 2)) with 0 by field. rewrite exp_0.
  assert (0 < sqrt (2 * PI)) by (apply sqrt_lt_R0; pose proof PI_RGT_0; lra). field. lra.
Qed.

(** The gradient of the log-probability, which every policy-gradient loss differentiates: along the direction
    ([dm], [dl]) in (mean, log_sigma). *)
Theorem torch_gaussian_score : forall n mu ls x dm dl,
  derivable_pt_lim (fun t => gauss_logp n (fun i => mu i + t * dm i) (fun i => ls i + t * dl i) x) 0
    (sm n (fun i => (x i - mu i) / exp (ls i) ^ 2 * dm i + ((x i - mu i) ^ 2 / exp (ls i) ^ 2 - 1) * dl i)).
Proof.
  intros n mu ls x dm dl.
  apply (dl_eq (fun t => sm n (fun i => - ((x i - (mu i + t * dm i)) * exp (- (ls i + t * dl i))) ^ 2 * / 2 - (ls i + t * dl i) - ln (2 * PI) / 2)) _ 0
    (sm n (fun i => (x i - mu i) / exp (ls i) ^ 2 * dm i + ((x i - mu i) ^ 2 / exp (ls i) ^ 2 - 1) * dl i))); [| |reflexivity].
  - apply (sm_derivable n (fun i t => - ((x i - (mu i + t * dm i)) * exp (- (ls i + t * dl i))) ^ 2 * / 2 - (ls i + t * dl i) - ln (2 * PI) / 2)).
    intros i Hi.
    assert (D1 : derivable_pt_lim (fun t => x i - (mu i + t * dm i)) 0 (0 - dm i)) by (apply (dl_minus (fun _ => x i)); [apply dl_const|apply dl_line]).
    assert (D2 : derivable_pt_lim (fun t => exp (- (ls i + t * dl i))) 0 (exp (- (ls i + 0 * dl i)) * - dl i))
      by (apply (dl_exp (fun t => - (ls i + t * dl i))); apply (dl_opp (fun t => ls i + t * dl i)); apply dl_line).
    eapply dl_eq; [apply (dl_minus _ _ 0 _ _ (dl_minus _ _ 0 _ _ (dl_scal_r (/ 2) _ 0 _ (dl_opp _ 0 _ (dl_sqr _ 0 _ (dl_mult _ _ 0 _ _ D1 D2)))) (dl_line (ls i) (dl i))) (dl_const (ln (2 * PI) / 2) 0))| |].
    + intros t. cbv beta. ring.
    + cbv beta. rewrite !Rmult_0_l, !Rplus_0_r, exp_Ropp. pose proof (exp_pos (ls i)). field. lra.
  - intros t. unfold gauss_logp. rewrite mvn_diag_sum by (intros; apply exp_pos). apply sm_ext. intros i _. unfold norm_logp.
    rewrite ln_exp, exp_Ropp. pose proof (exp_pos (ls i + t * dl i)). field. lra.
Qed.

(** The entropy the policy reports is the expected negative log-probability of its actions, under every
    expectation with the policy's means and variances. *)
Theorem torch_gaussian_entropy : forall (Omega : Type) (E : (Omega -> R) -> R) n (a : Omega -> vec) mu ls,
  (forall f g, E (fun o => f o + g o) = E f + E g) -> (forall c f, E (fun o => c * f o) = c * E f) -> E (fun _ => 1) = 1 ->
  (forall i, (i < n)%nat -> E (fun o => (a o i - mu i) ^ 2) = exp (ls i) ^ 2) ->
  gauss_entropy n ls = E (fun o => - gauss_logp n mu ls (a o)) /\
  (forall dl, derivable_pt_lim (fun t => gauss_entropy n (fun i => ls i + t * dl i)) 0 (sm n dl)).
Proof.
  intros Omega E n a mu ls Hadd Hscal H1 Hv. split.
  - assert (Hext : forall f g, (forall o, f o = g o) -> E f = E g) by (intros f g H; f_equal; apply functional_extensionality; auto).
    assert (Hconst : forall c, E (fun _ => c) = c).
    { intros c. rewrite (Hext _ (fun _ => c * 1)) by (intros; ring). rewrite Hscal, H1. ring. }
    assert (Hsm : forall m (f : nat -> Omega -> R), E (fun o => sm m (fun i => f i o)) = sm m (fun i => E (f i))).
    { induction m; intros f.
      - unfold sm. simpl. apply (Hconst 0).
      - rewrite (Hext _ (fun o => sm m (fun i => f i o) + f m o)) by (intros; apply sm_S). rewrite Hadd, IHm, sm_S. reflexivity. }
    assert (P2 : 0 < 2 * PI) by (pose proof PI_RGT_0; lra).
    rewrite (Hext _ (fun o => sm n (fun i => (/ (2 * exp (ls i) ^ 2)) * (a o i - mu i) ^ 2 + (ls i + ln (2 * PI) / 2)))).
    + rewrite (Hsm n (fun i o => (/ (2 * exp (ls i) ^ 2)) * (a o i - mu i) ^ 2 + (ls i + ln (2 * PI) / 2))).
      rewrite (sm_ext n _ (fun i => / 2 * ln (2 * PI * exp 1) + ls i)).
      * unfold gauss_entropy. rewrite sm_plus, sm_const. field.
      * intros i Hi. rewrite Hadd, Hconst, Hscal, (Hv i Hi), (ln_mult (2 * PI) (exp 1)), ln_exp by (auto; apply exp_pos). pose proof (exp_pos (ls i)). field. lra.
    + intros o. unfold gauss_logp. rewrite mvn_diag_sum by (intros; apply exp_pos). rewrite <- sm_opp. apply sm_ext. intros i _.
      unfold norm_logp. rewrite ln_exp. pose proof (exp_pos (ls i)). field. lra.
  - intros dl. unfold gauss_entropy. eapply dl_eq; [apply (dl_plus (fun _ => INR n / 2 * ln (2 * PI * exp 1)) (fun t => sm n (fun i => ls i + t * dl i))); [apply dl_const|]|reflexivity|].
    + apply (sm_derivable n (fun i t => ls i + t * dl i) dl). intros i _. apply dl_line.
    + ring.
Qed.
(** a two-point expectation with the policy's variances *)
Example gaussian_entropy_demo : gauss_entropy 1 (fun _ => 0) =
  (- gauss_logp 1 (fun _ => 0) (fun _ => 0) (fun _ => 1) + - gauss_logp 1 (fun _ => 0) (fun _ => 0) (fun _ => - 1)) / 2.
Proof.
  destruct (torch_gaussian_entropy bool (fun f => (f true + f false) / 2) 1 (fun b _ => if b then 1 else - 1) (fun _ => 0) (fun _ => 0)) as [E _]; try (intros; field).
  - intros. cbv beta. rewrite exp_0. field.
  - exact E.
Qed.

(** * The recurrent Gaussian policy *)
Lemma sqrt_exp2 : forall u, sqrt (exp (2 * u)) = exp u.
Proof. intros u. replace (2 * u) with (u + u) by ring. rewrite exp_plus. apply sqrt_square. left. apply exp_pos. Qed.
Lemma clamp_in : forall lmin lmax u, lmin <= u <= lmax -> Rmin (Rmax u lmin) lmax = u.
Proof. intros. rewrite Rmax_left by lra. apply Rmin_left. lra. Qed.

(** Log-probabilities are those of the policy with the clamped standard deviations; the standard deviations are
    within the bounds; the entropy reported is that of the distribution while log_sigma stays within the bounds. *)
Theorem recurrent_gaussian : forall n lmin lmax mu ls x, lmin <= lmax ->
  rec_logp n lmin lmax mu ls x = gauss_logp n mu (clamp_ls lmin lmax ls) x /\
  (forall i, exp lmin <= sqrt (exp (2 * clamp_ls lmin lmax ls i)) <= exp lmax) /\
  ((forall i, (i < n)%nat -> lmin <= ls i <= lmax) -> rec_entropy n ls = gauss_entropy n (clamp_ls lmin lmax ls)).
Proof.
  intros n lmin lmax mu ls x H. split; [|split].
  - unfold rec_logp, gauss_logp. rewrite !mvn_diag_sum by (intros; try apply exp_pos; rewrite sqrt_exp2; apply exp_pos). apply sm_ext. intros. rewrite sqrt_exp2. reflexivity.
  - intros i. rewrite sqrt_exp2. assert (M : forall u v, u <= v -> exp u <= exp v) by (intros u v [L|E]; [left; apply exp_increasing; auto|right; congruence]).
    unfold clamp_ls. split; apply M; [apply Rmin_glb; [apply Rmax_r|auto]|apply Rmin_r].
  - intros B. unfold rec_entropy, gauss_entropy. f_equal. apply sm_ext. intros i Hi. unfold clamp_ls. symmetry. apply clamp_in. apply B. auto.
Qed.
(** Outside the bounds it is not: the entropy bonus keeps rising with log_sigma although the
    distribution does not change any more. *)
Theorem recurrent_entropy_refuted : forall lmin lmax mu x t, lmin <= lmax -> 0 < t ->
  rec_logp 1 lmin lmax mu (fun _ => lmax + t) x = rec_logp 1 lmin lmax mu (fun _ => lmax) x /\
  rec_entropy 1 (fun _ => lmax + t) = gauss_entropy 1 (clamp_ls lmin lmax (fun _ => lmax + t)) + t.
Proof.
  intros lmin lmax mu x t H Ht. assert (C : clamp_ls lmin lmax (fun _ => lmax + t) = fun _ => lmax).
  { apply functional_extensionality. intros i. unfold clamp_ls. rewrite Rmax_left, Rmin_right by lra. reflexivity. }
  split.
  - rewrite !(proj1 (recurrent_gaussian _ _ _ _ _ _ H)). rewrite C. f_equal. apply functional_extensionality. intros i. unfold clamp_ls. rewrite clamp_in by lra. reflexivity.
  - rewrite C. unfold rec_entropy, gauss_entropy, sm. simpl. ring.
Qed.

(** * Boltzmann policies *)
(** The probabilities are positive and sum to one, their ratios are exp(beta (l_i - l_j)), the log-probability
    is their logarithm. *)
Theorem torch_boltzmann_distribution : forall n beta l, (1 <= n)%nat ->
  (forall i, 0 < boltz_p n beta l i) /\ sm n (boltz_p n beta l) = 1 /\
  (forall i j, boltz_p n beta l i / boltz_p n beta l j = exp (beta * (l i - l j))) /\
  (forall a, boltz_logp n beta l a = ln (boltz_p n beta l a)).
Proof.
  intros n beta l Hn. pose proof (softmax_den n (fun i => l i * beta) Hn) as D. split; [|split; [|split]].
  - intros i. apply softmax_pos. auto.
  - apply softmax_sum. auto.
  - intros i j. unfold boltz_p, softmax. replace (beta * (l i - l j)) with (l i * beta + - (l j * beta)) by ring. rewrite exp_plus, exp_Ropp.
    pose proof (exp_pos (l j * beta)). field. split; lra.
  - intros a. unfold boltz_logp, boltz_p, softmax, Rdiv. rewrite ln_mult, ln_exp, ln_Rinv by (try apply exp_pos; try apply Rinv_0_lt_compat; auto). ring.
Qed.

(** beta is an inverse temperature: with beta = 0 every action is equally likely; an action whose logit
    exceeds all others by [gap] has at least probability 1 / (1 + (n - 1) exp(- beta gap)), which tends to one. *)
Theorem torch_boltzmann_temperature : forall n l a, (a < n)%nat ->
  (forall i, boltz_p n 0 l i = / INR n) /\
  (forall beta gap, 0 <= beta -> (forall i, (i < n)%nat -> i <> a -> gap <= l a - l i) ->
    / (1 + (INR n - 1) * exp (- (beta * gap))) <= boltz_p n beta l a) /\
  (forall gap eps, 0 < gap -> 0 < eps -> (forall i, (i < n)%nat -> i <> a -> gap <= l a - l i) ->
    exists beta0, forall beta, beta0 <= beta -> 1 - eps <= boltz_p n beta l a).
Proof.
  intros n l a Ha.
  assert (G : forall beta gap, 0 <= beta -> (forall i, (i < n)%nat -> i <> a -> gap <= l a - l i) ->
    / (1 + (INR n - 1) * exp (- (beta * gap))) <= boltz_p n beta l a).
  { intros beta gap Hb Hg. unfold boltz_p, softmax. pose proof (softmax_den n (fun i => l i * beta) ltac:(lia)) as D. simpl in D.
    pose proof (exp_pos (l a * beta)) as P.
    assert (I : 1 <= INR n) by (apply (le_INR 1); lia).
    set (c := exp (- (beta * gap))). assert (Pc : 0 < c) by apply exp_pos.
    assert (B : sm n (fun i => exp (l i * beta)) <= exp (l a * beta) * (1 + (INR n - 1) * c)).
    { apply Rle_trans with (sm n (fun i => exp (l a * beta) * c + (if Nat.eqb i a then exp (l a * beta) * (1 - c) else 0))).
      - apply sm_le. intros i Hi. destruct (Nat.eqb_spec i a) as [->|NE]; [right; ring|]. unfold c. rewrite <- exp_plus, Rplus_0_r.
        specialize (Hg i Hi NE). assert (Q : l i * beta <= l a * beta + - (beta * gap)) by nra.
        destruct Q as [Q|Q]; [left; apply exp_increasing; auto|rewrite Q; right; reflexivity].
      - rewrite sm_plus, sm_const, (sm_single n a) by (auto; intros i _ NE; apply Nat.eqb_neq in NE; rewrite NE; reflexivity). rewrite Nat.eqb_refl. right. ring. }
    assert (P1 : 0 < 1 + (INR n - 1) * c) by nra.
    apply Rmult_le_reg_r with ((1 + (INR n - 1) * c) * sm n (fun j => exp (l j * beta))); [apply Rmult_lt_0_compat; auto|].
    replace (/ (1 + (INR n - 1) * c) * ((1 + (INR n - 1) * c) * sm n (fun j => exp (l j * beta)))) with (sm n (fun j => exp (l j * beta))) by (field; lra).
    replace (exp (l a * beta) / sm n (fun j => exp (l j * beta)) * ((1 + (INR n - 1) * c) * sm n (fun j => exp (l j * beta)))) with (exp (l a * beta) * (1 + (INR n - 1) * c)) by (field; lra).
    auto. }
  split; [|split; [exact G|]].
  - intros i. unfold boltz_p, softmax. rewrite (sm_ext n _ (fun _ => 1)) by (intros; rewrite Rmult_0_r; apply exp_0). rewrite sm_const, Rmult_0_r, exp_0.
    assert (0 < INR n) by (apply lt_0_INR; lia). field. lra.
  - intros gap eps Hg He H. assert (In1 : 0 < INR n) by (apply lt_0_INR; lia). assert (I1 : 1 <= INR n) by (apply (le_INR 1); lia).
    exists (Rmax 0 (- ln (eps / INR n) / gap)). intros beta Hb.
    assert (B0 : 0 <= beta) by (eapply Rle_trans; [apply Rmax_l|exact Hb]).
    assert (B1 : - ln (eps / INR n) / gap <= beta) by (eapply Rle_trans; [apply Rmax_r|exact Hb]).
    eapply Rle_trans; [|apply (G beta gap B0 H)].
    assert (Q : exp (- (beta * gap)) <= eps / INR n).
    { rewrite <- (exp_ln (eps / INR n)) by (apply Rdiv_lt_0_compat; auto).
      assert (L : - (beta * gap) <= ln (eps / INR n)).
      { apply (Rmult_le_compat_r gap) in B1; [|lra]. unfold Rdiv at 1 in B1. rewrite Rmult_assoc, Rinv_l in B1 by lra. lra. }
      destruct L as [L|L]; [left; apply exp_increasing; auto|rewrite L; right; reflexivity]. }
    pose proof (exp_pos (- (beta * gap))) as Pc.
    assert (R1 : (INR n - 1) * exp (- (beta * gap)) <= eps).
    { apply Rle_trans with (INR n * (eps / INR n)); [|right; field; lra]. apply Rle_trans with (INR n * exp (- (beta * gap))); [nra|]. apply Rmult_le_compat_l; lra. }
    set (u := (INR n - 1) * exp (- (beta * gap))) in *. assert (0 <= u) by (unfold u; apply Rmult_le_pos; lra).
    apply Rmult_le_reg_r with (1 + u); [lra|]. rewrite Rinv_l by lra. nra.
Qed.

Lemma ln_le_lin : forall x, 0 < x -> ln x <= x - 1.
Proof.
  intros x Hx. pose proof (exp_ineq1_le (ln x)) as H. rewrite exp_ln in H by auto. lra.
Qed.
(** The entropy is the expected negative log-probability; it lies between 0 and log n and is log n for equal logits. *)
Theorem torch_boltzmann_entropy : forall n beta l, (1 <= n)%nat ->
  boltz_entropy n beta l = sm n (fun a => boltz_p n beta l a * - ln (boltz_p n beta l a)) /\
  0 <= boltz_entropy n beta l <= ln (INR n) /\
  ((forall i j, (i < n)%nat -> (j < n)%nat -> l i = l j) -> boltz_entropy n beta l = ln (INR n)).
Proof.
  intros n beta l Hn. destruct (torch_boltzmann_distribution n beta l Hn) as (P & S1 & _ & LG).
  assert (In1 : 0 < INR n) by (apply lt_0_INR; lia).
  assert (E : boltz_entropy n beta l = sm n (fun a => boltz_p n beta l a * - ln (boltz_p n beta l a))).
  { unfold boltz_entropy. rewrite <- sm_opp. apply sm_ext. intros i _. rewrite LG. ring. }
  split; [exact E|]. split; [split|].
  - rewrite E. apply sm_nonneg. intros i Hi. assert (L1 : boltz_p n beta l i <= 1).
    { rewrite <- S1. apply Rle_trans with (sm n (fun j => if Nat.eqb j i then boltz_p n beta l i else 0)).
      { rewrite (sm_single n i) by (auto; intros j _ NE; apply Nat.eqb_neq in NE; rewrite NE; auto). rewrite Nat.eqb_refl. lra. }
      apply sm_le. intros j Hj. destruct (Nat.eqb_spec j i) as [->|]; [lra|left; apply P]. }
    apply Rmult_le_pos; [left; apply P|]. pose proof (ln_le_lin _ (P i)). lra.
  - rewrite E. apply Rle_trans with (sm n (fun i => (/ INR n - boltz_p n beta l i) + ln (INR n) * boltz_p n beta l i)).
    + apply sm_le. intros i Hi. pose proof (P i) as Pi.
      assert (L : ln (/ (INR n * boltz_p n beta l i)) <= / (INR n * boltz_p n beta l i) - 1) by (apply ln_le_lin, Rinv_0_lt_compat, Rmult_lt_0_compat; auto).
      rewrite ln_Rinv, ln_mult in L by (auto; apply Rmult_lt_0_compat; auto).
      apply (Rmult_le_compat_l (boltz_p n beta l i)) in L; [|lra].
      replace (boltz_p n beta l i * (/ (INR n * boltz_p n beta l i) - 1)) with (/ INR n - boltz_p n beta l i) in L by (field; split; lra). lra.
    + rewrite sm_plus, sm_minus, sm_const, sm_scal, S1. right. field. lra.
  - intros Heq. rewrite E. rewrite (sm_ext n _ (fun _ => / INR n * ln (INR n))).
    + rewrite sm_const. field. lra.
    + intros i Hi. assert (Q : boltz_p n beta l i = / INR n).
      { unfold boltz_p, softmax. rewrite (sm_ext n _ (fun _ => exp (l i * beta))) by (intros j Hj; rewrite (Heq j i Hj Hi); auto). rewrite sm_const.
        pose proof (exp_pos (l i * beta)). field. split; lra. }
      rewrite Q, ln_Rinv by auto. ring.
Qed.

(** The gradient of the log-probability along the direction [d] of the logits. *)
Theorem torch_boltzmann_score : forall n beta l a d, (1 <= n)%nat ->
  derivable_pt_lim (fun t => boltz_logp n beta (fun i => l i + t * d i) a) 0 (beta * (d a - sm n (fun i => boltz_p n beta l i * d i))).
Proof.
  intros n beta l a d Hn. unfold boltz_logp.
  assert (DL : forall i, derivable_pt_lim (fun t => (l i + t * d i) * beta) 0 (d i * beta)) by (intros i; apply (dl_scal_r beta (fun t => l i + t * d i)); apply dl_line).
  assert (DE : forall i, derivable_pt_lim (fun t => exp ((l i + t * d i) * beta)) 0 (exp ((l i + 0 * d i) * beta) * (d i * beta))) by (intros i; apply (dl_exp _ 0 _ (DL i))).
  pose proof (softmax_den n (fun i => l i * beta) Hn) as D. simpl in D.
  assert (Z : sm n (fun i => exp ((l i + 0 * d i) * beta)) = sm n (fun i => exp (l i * beta))) by (apply sm_ext; intros; f_equal; ring).
  eapply dl_eq; [apply (dl_minus _ _ 0 _ _ (DL a) (dl_ln _ 0 _ (sm_derivable n (fun i t => exp ((l i + t * d i) * beta)) _ 0 (fun i _ => DE i)) ltac:(cbv beta; rewrite Z; exact D)))|reflexivity|].
  cbv beta. rewrite Z. unfold boltz_p, softmax.
  rewrite (sm_ext n (fun i => exp ((l i + 0 * d i) * beta) * (d i * beta)) (fun i => beta * (exp (l i * beta) * d i))) by (intros; rewrite Rmult_0_l, Rplus_0_r; ring).
  rewrite (sm_ext n (fun i => exp (l i * beta) / sm n (fun j => exp (l j * beta)) * d i) (fun i => / sm n (fun j => exp (l j * beta)) * (exp (l i * beta) * d i))) by (intros; unfold Rdiv; ring).
  rewrite !sm_scal. ring.
Qed.
Example boltzmann_demo : boltz_p 2 2 (fun i => if Nat.eqb i 0 then ln 3 / 2 else 0) 0%nat = 3 / 4.
Proof.
  unfold boltz_p, softmax, sm. simpl. replace (ln 3 / 2 * 2) with (ln 3) by field. rewrite Rmult_0_l, exp_0, exp_ln by lra. field.
Qed.

(** * Shapes of the drawn actions *)
(** One state gives one action; a batch of n >= 2 states gives n Gaussian actions. *)
Theorem torch_draw_shape : forall da ds n, (2 <= n)%nat ->
  gauss_draw_shape da [ds] = [da] /\ gauss_draw_shape da [n; ds] = [n; da] /\ boltz_draw_shape [ds] = [1%nat].
Proof.
  intros da ds n Hn. unfold gauss_draw_shape, boltz_draw_shape. simpl. destruct n as [|[|n]]; try lia. simpl. auto.
Qed.
(** A batch with one state loses the batch dimension; the Boltzmann policy never returns one action of shape (1,) per state of
    a batch, which is what vectorized environments and datasets store. *)
Theorem torch_draw_shape_refuted : (forall da ds, gauss_draw_shape da [1%nat; ds] = [da]) /\
  (forall n ds, boltz_draw_shape [n; ds] = [n] /\ boltz_draw_shape [n; ds] <> [n; 1%nat]).
Proof. split; [reflexivity|]. intros n ds. unfold boltz_draw_shape. simpl. split; [reflexivity|discriminate]. Qed.
(** The recurrent policy evaluates the log-probability of actions with at least two components; with one component it
    rejects every batch. *)
Theorem recurrent_log_prob_shape : forall n d, (1 <= n)%nat -> (2 <= d)%nat -> rec_log_prob_ok n d = true.
Proof.
  intros n d Hn Hd. unfold rec_log_prob_ok. simpl. replace (Nat.eqb d 1) with false by (symmetry; apply Nat.eqb_neq; lia).
  destruct (Nat.eqb n 1); simpl; unfold valid_sample; simpl; apply Nat.eqb_refl.
Qed.
Theorem recurrent_scalar_action_refuted : forall n, (1 <= n)%nat -> rec_log_prob_ok n 1 = false.
Proof.
  intros n Hn. unfold rec_log_prob_ok, valid_sample. simpl. destruct (Nat.eqb n 1) eqn:E; simpl; auto.
Qed.

(** * Parameters *)
Theorem torch_gaussian_weights : forall da mu_w ls w, length ls = da -> (da <= length w)%nat ->
  gp_set da (gp_get mu_w ls) = (mu_w, ls) /\ gp_get (fst (gp_set da w)) (snd (gp_set da w)) = w /\ length (snd (gp_set da w)) = da.
Proof.
  intros da mu_w ls w H Hw. unfold gp_set, gp_get. cbn [fst snd]. rewrite app_length, H. replace (length mu_w + da - da)%nat with (length mu_w) by lia.
  rewrite firstn_app, skipn_app, firstn_all, skipn_all, Nat.sub_diag. simpl. rewrite app_nil_r. split; [reflexivity|]. split; [apply firstn_skipn|].
  rewrite skipn_length. lia.
Qed.
(** The torch Cholesky distribution: after set_parameters the factor is lower triangular and depends on nothing but the
    parameters, and get_parameters returns them. The log-density is that of the Gaussian with covariance L L^T: [IL] is
    the inverse of the factor, [y] the triangular solve. *)
Theorem torch_cholesky : forall n L L' rho, length rho = chol_size n ->
  (forall i j, (i < n)%nat -> (j < n)%nat -> tch_chol (snd (chol_set n L rho)) i j = tch_chol (snd (chol_set n L' rho)) i j) /\
  (forall i j, (i < j)%nat -> tch_chol L i j = 0) /\
  chol_get n (fst (chol_set n L rho)) (tch_chol (snd (chol_set n L rho))) = rho.
Proof.
  intros n L L' rho HL.
  assert (T : forall M, chol_get n (fst (chol_set n M rho)) (tch_chol (snd (chol_set n M rho))) = rho).
  { intros M. rewrite <- (proj1 (proj2 (chol_parameters n (fun _ => 0) M rho HL))) at 3. unfold chol_get. f_equal. apply map_ext_in. intros [i j] I.
    apply tril_in in I. unfold tch_chol. cbn [fst snd] in *. replace (Nat.leb j i) with true by (symmetry; apply Nat.leb_le; lia). reflexivity. }
  split; [|split; [|apply T]].
  - intros i j Hi Hj. unfold tch_chol. destruct (Nat.leb_spec j i) as [Hij|]; [|reflexivity].
    assert (I : In (i, j) (tril n)) by (apply tril_in; lia).
    assert (Q : map (fun p => snd (chol_set n L rho) (fst p) (snd p)) (tril n) = map (fun p => snd (chol_set n L' rho) (fst p) (snd p)) (tril n)).
    { pose proof (proj1 (proj2 (chol_parameters n (fun _ => 0) L rho HL))) as Q1. pose proof (proj1 (proj2 (chol_parameters n (fun _ => 0) L' rho HL))) as Q2.
      rewrite <- Q2 in Q1 at 3. unfold chol_get in Q1. apply app_inv_head in Q1. exact Q1. }
    apply (ext_in_map Q) in I. exact I.
  - intros i j Hij. unfold tch_chol. replace (Nat.leb j i) with false by (symmetry; apply Nat.leb_gt; lia). reflexivity.
Qed.
Theorem torch_cholesky_density : forall n L IL mu x y,
  (forall i j, (i < n)%nat -> (j < n)%nat -> mm n IL L i j = eye i j) ->
  (forall i, (i < n)%nat -> mv n L y i = x i - mu i) ->
  mvn_tril_logp n L y = logpdf n mu (chol_inv_sigma n IL) (sm n (fun i => 2 * ln (L i i))) x.
Proof.
  intros n L IL mu x y HI Hy. unfold mvn_tril_logp, logpdf.
  assert (Y : forall i, (i < n)%nat -> mv n IL (vsub x mu) i = y i).
  { intros i Hi. rewrite (mv_ext n IL IL _ (mv n L y)) by (auto; intros j Hj; rewrite Hy by auto; reflexivity).
    rewrite <- mv_mm. rewrite (mv_ext n (mm n IL L) eye y y) by (auto; intros j Hj; apply HI; auto). apply mv_eye. auto. }
  assert (Q : dot n (vsub x mu) (mv n (chol_inv_sigma n IL) (vsub x mu)) = sm n (fun i => y i ^ 2)).
  { unfold chol_inv_sigma. rewrite mv_mm. unfold dot at 1. unfold mv at 1.
    rewrite (sm_ext n _ (fun i => sm n (fun k => mt IL i k * mv n IL (vsub x mu) k * vsub x mu i))) by (intros; rewrite <- sm_scal; apply sm_ext; intros; ring).
    rewrite sm_swap. apply sm_ext. intros k Hk. rewrite <- (Y k Hk) at 1.
    rewrite (sm_ext n _ (fun i => mv n IL (vsub x mu) k * (IL k i * vsub x mu i))) by (intros; unfold mt; ring).
    rewrite sm_scal. fold (mv n IL (vsub x mu) k). ring_simplify. reflexivity. }
  rewrite Q, sm_scal. field.
Qed.

(** * Concrete cases *)
Example gaussian_score_demo : derivable_pt_lim (fun t => gauss_logp 1 (fun _ => t) (fun _ => 0) (fun _ => 3)) 0 3.
Proof.
  eapply dl_eq; [apply (torch_gaussian_score 1 (fun _ => 0) (fun _ => 0) (fun _ => 3) (fun _ => 1) (fun _ => 0))| |].
  - intros t. cbv beta. f_equal; apply functional_extensionality; intros; ring.
  - unfold sm. simpl. rewrite exp_0. field.
Qed.
Example recurrent_demo : rec_logp 1 (-20) 2 (fun _ => 0) (fun _ => 5) (fun _ => 1) = gauss_logp 1 (fun _ => 0) (fun _ => 2) (fun _ => 1) /\
  rec_entropy 1 (fun _ => 5) = gauss_entropy 1 (fun _ => 2) + 3.
Proof.
  assert (C : clamp_ls (-20) 2 (fun _ => 5) = fun _ => 2).
  { apply functional_extensionality. intros i. unfold clamp_ls. rewrite Rmax_left, Rmin_right by lra. reflexivity. }
  split.
  - rewrite (proj1 (recurrent_gaussian 1 (-20) 2 (fun _ => 0) (fun _ => 5) (fun _ => 1) ltac:(lra))), C. reflexivity.
  - unfold rec_entropy, gauss_entropy, sm. simpl. ring.
Qed.
Example temperature_demo : / (1 + (INR 3 - 1) * exp (- (10 * 1))) <= boltz_p 3 10 (fun i => if Nat.eqb i 1 then 1 else 0) 1%nat.
Proof.
  apply (torch_boltzmann_temperature 3 (fun i => if Nat.eqb i 1 then 1 else 0) 1 ltac:(lia)); [lra|].
  intros i _ NE. apply Nat.eqb_neq in NE. rewrite NE. simpl. lra.
Qed.
Example boltzmann_entropy_demo : boltz_entropy 4 3 (fun _ => 7) = ln 4.
Proof. rewrite (proj2 (proj2 (torch_boltzmann_entropy 4 3 (fun _ => 7) ltac:(lia)))) by auto. f_equal. simpl. ring. Qed.
Example boltzmann_score_demo : derivable_pt_lim (fun t => boltz_logp 2 3 (fun i => if Nat.eqb i 0 then t else 0) 0) 0 (3 / 2).
Proof.
  eapply dl_eq; [apply (torch_boltzmann_score 2 3 (fun _ => 0) 0 (fun i => if Nat.eqb i 0 then 1 else 0) ltac:(lia))| |].
  - intros t. cbv beta. f_equal. apply functional_extensionality. intros i. destruct (Nat.eqb i 0); ring.
  - unfold boltz_p, softmax, sm. simpl. rewrite Rmult_0_l, exp_0. field.
Qed.
Example weights_demo : gp_set 2 [1; 2; 3; 4; 5] = ([1; 2; 3], [4; 5]).
Proof. reflexivity. Qed.
Example cholesky_density_demo : mvn_tril_logp 2 (fun i j => if Nat.leb j i then if Nat.eqb i j then 2 else 1 else 0) (fun i => if Nat.eqb i 0 then 1 else 0) =
  - / 2 * (2 * ln (2 * PI) + 1) - 2 * ln 2.
Proof. unfold mvn_tril_logp, sm. simpl. ring. Qed.

Print Assumptions torch_gaussian_density.
Print Assumptions torch_gaussian_score.
Print Assumptions torch_gaussian_entropy.
Print Assumptions recurrent_gaussian.
Print Assumptions recurrent_entropy_refuted.
Print Assumptions torch_boltzmann_distribution.
Print Assumptions torch_boltzmann_temperature.
Print Assumptions torch_boltzmann_entropy.
Print Assumptions torch_boltzmann_score.
Print Assumptions torch_draw_shape.
Print Assumptions torch_draw_shape_refuted.
Print Assumptions recurrent_log_prob_shape.
Print Assumptions recurrent_scalar_action_refuted.
Print Assumptions torch_gaussian_weights.
Print Assumptions torch_cholesky.
Print Assumptions torch_cholesky_density.

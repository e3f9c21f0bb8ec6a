(** Property C116: the update of ConstrainedREPS keeps the new distribution within the divergence and the
    entropy bounds and is optimal among the distributions that do. *)
From Coq Require Import List Bool Arith Lia Reals Lra FunctionalExtensionality.
From Verif Require Import Common FeatProofs Mat LqrGrad GaussModel GaussProofs GaussProps BboProps RepsProps ConRepsModel ConRepsSpec ConRepsProofs ConRepsMat ConRepsChol.
Import ListNotations.
Local Open Scope R_scope.

(** * Lagrange multipliers: [a] is maximised subject to [b] >= 0 and [c] >= 0, and [p] maximises the Lagrangian *)
Lemma near0 : forall x d, 0 < d -> Rabs (x - x) < d.
Proof. intros. rewrite Rminus_diag_eq by reflexivity. rewrite Rabs_R0. auto. Qed.
Lemma multipliers2 : forall (P : Type) (F : P -> Prop) (a b c : P -> R) (p : R -> R -> P) (g : R -> R -> R) (W lb x y : R), 0 < lb ->
  (forall u v, g u v = a (p u v) + u * b (p u v) + v * c (p u v)) ->
  (forall u v z, 0 < u -> v < W + u -> F z -> a z + u * b z + v * c z <= g u v) ->
  (forall u v, 0 < u -> v < W + u -> F (p u v)) ->
  continuity_pt (fun u => b (p u y)) x -> continuity_pt (fun v => c (p x v)) y -> local_min2 lb g x y -> y < W + x ->
  0 <= b (p x y) /\ 0 <= c (p x y) /\ (lb < x -> b (p x y) = 0) /\ (lb < y -> c (p x y) = 0) /\
  forall z, F z -> 0 <= b z -> 0 <= c z -> a z <= a (p x y) + lb * b (p x y) + lb * c (p x y).
Proof.
  intros P F a b c p g W lb x y Hlb Hg Hmax HF Cb Cc (Lx & Ly & d0 & Pd0 & Min) Dom.
  set (d := Rmin d0 (W + x - y)). assert (Hd : 0 < d) by (apply Rmin_glb_lt; lra). assert (D1 : d <= d0) by apply Rmin_l. assert (D2 : d <= W + x - y) by apply Rmin_r.
  assert (B : 0 <= b (p x y) /\ (lb < x -> b (p x y) = 0)).
  { apply (slope_min (fun u => g u y) (fun u => b (p u y)) lb x d Lx Hd); auto.
    - intros u v Hu Hv Du Dv. apply Rabs_def2 in Du. apply Rabs_def2 in Dv. rewrite (Hg v y).
      pose proof (Hmax u y (p v y) ltac:(lra) ltac:(lra) (HF v y ltac:(lra) ltac:(lra))). lra.
    - intros u Hu Du. apply Min; auto; [lra|apply near0; auto]. }
  assert (C : 0 <= c (p x y) /\ (lb < y -> c (p x y) = 0)).
  { apply (slope_min (fun v => g x v) (fun v => c (p x v)) lb y d Ly Hd); auto.
    - intros u v Hu Hv Du Dv. apply Rabs_def2 in Du. apply Rabs_def2 in Dv. rewrite (Hg x v).
      pose proof (Hmax x u (p x v) ltac:(lra) ltac:(lra) (HF x v ltac:(lra) ltac:(lra))). lra.
    - intros u Hu Du. apply Min; auto; [apply near0; auto|lra]. }
  destruct B as [B0 B1]. destruct C as [C0 C1]. split; [auto|]. split; [auto|]. split; [auto|]. split; [auto|].
  intros z Fz Bz Cz. pose proof (Hmax x y z ltac:(lra) Dom Fz) as M. rewrite Hg in M.
  assert (x * b (p x y) = lb * b (p x y)) by (destruct (Rle_lt_or_eq_dec _ _ Lx) as [L|E]; [rewrite (B1 L); ring|rewrite E; reflexivity]).
  assert (y * c (p x y) = lb * c (p x y)) by (destruct (Rle_lt_or_eq_dec _ _ Ly) as [L|E]; [rewrite (C1 L); ring|rewrite E; reflexivity]).
  assert (0 <= x * b z) by (apply Rmult_le_pos; lra). assert (0 <= y * c z) by (apply Rmult_le_pos; lra). lra.
Qed.

(** * The weighted log-likelihood of a Gaussian distribution *)
Definition wloglik (n N : nat) (w : vec) (theta : nat -> vec) (m : vec) (S : mat) (ld : R) : R := sm N (fun i => w i * logpdf n m S ld (theta i)).

(** * GaussianDistribution *)
Theorem gd_con_wmle_optimal : forall opt n N mu sigma S ld theta w eps lb,
  let f := gd_dual n N w theta mu sigma S ld eps in
  0 < lb -> pd n sigma -> meq n (mm n sigma S) eye -> (forall i, (i < N)%nat -> 0 <= w i) -> local_min1 lb f (opt f) ->
  let m := gd_con_wmle opt n N mu sigma S ld theta w eps in
  let kl m' := kl_constraint n mu m' sigma S ld ld in
  kl m = / 2 * dot n (vsub m mu) (mv n S (vsub m mu)) /\ kl m <= eps /\ (lb < opt f -> kl m = eps) /\
  forall m', kl m' <= eps -> wloglik n N w theta m' S ld <= wloglik n N w theta m S ld + lb * (eps - kl m).
Proof.
  intros opt n N mu sigma S ld theta w eps lb f Hlb Hsig HI Hw Hmin m kl.
  assert (PS : psd n S).
  { split; [apply (inv_sym n sigma S); auto|]. intros u. fold (q n S u). rewrite (q_inv n sigma S u HI). apply pd_nonneg. auto. }
  assert (HW : 0 <= sm N w) by (apply sm_nonneg; auto). destruct Hmin as (Lx & d & Hd & Min). set (eta := opt f) in *.
  assert (E : forall e m', gd_lagrangian n N w theta mu sigma S ld eps e m' = wloglik n N w theta m' S ld + e * (eps - kl m')).
  { intros e m'. unfold gd_lagrangian, wloglik, kl. f_equal. apply sm_ext. intros. unfold logpdf. field. }
  assert (B : 0 <= eps - kl (con_mu N w theta mu eta) /\ (lb < eta -> eps - kl (con_mu N w theta mu eta) = 0)).
  { apply (slope_min f (fun e => eps - kl (con_mu N w theta mu e)) lb eta d Lx Hd); auto.
    - intros u v Hu Hv Du Dv. unfold f at 1, gd_dual. rewrite E. pose proof (gd_dual_max n N w theta mu sigma S ld eps u (con_mu N w theta mu v) PS Hw ltac:(lra)) as G.
      rewrite E in G. fold f in G. fold (f u) in G. lra.
    - apply c_minus; [apply c_const|]. apply (gd_kl_cont n N w theta mu sigma S ld eta). lra. }
  change (con_mu N w theta mu eta) with m in B. split; [|split; [lra|split; [intros L; apply B in L; lra|]]].
  - unfold kl, kl_constraint. rewrite (trace_inv n sigma S Hsig HI). field.
  - intros m' Hm'. pose proof (gd_dual_max n N w theta mu sigma S ld eps eta m' PS Hw ltac:(lra)) as G. unfold gd_dual in G. rewrite !E in G.
    change (con_mu N w theta mu eta) with m in G. assert (0 <= eta * (eps - kl m')) by (apply Rmult_le_pos; lra).
    assert (eta * (eps - kl m) = lb * (eps - kl m)); [|lra]. destruct (Rle_lt_or_eq_dec _ _ Lx) as [L|Q]; [|rewrite Q; reflexivity]. destruct B as [_ B]. rewrite (B L). ring.
Qed.

(** * GaussianDiagonalDistribution *)
Theorem diag_con_wmle_optimal : forall opt n N mu std theta w eps kappa lb eta omg,
  let f := diag_dual n N w theta mu std eps kappa in
  0 < lb -> (forall k, (k < n)%nat -> 0 < std k) -> (forall i, (i < N)%nat -> 0 <= w i) ->
  opt f = (eta, omg) -> local_min2 lb f eta omg -> omg < sm N w + eta ->
  let '(m, s) := diag_con_wmle opt n N mu std theta w eps kappa in
  let kl m' s' := diag_kl n mu std m' s' in
  let slack s' := diag_entropy n s' - (diag_entropy n std - kappa) in
  (forall k, (k < n)%nat -> 0 < s k) /\
  kl m s <= eps /\ diag_entropy n std - kappa <= diag_entropy n s /\
  (lb < eta -> kl m s = eps) /\ (lb < omg -> diag_entropy n s = diag_entropy n std - kappa) /\
  forall m' s', (forall k, (k < n)%nat -> 0 < s' k) -> kl m' s' <= eps -> diag_entropy n std - kappa <= diag_entropy n s' ->
    sm N (fun i => w i * diag_logpdf n m' (fun k => s' k ^ 2) (theta i))
    <= sm N (fun i => w i * diag_logpdf n m (fun k => s k ^ 2) (theta i)) + lb * (eps - kl m s) + lb * slack s.
Proof.
  intros opt n N mu std theta w eps kappa lb eta omg f Hlb Hstd Hw Eopt Hmin Hdom. unfold diag_con_wmle. fold f. rewrite Eopt. cbv zeta.
  assert (Hs : forall k, (k < n)%nat -> std k <> 0) by (intros k Hk; specialize (Hstd k Hk); lra).
  assert (L1 : lb <= eta) by apply Hmin. assert (L2 : lb <= omg) by apply Hmin.
  assert (LL : forall m s, diag_loglik n N w theta m s = sm N (fun i => w i * diag_logpdf n m (fun k => s k ^ 2) (theta i))).
  { intros. unfold diag_loglik, diag_logpdf, logpdf. cbv zeta. apply sm_ext. intros. field. }
  pose proof (multipliers2 (vec * vec) (fun z => forall k, (k < n)%nat -> 0 < snd z k) (fun z => diag_loglik n N w theta (fst z) (snd z))
    (fun z => eps - diag_kl n mu std (fst z) (snd z)) (fun z => diag_entropy n (snd z) - (diag_entropy n std - kappa))
    (fun u v => (con_mu N w theta mu u, con_std N w theta mu std u v)) f (sm N w) lb eta omg Hlb) as M. cbn [fst snd] in M.
  destruct M as (M1 & M2 & M3 & M4 & M5).
  - reflexivity.
  - intros u v z Hu Hv Fz. apply (diag_dual_max n N w theta mu std eps kappa u v (fst z) (snd z) Hw Hu ltac:(lra) Hs).
    intros k Hk. specialize (Fz k Hk). lra.
  - intros u v Hu Hv k Hk. apply con_std_sq; auto. lra.
  - apply c_minus; [apply c_const|]. apply diag_kl_cont; auto; lra.
  - apply c_minus; [|apply c_const]. apply diag_entropy_cont; auto; lra.
  - exact Hmin.
  - exact Hdom.
  - split; [intros k Hk; apply con_std_sq; auto; lra|]. split; [lra|]. split; [lra|]. split; [intros L; apply M3 in L; lra|]. split; [intros L; apply M4 in L; lra|].
    intros m' s' Hs' HK HE. rewrite <- !LL. apply (M5 (m', s') Hs'); cbn [fst snd]; lra.
Qed.

(** * GaussianCholeskyDistribution *)
Lemma lower_pd : forall n L, lower n L -> pd n (mm n L (mt L)).
Proof.
  intros n L [Hl Hd]. split.
  - intros i j Hi Hj. unfold mm, mt. apply sm_ext. intros. ring.
  - intros u Hu.
    assert (E : dot n u (mv n (mm n L (mt L)) u) = dot n (mv n (mt L) u) (mv n (mt L) u)) by (rewrite mv_mm, dot_mv; reflexivity).
    rewrite E. clear E.
    assert (Top : exists i, (i < n)%nat /\ u i <> 0 /\ forall j, (i < j)%nat -> (j < n)%nat -> u j = 0).
    { clear Hl Hd. induction n as [|n IH]; [destruct Hu as (i & Hi & _); lia|]. destruct (Req_dec (u n) 0) as [Z|NZ].
      - destruct IH as (i & Hi & Ui & Ti); [destruct Hu as (i & Hi & Ui); exists i; split; auto; destruct (Nat.eq_dec i n) as [->|]; [contradiction|lia]|].
        exists i. split; [lia|]. split; auto. intros j Hj Hjn. destruct (Nat.eq_dec j n) as [->|]; auto. apply Ti; lia.
      - exists n. split; [lia|]. split; auto. intros; lia. }
    destruct Top as (i & Hi & Ui & Ti).
    assert (V : mv n (mt L) u i = L i i * u i).
    { unfold mv, mt. rewrite (sm_single n i); auto. intros j Hj NE. destruct (lt_dec i j) as [G|G]; [rewrite Ti by lia; ring|rewrite Hl by lia; ring]. }
    assert (P : 0 < (mv n (mt L) u i) ^ 2) by (apply sq_pos; rewrite V; apply Rmult_integral_contrapositive_currified; auto; specialize (Hd i Hi); lra).
    eapply Rlt_le_trans; [exact P|].
    replace (mv n (mt L) u i ^ 2) with (sm n (fun j => if Nat.eqb j i then mv n (mt L) u i ^ 2 else 0)).
    + apply sm_le. intros j Hj. destruct (Nat.eqb_spec j i) as [->|]; [lra|]. pose proof (pow2_ge_0 (mv n (mt L) u j)). simpl in *. lra.
    + rewrite (sm_single n i); auto; [rewrite Nat.eqb_refl; reflexivity|]. intros j Hj NE. destruct (Nat.eqb_spec j i); [congruence|auto].
Qed.
Lemma q_meq : forall n X X' u, meq n X X' -> q n X u = q n X' u.
Proof. intros n X X' u H. unfold q. apply dot_ext; auto. intros i Hi. apply mv_ext; auto. Qed.
(** numpy's results on two covariances with the same entries give the same densities *)
Lemma same_cov : forall n A X X', linalg_ok n A -> pd n X -> pd n X' -> meq n X X' ->
  la_slogdet A X = la_slogdet A X' /\ (forall u, q n (la_inv A X) u = q n (la_inv A X') u) /\
  forall P, pd n P -> trace n (mm n (la_inv A X) P) = trace n (mm n (la_inv A X') P).
Proof.
  intros n A X X' OK HX HX' E.
  assert (O1 : forall u, q n X' u <= 1 * q n X u) by (intros; rewrite (q_meq n X X' u E); lra).
  assert (O2 : forall u, q n X u <= 1 * q n X' u) by (intros; rewrite (q_meq n X X' u E); lra).
  split; [|split].
  - pose proof (ld_le n A OK X X' 1 HX HX' ltac:(lra) O1). pose proof (ld_le n A OK X' X 1 HX' HX ltac:(lra) O2). lra.
  - intros u. pose proof (inv_anti n X X' _ _ 1 HX HX' (ok_inv n A OK X HX) (ok_inv n A OK X' HX') ltac:(lra) O1 u).
    pose proof (inv_anti n X' X _ _ 1 HX' HX (ok_inv n A OK X' HX') (ok_inv n A OK X HX) ltac:(lra) O2 u). lra.
  - intros P HP. pose proof (tr_le n A OK X X' P 1 HX HX' HP ltac:(lra) O1). pose proof (tr_le n A OK X' X P 1 HX' HX HP ltac:(lra) O2). lra.
Qed.
Theorem chol_con_wmle_optimal : forall A opt n N mu L theta w eps kappa lb eta omg,
  let sigma := mm n L (mt L) in
  let f := chol_dual A n N w theta mu sigma eps kappa in
  linalg_ok n A -> 0 < lb -> lower n L -> (forall i, (i < N)%nat -> 0 <= w i) ->
  opt f = (eta, omg) -> local_min2 lb f eta omg -> omg < sm N w + eta ->
  let '(m, K) := chol_con_wmle A opt n N mu L theta w eps kappa in
  let sigma' := mm n K (mt K) in
  let kl m1 X := chol_kl A n mu sigma m1 X in
  let H X := chol_entropy A n X in
  let loglik m1 X := wloglik n N w theta m1 (la_inv A X) (la_slogdet A X) in
  lower n K /\ kl m sigma' <= eps /\ H sigma - kappa <= H sigma' /\
  (lb < eta -> kl m sigma' = eps) /\ (lb < omg -> H sigma' = H sigma - kappa) /\
  forall m1 X, pd n X -> kl m1 X <= eps -> H sigma - kappa <= H X ->
    loglik m1 X <= loglik m sigma' + lb * (eps - kl m sigma') + lb * (H sigma' - (H sigma - kappa)).
Proof.
  intros A opt n N mu L theta w eps kappa lb eta omg sigma f OK Hlb HL Hw Eopt Hmin Hdom. unfold chol_con_wmle. fold sigma f. rewrite Eopt. cbv zeta.
  assert (Hsig : pd n sigma) by (apply lower_pd; auto).
  assert (L1 : lb <= eta) by apply Hmin. assert (L2 : lb <= omg) by apply Hmin.
  set (X0 := chol_con_sigma N w theta mu sigma eta omg). assert (P0 : pd n X0) by (apply (con_pd n N w theta mu sigma Hw Hsig); lra).
  set (K := la_chol A X0). destruct (ok_chol n A OK X0 P0) as [LK EK]. fold K in LK, EK. set (X1 := mm n K (mt K)) in *.
  assert (P1 : pd n X1) by (apply lower_pd; auto). destruct (same_cov n A X1 X0 OK P1 P0 EK) as (S1 & S2 & S3).
  assert (LL : forall m X, chol_loglik A n N w theta m X = wloglik n N w theta m (la_inv A X) (la_slogdet A X)).
  { intros. unfold chol_loglik, wloglik, logpdf. apply sm_ext. intros. field. }
  set (m := con_mu N w theta mu eta).
  assert (EL : wloglik n N w theta m (la_inv A X1) (la_slogdet A X1) = wloglik n N w theta m (la_inv A X0) (la_slogdet A X0)).
  { unfold wloglik. apply sm_ext. intros i Hi. unfold logpdf. fold (q n (la_inv A X1) (vsub (theta i) m)) (q n (la_inv A X0) (vsub (theta i) m)). rewrite S1, S2. reflexivity. }
  assert (EKL : chol_kl A n mu sigma m X1 = chol_kl A n mu sigma m X0).
  { unfold chol_kl, kl_constraint. fold (q n (la_inv A X1) (vsub m mu)) (q n (la_inv A X0) (vsub m mu)). rewrite S1, S2, (S3 sigma Hsig). reflexivity. }
  assert (EH : chol_entropy A n X1 = chol_entropy A n X0) by (unfold chol_entropy; rewrite S1; reflexivity).
  pose proof (multipliers2 (vec * mat) (fun z => pd n (snd z)) (fun z => chol_loglik A n N w theta (fst z) (snd z))
    (fun z => eps - chol_kl A n mu sigma (fst z) (snd z)) (fun z => chol_entropy A n (snd z) - (chol_entropy A n sigma - kappa))
    (fun u v => (con_mu N w theta mu u, chol_con_sigma N w theta mu sigma u v)) f (sm N w) lb eta omg Hlb) as M. cbn [fst snd] in M.
  destruct M as (M1 & M2 & M3 & M4 & M5).
  - reflexivity.
  - intros u v z Hu Hv Fz. apply (chol_dual_max n N A w theta mu sigma OK Hw Hsig eps kappa u v (fst z) (snd z)); auto. lra.
  - intros u v Hu Hv. apply (con_pd n N w theta mu sigma Hw Hsig); lra.
  - apply c_minus; [apply c_const|]. apply (kl_cont n N A w theta mu sigma OK Hw Hsig eta omg); lra.
  - apply c_minus; [|apply c_const]. apply (entropy_cont n N A w theta mu sigma OK Hw Hsig eta omg); lra.
  - exact Hmin.
  - exact Hdom.
  - fold m X0 in M1, M2, M3, M4, M5. rewrite EL, EKL, EH.
    split; [exact LK|]. split; [lra|]. split; [lra|]. split; [intros Q; apply M3 in Q; lra|]. split; [intros Q; apply M4 in Q; lra|].
    intros m1 X HX HK HE. rewrite <- !LL. apply (M5 (m1, X) HX); cbn [fst snd]; lra.
Qed.

(** * The whole update *)
(** The weights: positive, at most 1, and as a distribution over the samples within the divergence bound *)
Theorem creps_weights_bound : forall o N J eps lb, (1 <= N)%nat -> 0 < lb -> local_min1 lb (reps_dual N eps J) (o (reps_dual N eps J)) ->
  let w := creps_weights o N J eps in
  (forall i, (i < N)%nat -> 0 < w i <= 1) /\ 0 < sm N w /\
  (forall i j, (i < N)%nat -> (j < N)%nat -> J i <= J j -> w i <= w j) /\
  kl_unif N (fun i => w i / sm N w) <= eps.
Proof.
  intros o N J eps lb HN Hlb (Lx & d & Hd & Min) w. set (eta := o (reps_dual N eps J)) in *. assert (He : 0 < eta) by lra.
  destruct (reps_weights_spec N eta J He HN) as (W1 & _ & W3 & _). split; [exact W1|]. split; [apply (reps_sum_pos N eta J HN)|]. split; [exact W3|].
  change (kl_unif N (reps_dist N eta J) <= eps).
  pose proof (reps_dual_derivative N eps J eta HN He) as D. pose proof (reps_dual_slack N eps J eta HN He) as S.
  destruct (Rle_dec 0 (reps_dual_diff N eps J eta)) as [P|NP]; [lra|]. exfalso. apply Rnot_le_lt in NP.
  set (l := reps_dual_diff N eps J eta) in *. destruct (D (- l / 2) ltac:(lra)) as [[del Hdel] HD]. simpl in HD.
  set (h := Rmin (del / 2) (d / 2)). assert (0 < h) by (apply Rmin_glb_lt; lra). assert (h <= del / 2) by apply Rmin_l. assert (h <= d / 2) by apply Rmin_r.
  assert (Hh : h <> 0) by lra. assert (Rabs h < del) by (rewrite Rabs_pos_eq; lra).
  specialize (HD h Hh H2). apply Rabs_def2 in HD. destruct HD as [HD _].
  assert (Rabs (eta + h - eta) < d) by (rewrite Rabs_pos_eq; lra).
  specialize (Min (eta + h) ltac:(lra) H3).
  assert (0 <= (reps_dual N eps J (eta + h) - reps_dual N eps J eta) / h) by (apply Rmult_le_pos; [lra|left; apply Rinv_0_lt_compat; lra]). lra.
Qed.

(** One update of the agent, for the three distributions: within both bounds, whatever the returns and
    the sampled parameters.  The full-covariance distribution stays a valid one, so that the statement
    applies to the next update. *)
Theorem creps_update_bounds : forall o1 N J eps kappa lb, (1 <= N)%nat -> 0 < lb -> local_min1 lb (reps_dual N eps J) (o1 (reps_dual N eps J)) ->
  let w := creps_weights o1 N J eps in
  (forall o2 n mu sigma S ld theta, pd n sigma -> meq n (mm n sigma S) eye ->
     let f := gd_dual n N w theta mu sigma S ld eps in local_min1 lb f (o2 f) ->
     kl_constraint n mu (creps_update_gd o1 o2 n N mu sigma S ld J theta eps kappa) sigma S ld ld <= eps) /\
  (forall o2 n mu std theta eta omg, (forall k, (k < n)%nat -> 0 < std k) ->
     let f := diag_dual n N w theta mu std eps kappa in o2 f = (eta, omg) -> local_min2 lb f eta omg -> omg < sm N w + eta ->
     let '(m, s) := creps_update_diag o1 o2 n N mu std J theta eps kappa in
     (forall k, (k < n)%nat -> 0 < s k) /\ diag_kl n mu std m s <= eps /\ diag_entropy n std - kappa <= diag_entropy n s) /\
  (forall A o2 n mu L theta eta omg, linalg_ok n A -> lower n L ->
     let sigma := mm n L (mt L) in
     let f := chol_dual A n N w theta mu sigma eps kappa in o2 f = (eta, omg) -> local_min2 lb f eta omg -> omg < sm N w + eta ->
     let '(m, K) := creps_update_chol A o1 o2 n N mu L J theta eps kappa in
     lower n K /\ chol_kl A n mu sigma m (mm n K (mt K)) <= eps /\ chol_entropy A n sigma - kappa <= chol_entropy A n (mm n K (mt K))).
Proof.
  intros o1 N J eps kappa lb HN Hlb H1 w. destruct (creps_weights_bound o1 N J eps lb HN Hlb H1) as (W1 & _). fold w in W1.
  assert (Hw : forall i, (i < N)%nat -> 0 <= w i) by (intros i Hi; specialize (W1 i Hi); lra). split; [|split].
  - intros o2 n mu sigma S ld theta Hs HI f Hmin. unfold creps_update_gd. fold w.
    apply (gd_con_wmle_optimal o2 n N mu sigma S ld theta w eps lb Hlb Hs HI Hw Hmin).
  - intros o2 n mu std theta eta omg Hs f Eo Hmin Hd. unfold creps_update_diag. fold w.
    pose proof (diag_con_wmle_optimal o2 n N mu std theta w eps kappa lb eta omg Hlb Hs Hw Eo Hmin Hd) as D. cbv zeta in D.
    destruct (diag_con_wmle o2 n N mu std theta w eps kappa) as [m s]. tauto.
  - intros A o2 n mu L theta eta omg OK HL sigma f Eo Hmin Hd. unfold creps_update_chol. fold w.
    pose proof (chol_con_wmle_optimal A o2 n N mu L theta w eps kappa lb eta omg OK Hlb HL Hw Eo Hmin Hd) as D. cbv zeta in D.
    destruct (chol_con_wmle A o2 n N mu L theta w eps kappa) as [m K]. tauto.
Qed.

(** * The problem handed to the optimiser for a full covariance has no solution: beyond the sum of the
    weights plus eta the "covariance" is negative definite, slogdet drops the sign, and the function
    decreases without bound.  One parameter, one sample at the old mean, old variance 1. *)
Lemma sm1 : forall f, sm 1 f = f 0%nat.
Proof. intros. unfold sm. simpl. ring. Qed.
Lemma mm1 : forall X Y i j, mm 1 X Y i j = X i 0%nat * Y 0%nat j.
Proof. intros. unfold mm. apply sm1. Qed.
Definition la1 : linalg := mkLA (fun X _ _ => / X 0%nat 0%nat) (fun X => ln (Rabs (X 0%nat 0%nat))) (fun X _ _ => sqrt (X 0%nat 0%nat)).
Lemma pd1 : forall X, pd 1 X -> 0 < X 0%nat 0%nat.
Proof.
  intros X [_ H]. specialize (H (fun _ => 1)). unfold dot, mv in H. rewrite !sm1 in H.
  assert (0 < 1 * (X 0%nat 0%nat * 1)) by (apply H; exists 0%nat; split; [lia|lra]). lra.
Qed.
Lemma la1_ok : linalg_ok 1 la1.
Proof.
  constructor; simpl.
  - intros X HX i j Hi Hj. pose proof (pd1 X HX). assert (i = 0%nat) as -> by lia. assert (j = 0%nat) as -> by lia.
    unfold mm, eye. rewrite sm1. simpl. field. lra.
  - intros X HX. pose proof (pd1 X HX). split; [split|].
    + intros; lia.
    + intros. apply sqrt_lt_R0. auto.
    + intros i j Hi Hj. assert (i = 0%nat) as -> by lia. assert (j = 0%nat) as -> by lia. unfold mm, mt. rewrite sm1. apply sqrt_sqrt. lra.
  - intros X L [_ Hd] E. specialize (E 0%nat 0%nat ltac:(lia) ltac:(lia)). unfold mm, mt in E. rewrite sm1 in E. rewrite sm1, <- E.
    specialize (Hd 0%nat ltac:(lia)). rewrite Rabs_right by nra. rewrite ln_mult by auto. ring.
Qed.
Lemma chol_dual_beyond : forall eps kappa x, 0 < x ->
  let z : vec := fun _ => 0 in let one : mat := fun _ _ => 1 in
  chol_dual la1 1 1 (fun _ => 1) (fun _ => z) z one eps kappa 1 (x + 2)
  = (eps + / 2 + 2 * kappa - / 2 * ln (2 * PI)) + x * (/ 2 + kappa - / 2 * ln x) /\
  chol_con_sigma 1 (fun _ => 1) (fun _ => z) z one 1 (x + 2) 0%nat 0%nat = - / x.
Proof.
  intros eps kappa x Hx z one.
  assert (Em : con_mu 1 (fun _ => 1) (fun _ => z) z 1 0%nat = 0) by (unfold con_mu, z; rewrite !sm1; field).
  assert (Es : chol_con_sigma 1 (fun _ => 1) (fun _ => z) z one 1 (x + 2) 0%nat 0%nat = - / x).
  { unfold chol_con_sigma. cbv zeta. rewrite Em, !sm1. unfold z, one. field. lra. }
  split; [|exact Es]. unfold chol_dual, chol_lagrangian, chol_loglik, chol_kl, kl_constraint, chol_entropy, entropy, trace, mm, dot, mv, vsub.
  rewrite !sm1. unfold la1. simpl la_inv. simpl la_slogdet. rewrite Es, Em. unfold z, one.
  rewrite Rabs_Ropp, Rabs_right by (left; apply Rinv_0_lt_compat; auto). rewrite ln_Rinv by auto. rewrite Rabs_right by lra. rewrite ln_1. simpl INR. field. lra.
Qed.
Theorem creps_dual_unbounded_refuted : forall eps kappa,
  exists (A : linalg) (n N : nat) (w : vec) (theta : nat -> vec) (mu : vec) (L : mat),
    linalg_ok n A /\ lower n L /\ (forall i, (i < N)%nat -> 0 < w i) /\
    forall lb bound, lb <= 1 -> exists omg, lb <= omg /\
      chol_dual A n N w theta mu (mm n L (mt L)) eps kappa 1 omg < bound /\ ~ pd n (chol_con_sigma N w theta mu (mm n L (mt L)) 1 omg).
Proof.
  intros eps kappa. exists la1, 1%nat, 1%nat, (fun _ => 1), (fun _ _ => 0), (fun _ => 0), (fun _ _ => 1).
  split; [exact la1_ok|]. split; [split; [intros; lia|intros; lra]|]. split; [intros; lra|]. intros lb bound Hlb.
  set (C := eps + / 2 + 2 * kappa - / 2 * ln (2 * PI)). set (t := Rabs (C - bound) + Rabs kappa + 1).
  set (x := exp (1 + 2 * kappa + 2 * t)). assert (Hx : 0 < x) by apply exp_pos.
  assert (Kt : - kappa <= Rabs kappa) by (rewrite <- Rabs_Ropp; apply Rle_abs). assert (Ct : C - bound <= Rabs (C - bound)) by apply Rle_abs.
  assert (0 <= Rabs (C - bound)) by apply Rabs_pos. assert (0 <= Rabs kappa) by apply Rabs_pos.
  assert (X1 : 1 <= x) by (apply Rle_trans with (exp 0); [rewrite exp_0; lra|unfold x]; left; apply exp_increasing; unfold t; lra).
  assert (Eone : mm 1 (fun _ _ => 1) (mt (fun _ _ => 1)) = (fun _ _ : nat => 1)) by (apply functional_extensionality; intros; apply functional_extensionality; intros; unfold mm, mt; rewrite sm1; ring).
  rewrite Eone. destruct (chol_dual_beyond eps kappa x Hx) as [E1 E2]. cbv zeta in E1, E2.
  exists (x + 2). split; [lra|]. split.
  - rewrite E1. fold C. unfold x at 2. rewrite ln_exp.
    replace (/ 2 + kappa - / 2 * (1 + 2 * kappa + 2 * t)) with (- t) by field. assert (t <= x * t) by (assert (0 <= t) by (unfold t; lra); nra).
    assert (C - t < bound) by (unfold t; lra). lra.
  - intros HP. apply pd1 in HP. rewrite E2 in HP. assert (0 < / x) by (apply Rinv_0_lt_compat; auto). lra.
Qed.

(** * Concrete cases *)
(** Old mean 0, variance 1, one sample at 3 with weight 1 and bound 1/2: the multiplier is 2 and the new mean is 1, at the bound. *)
Example gd_con_ex : let z : vec := fun _ => 0 in let f := gd_dual 1 1 (fun _ => 1) (fun _ _ => 3) z eye eye 0 (/ 2) in
  local_min1 (/ 8) f 2 /\ gd_con_wmle (fun _ => 2) 1 1 z eye eye 0 (fun _ _ => 3) (fun _ => 1) (/ 2) 0%nat = 1.
Proof.
  intros z f.
  assert (Em : con_mu 1 (fun _ => 1) (fun _ _ => 3) z 2 0%nat = 1) by (unfold con_mu, z; rewrite !sm1; field).
  split; [|exact Em]. split; [lra|]. exists 1. split; [lra|]. intros y Hy _.
  assert (PS : psd 1 eye) by (split; [intros i j Hi Hj; assert (i = j) as -> by lia; reflexivity|intros u; unfold dot, mv; rewrite !sm1; unfold eye; simpl; nra]).
  pose proof (gd_dual_max 1 1 (fun _ => 1) (fun _ _ => 3) z eye eye 0 (/ 2) y (con_mu 1 (fun _ => 1) (fun _ _ => 3) z 2) PS ltac:(intros; lra) ltac:(lra)) as G.
  eapply Rle_trans; [|exact G]. unfold f, gd_dual, gd_lagrangian, kl_constraint, trace, mm, dot, mv, vsub. rewrite !sm1, Em. unfold eye, z. simpl. lra.
Qed.
(** Two samples at -1 and 1 with weight 1, old mean 0 and deviation 1, both bounds 1 and not active: multipliers at their lower end *)
Lemma ln_three_halves : 0 < ln (3 / 2) <= / 2.
Proof. split; [rewrite <- ln_1; apply ln_increasing; lra|]. pose proof (ln_le_sub1 (3 / 2) ltac:(lra)). lra. Qed.
Definition th2 : nat -> vec := fun i _ => if Nat.eqb i 0 then -1 else 1.
Lemma diag_ex_new : con_mu 2 (fun _ => 1) th2 (fun _ => 0) 1 0%nat = 0 /\ con_std 2 (fun _ => 1) th2 (fun _ => 0) (fun _ => 1) 1 1 0%nat ^ 2 = 3 / 2.
Proof.
  assert (Em : con_mu 2 (fun _ => 1) th2 (fun _ => 0) 1 0%nat = 0) by (unfold con_mu, sm, th2; simpl; field).
  split; [exact Em|]. destruct (con_std_sq 2 (fun _ => 1) th2 (fun _ => 0) (fun _ => 1) 1 1 0%nat) as [-> _]; try lra; [intros; lra|unfold sm; simpl; lra|].
  rewrite Em. unfold sqdev, sm, th2. simpl. field.
Qed.
Example diag_con_ex : let f := diag_dual 1 2 (fun _ => 1) th2 (fun _ => 0) (fun _ => 1) 1 1 in
  local_min2 1 f 1 1 /\
  let '(m, s) := diag_con_wmle (fun _ => (1, 1)) 1 2 (fun _ => 0) (fun _ => 1) th2 (fun _ => 1) 1 1 in m 0%nat = 0 /\ s 0%nat ^ 2 = 3 / 2.
Proof.
  intros f. destruct diag_ex_new as [Em Es]. split; [|split; [exact Em|exact Es]].
  split; [lra|]. split; [lra|]. exists (/ 2). split; [lra|]. intros x y Hx Hy Dx Dy. apply Rabs_def2 in Dx. apply Rabs_def2 in Dy.
  assert (EW : sm 2 (fun _ => 1) = 2) by (unfold sm; simpl; lra).
  pose proof (diag_dual_max 1 2 (fun _ => 1) th2 (fun _ => 0) (fun _ => 1) 1 1 x y (con_mu 2 (fun _ => 1) th2 (fun _ => 0) 1) (con_std 2 (fun _ => 1) th2 (fun _ => 0) (fun _ => 1) 1 1)) as G.
  assert (NZ : forall k, (k < 1)%nat -> con_std 2 (fun _ => 1) th2 (fun _ => 0) (fun _ => 1) 1 1 k <> 0).
  { intros k Hk Z. assert (k = 0%nat) as -> by lia. rewrite Z in Es. simpl in Es. lra. }
  specialize (G ltac:(intros; lra) ltac:(lra) ltac:(rewrite EW; lra) ltac:(intros; lra) NZ).
  eapply Rle_trans; [|exact G]. unfold f, diag_dual, diag_lagrangian.
  rewrite !diag_kl_form. unfold diag_entropy, entropy. rewrite !sm1, Es, Em. replace (1 ^ 2) with 1 by ring. rewrite ln_1. simpl INR. pose proof ln_three_halves.
  assert (0 <= (x - 1) * (1 - / 2 * (1 / (3 / 2) - 1 + ln (3 / 2) - 0 + (0 - 0) ^ 2 / (3 / 2)))) by (apply Rmult_le_pos; lra).
  assert (0 <= (y - 1) * (/ 2 * ln (3 / 2) + 1)) by (apply Rmult_le_pos; lra). nra.
Qed.
(** The same case with a full covariance *)
Example chol_con_ex2 : let one : mat := fun _ _ => 1 in let f := chol_dual la1 1 2 (fun _ => 1) th2 (fun _ => 0) (mm 1 one (mt one)) 1 1 in
  local_min2 1 f 1 1 /\
  let '(m, K) := chol_con_wmle la1 (fun _ => (1, 1)) 1 2 (fun _ => 0) one th2 (fun _ => 1) 1 1 in m 0%nat = 0 /\ K 0%nat 0%nat = sqrt (3 / 2).
Proof.
  intros one f. destruct diag_ex_new as [Em _].
  assert (E1 : mm 1 one (mt one) 0%nat 0%nat = 1) by (unfold mm, mt, one; rewrite sm1; ring).
  assert (Es : chol_con_sigma 2 (fun _ => 1) th2 (fun _ => 0) (mm 1 one (mt one)) 1 1 0%nat 0%nat = 3 / 2).
  { unfold chol_con_sigma. cbv zeta. rewrite Em, E1. unfold sm, th2. simpl. field. }
  split; [|split; [exact Em|simpl; rewrite Es; reflexivity]].
  split; [lra|]. split; [lra|]. exists (/ 2). split; [lra|]. intros x y Hx Hy Dx Dy. apply Rabs_def2 in Dx. apply Rabs_def2 in Dy.
  assert (EW : sm 2 (fun _ => 1) = 2) by (unfold sm; simpl; lra).
  assert (LO : lower 1 one) by (split; [intros; lia|intros; unfold one; lra]).
  assert (HP : pd 1 (chol_con_sigma 2 (fun _ => 1) th2 (fun _ => 0) (mm 1 one (mt one)) 1 1)).
  { apply (con_pd 1 2 (fun _ => 1) th2 (fun _ => 0)); [intros; lra|apply lower_pd; auto|lra|rewrite EW; lra]. }
  pose proof (chol_dual_max 1 2 la1 (fun _ => 1) th2 (fun _ => 0) (mm 1 one (mt one)) la1_ok ltac:(intros; lra) (lower_pd 1 one LO) 1 1 x y
    (con_mu 2 (fun _ => 1) th2 (fun _ => 0) 1) _ ltac:(lra) ltac:(rewrite EW; lra) HP) as G.
  eapply Rle_trans; [|exact G]. unfold f, chol_dual, chol_lagrangian, chol_kl, kl_constraint, chol_entropy, entropy, trace, dot, mv, vsub.
  set (LL := chol_loglik la1 1 2 (fun _ => 1) th2 (con_mu 2 (fun _ => 1) th2 (fun _ => 0) 1) (chol_con_sigma 2 (fun _ => 1) th2 (fun _ => 0) (mm 1 one (mt one)) 1 1)).
  rewrite !sm1. rewrite !(mm1 (la_inv la1 (chol_con_sigma 2 (fun _ => 1) th2 (fun _ => 0) (mm 1 one (mt one)) 1 1))). unfold la1. simpl la_inv. simpl la_slogdet. cbv beta. rewrite !E1, Es, Em.
  rewrite !Rabs_right by lra. rewrite ln_1. simpl INR. pose proof ln_three_halves.
  assert (0 <= (x - 1) * (1 - / 2 * (/ (3 / 2) * 1 - 1 + ln (3 / 2) - 0 + (0 - 0) * (/ (3 / 2) * (0 - 0))))) by (apply Rmult_le_pos; lra).
  assert (0 <= (y - 1) * (/ 2 * ln (3 / 2) + 1)) by (apply Rmult_le_pos; lra). nra.
Qed.

Print Assumptions gd_con_wmle_optimal.
Print Assumptions diag_con_wmle_optimal.
Print Assumptions chol_con_wmle_optimal.
Print Assumptions creps_weights_bound.
Print Assumptions creps_update_bounds.
Print Assumptions creps_dual_unbounded_refuted.

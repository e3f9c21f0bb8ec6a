(** The full-covariance update of ConstrainedREPS: its Lagrangian, and continuity of the divergence and
    of the entropy in the multipliers. *)
From Coq Require Import List Bool Arith Lia Reals Lra FunctionalExtensionality.
From Verif Require Import Common Mat GaussModel GaussProofs BboProps ConRepsModel ConRepsSpec ConRepsProofs ConRepsMat.
Import ListNotations.
Local Open Scope R_scope.

Section Chol.
Variables (n N : nat) (A : linalg) (w : vec) (theta : nat -> vec) (mu : vec) (sigma : mat).
Hypothesis OK : linalg_ok n A.
Hypothesis Hw : forall i, (i < N)%nat -> 0 <= w i.
Hypothesis Hsig : pd n sigma.
Local Notation inv := (la_inv A).
Local Notation ld := (la_slogdet A).
Let W := sm N w.
Let m := con_mu N w theta mu.
Let S_ := chol_con_sigma N w theta mu sigma.

Lemma W_nn : 0 <= W.
Proof. apply sm_nonneg; auto. Qed.

(** ** The quadratic form of the new covariance, before the division *)
Definition form (e : R) (u : vec) : R := sqdev N w (fun i _ => dot n (theta i) u) (fun _ => dot n mu u) (fun _ => sqrt (q n sigma u)) e 0%nat (dot n (m e) u).
Lemma form_eq : forall e u, form e u = sm N (fun i => w i * dot n (vsub (theta i) (m e)) u ^ 2) + e * q n sigma u + e * dot n (vsub (m e) mu) u ^ 2.
Proof.
  intros. unfold form, sqdev. rewrite pow2_sqrt by (apply pd_nonneg; auto). rewrite dot_sub_l. f_equal. f_equal. apply sm_ext. intros. rewrite dot_sub_l. reflexivity.
Qed.
Lemma mean_form : forall e u, W + e <> 0 -> dot n (m e) u = con_mu N w (fun i _ => dot n (theta i) u) (fun _ => dot n mu u) e 0%nat.
Proof.
  intros e u H. unfold m, con_mu. fold W. unfold Rdiv. unfold dot at 1.
  rewrite (sm_ext n _ (fun k => (sm N (fun i => w i * theta i k) * u k + e * (mu k * u k)) * / (W + e))) by (intros; ring).
  rewrite sm_scal_r, sm_plus, sm_scal. f_equal. f_equal.
  change (dot n (fun k => sm N (fun i => w i * theta i k)) u = sm N (fun i => w i * dot n (theta i) u)). apply dot_sm.
Qed.
Lemma form_le : forall x y r u, 0 < x -> 0 < y -> 1 <= r -> y <= r * x -> form y u <= r * form x u.
Proof.
  intros x y r u Hx Hy Hr Hyr. pose proof W_nn. unfold form at 1. rewrite mean_form by lra.
  eapply Rle_trans; [apply (sqdev_min N w _ _ _ y 0%nat (dot n (m x) u)); [lra|fold W; lra]|].
  unfold form, sqdev. rewrite !Rmult_plus_distr_l. apply Rplus_le_compat; [apply Rplus_le_compat|].
  - assert (0 <= sm N (fun i => w i * (dot n (theta i) u - dot n (m x) u) ^ 2)) by (apply sm_nonneg; intros; apply Rmult_le_pos; [auto|apply pow2_ge_0]). nra.
  - rewrite <- Rmult_assoc. apply Rmult_le_compat_r; [apply pow2_ge_0|auto].
  - rewrite <- Rmult_assoc. apply Rmult_le_compat_r; [apply pow2_ge_0|auto].
Qed.
Lemma q_con : forall e o u, q n (S_ e o) u = form e u / (W + e - o).
Proof.
  intros e o u. rewrite form_eq. unfold S_, chol_con_sigma, q at 1. cbv zeta. fold m.
  unfold Rdiv. fold W.
  replace (mv n _ u) with (vscal (/ (W + e - o)) (vadd (vadd (mv n (fun a b => sm N (fun i => (theta i a - m e a) * w i * (theta i b - m e b))) u) (vscal e (mv n sigma u)))
     (vscal (e * dot n (vsub (m e) mu) u) (vsub (m e) mu)))).
  - rewrite dot_scal_r, !dot_add_r, !dot_scal_r.
    pose proof (proj1 (outer_psd n N w (fun i => vsub (theta i) (m e)) u Hw)) as E. unfold vsub at 1 2 in E. rewrite E. rewrite (dot_comm n u (vsub (m e) mu)). unfold q. simpl. ring.
  - apply functional_extensionality. intros i. unfold vscal, vadd, mv, vsub, dot. rewrite <- !sm_scal, <- sm_scal_r, <- !sm_plus, <- sm_scal. apply sm_ext. intros j Hj. ring.
Qed.
Lemma form_pos : forall e u, 0 < e -> (exists i, (i < n)%nat /\ u i <> 0) -> 0 < form e u.
Proof.
  intros e u He Hu. rewrite form_eq. pose proof (proj2 Hsig u Hu) as P. fold (q n sigma u) in P.
  assert (0 <= sm N (fun i => w i * dot n (vsub (theta i) (m e)) u ^ 2)) by (apply sm_nonneg; intros; apply Rmult_le_pos; [auto|apply pow2_ge_0]).
  pose proof (pow2_ge_0 (dot n (vsub (m e) mu) u)). nra.
Qed.
Lemma con_pd : forall e o, 0 < e -> 0 < W + e - o -> pd n (S_ e o).
Proof.
  intros e o He HB. split.
  - intros i j Hi Hj. unfold S_, chol_con_sigma. cbv zeta. f_equal. f_equal; [f_equal|]; [|rewrite (proj1 Hsig) by auto; reflexivity|ring]. apply sm_ext. intros. ring.
  - intros u Hu. fold (q n (S_ e o) u). rewrite q_con. apply Rmult_lt_0_compat; [apply form_pos; auto|apply Rinv_0_lt_compat; auto].
Qed.

(** ** The Lagrangian *)
Lemma trace_con : forall Y e o, W + e - o <> 0 -> trace n (mm n Y (S_ e o)) * (W + e - o)
  = sm N (fun i => w i * q n Y (vsub (theta i) (m e))) + e * trace n (mm n Y sigma) + e * q n Y (vsub (m e) mu).
Proof.
  intros Y e o H. unfold S_, chol_con_sigma. cbv zeta. fold W m. unfold Rdiv.
  rewrite (trace_scal n Y (/ (W + e - o)) (fun a b => sm N (fun i => (theta i a - m e a) * w i * (theta i b - m e b)) + e * sigma a b + e * ((m e a - mu a) * (m e b - mu b)))).
  rewrite (trace_plus n Y (fun a b => sm N (fun i => (theta i a - m e a) * w i * (theta i b - m e b)) + e * sigma a b) (fun a b => e * ((m e a - mu a) * (m e b - mu b)))).
  rewrite (trace_plus n Y (fun a b => sm N (fun i => (theta i a - m e a) * w i * (theta i b - m e b))) (fun a b => e * sigma a b)).
  rewrite (trace_sum n Y N (fun i a b => (theta i a - m e a) * w i * (theta i b - m e b))).
  rewrite (sm_ext N (fun i => trace n (mm n Y (fun a b => (theta i a - m e a) * w i * (theta i b - m e b)))) (fun i => w i * q n Y (vsub (theta i) (m e)))).
  - replace (fun a b => e * sigma a b) with (fun a b => sigma a b * e) by (apply functional_extensionality; intros; apply functional_extensionality; intros; ring).
    replace (fun a b => e * ((m e a - mu a) * (m e b - mu b))) with (fun a b => vsub (m e) mu a * vsub (m e) mu b * e) by (apply functional_extensionality; intros; apply functional_extensionality; intros; unfold vsub; ring).
    rewrite (trace_scal n Y e sigma), (trace_scal n Y e (fun a b => vsub (m e) mu a * vsub (m e) mu b)), trace_outer. field. auto.
  - intros i Hi. rewrite <- trace_outer.
    replace (fun a b => (theta i a - m e a) * w i * (theta i b - m e b)) with (fun a b => vsub (theta i) (m e) a * vsub (theta i) (m e) b * w i) by (apply functional_extensionality; intros; apply functional_extensionality; intros; unfold vsub; ring).
    rewrite (trace_scal n Y (w i) (fun a b => vsub (theta i) (m e) a * vsub (theta i) (m e) b)). ring.
Qed.
Lemma chol_lagr_form : forall eps kappa eta omg m' X,
  chol_lagrangian A n N w theta mu sigma eps kappa eta omg m' X
  = (W * (- / 2 * (INR n * ln (2 * PI))) + eta * (eps + / 2 * INR n + / 2 * ld sigma) + omg * (kappa - / 2 * ld sigma))
    - / 2 * (sm N (fun i => w i * q n (inv X) (vsub (theta i) m')) + eta * trace n (mm n (inv X) sigma) + eta * q n (inv X) (vsub m' mu) + (W + eta - omg) * ld X).
Proof.
  intros. unfold chol_lagrangian, chol_loglik, chol_kl, kl_constraint, chol_entropy, entropy. fold (q n (inv X) (vsub m' mu)).
  rewrite (sm_ext N _ (fun i => w i * (- / 2 * ld X - / 2 * (INR n * ln (2 * PI))) + - / 2 * (w i * q n (inv X) (vsub (theta i) m')))) by (intros; unfold q; ring).
  rewrite sm_plus, sm_scal_r, sm_scal. fold W. field.
Qed.
Lemma chol_dual_max : forall eps kappa eta omg m' X, 0 < eta -> 0 < W + eta - omg -> pd n X ->
  chol_lagrangian A n N w theta mu sigma eps kappa eta omg m' X <= chol_dual A n N w theta mu sigma eps kappa eta omg.
Proof.
  intros eps kappa eta omg m' X He HB HX. unfold chol_dual. fold m S_. fold (m eta) (S_ eta omg). rewrite !chol_lagr_form.
  apply Rplus_le_compat_l, Ropp_le_contravar, Rmult_le_compat_l; [lra|].
  pose proof (con_pd eta omg He HB) as HP. pose proof (ok_inv n A OK X HX) as IX. pose proof (ok_inv n A OK _ HP) as IP.
  rewrite <- (trace_con (inv (S_ eta omg)) eta omg) by lra. rewrite (trace_inv n _ _ HP IP).
  pose proof (con_decomp n N w theta mu eta (inv X) m' (inv_sym n X _ HX IX) ltac:(fold W; pose proof W_nn; lra)) as D. cbv zeta in D.
  fold W m in D. fold (m eta) in D.
  change (sm N (fun i => w i * q n (inv X) (vsub (theta i) m')) + eta * q n (inv X) (vsub m' mu)
    = sm N (fun i => w i * q n (inv X) (vsub (theta i) (m eta))) + eta * q n (inv X) (vsub (m eta) mu) + (W + eta) * q n (inv X) (vsub m' (m eta))) in D.
  assert (NQ : 0 <= q n (inv X) (vsub m' (m eta))) by (rewrite (q_inv n X _ _ IX); apply pd_nonneg; auto).
  pose proof (trace_con (inv X) eta omg ltac:(lra)) as T. pose proof (ld_tangent n A OK (S_ eta omg) X HP HX) as G.
  pose proof W_nn. assert (0 <= (W + eta) * q n (inv X) (vsub m' (m eta))) by (apply Rmult_le_pos; lra).
  apply (Rmult_le_compat_l (W + eta - omg)) in G; [|lra]. nra.
Qed.

(** ** Continuity *)
Lemma mean_scale : forall x y k, 0 < x -> 0 < y -> m y k - mu k = (W + x) / (W + y) * (m x k - mu k).
Proof. intros x y k Hx Hy. pose proof W_nn. unfold m, con_mu. fold W. field. lra. Qed.
Lemma order : forall x y ox oy r, 0 < x -> 0 < y -> 0 < W + x - ox -> 0 < W + y - oy -> 1 <= r -> y <= r * x ->
  0 < r * ((W + x - ox) / (W + y - oy)) /\ forall u, q n (S_ y oy) u <= r * ((W + x - ox) / (W + y - oy)) * q n (S_ x ox) u.
Proof.
  intros x y ox oy r Hx Hy Bx By Hr Hyr. split.
  - apply Rmult_lt_0_compat; [lra|]. apply Rmult_lt_0_compat; [auto|apply Rinv_0_lt_compat; auto].
  - intros u. rewrite !q_con. pose proof (form_le x y r u Hx Hy Hr Hyr) as F.
    replace (r * ((W + x - ox) / (W + y - oy)) * (form x u / (W + x - ox))) with (r * form x u / (W + y - oy)) by (field; lra).
    apply Rmult_le_compat_r; [left; apply Rinv_0_lt_compat; auto|auto].
Qed.
Definition kl_at (e o : R) : R := chol_kl A n mu sigma (m e) (S_ e o).
Lemma kl_at_eq : forall e o, kl_at e o = / 2 * (trace n (mm n (inv (S_ e o)) sigma) - INR n + ld (S_ e o) - ld sigma + q n (inv (S_ e o)) (vsub (m e) mu)).
Proof. reflexivity. Qed.
Definition rr (x y : R) : R := 1 + Rabs (y - x) / x + Rabs (y - x) / y.
Lemma rr_spec : forall x y, 0 < x -> 0 < y -> 1 <= rr x y /\ y <= rr x y * x /\ x <= rr x y * y.
Proof.
  intros x y Hx Hy. unfold rr. set (a := Rabs (y - x)). assert (0 <= a) by apply Rabs_pos. assert (y - x <= a) by apply Rle_abs.
  assert (x - y <= a) by (unfold a; rewrite Rabs_minus_sym; apply Rle_abs).
  assert (0 <= a / x) by (apply Rmult_le_pos; [lra|left; apply Rinv_0_lt_compat; auto]). assert (0 <= a / y) by (apply Rmult_le_pos; [lra|left; apply Rinv_0_lt_compat; auto]).
  split; [lra|]. split.
  - replace ((1 + a / x + a / y) * x) with (x + a + a / y * x) by (field; lra). assert (0 <= a / y * x) by (apply Rmult_le_pos; lra). lra.
  - replace ((1 + a / x + a / y) * y) with (y + a + a / x * y) by (field; lra). assert (0 <= a / x * y) by (apply Rmult_le_pos; lra). lra.
Qed.
Lemma kl_cont : forall eta omg, 0 < eta -> 0 < W + eta - omg -> continuity_pt (fun e => kl_at e omg) eta.
Proof.
  intros eta omg He HB. pose proof W_nn as Wn.
  set (a := fun y => rr eta y * ((W + eta - omg) / (W + y - omg))). set (c := fun y => rr eta y * ((W + y - omg) / (W + eta - omg))).
  set (f := fun y => ((W + eta) / (W + y)) ^ 2).
  set (t := trace n (mm n (inv (S_ eta omg)) sigma)). set (s := q n (inv (S_ eta omg)) (vsub (m eta) mu)). set (l := ld (S_ eta omg)).
  set (d := Rmin (eta / 2) ((W + eta - omg) / 2)). assert (Hd : 0 < d) by (apply Rmin_glb_lt; lra).
  assert (d <= eta / 2) by apply Rmin_l. assert (d <= (W + eta - omg) / 2) by apply Rmin_r.
  assert (R1 : rr eta eta = 1) by (unfold rr; rewrite Rminus_diag_eq by reflexivity; rewrite Rabs_R0; unfold Rdiv; ring).
  assert (A1 : a eta = 1) by (unfold a; rewrite R1; field; lra). assert (C1 : c eta = 1) by (unfold c; rewrite R1; field; lra).
  assert (F1 : f eta = 1) by (unfold f; replace ((W + eta) / (W + eta)) with 1 by (field; lra); ring).
  assert (CR : continuity_pt (fun y => rr eta y) eta).
  { unfold rr. apply c_plus; [apply c_plus; [apply c_const|]|]; apply c_div; try apply c_const; try apply c_id; try lra; apply (c_abs (fun y => y - eta)); apply c_minus; try apply c_id; apply c_const. }
  assert (CA : continuity_pt a eta).
  { unfold a. apply c_mult; [exact CR|]. apply c_div; [apply c_const|apply c_minus; [apply c_plus; [apply c_const|apply c_id]|apply c_const]|lra]. }
  assert (CC : continuity_pt c eta).
  { unfold c. apply c_mult; [exact CR|]. apply c_div; [apply c_minus; [apply c_plus; [apply c_const|apply c_id]|apply c_const]|apply c_const|lra]. }
  assert (CF : continuity_pt f eta).
  { unfold f. apply c_pow2. apply c_div; [apply c_const|apply c_plus; [apply c_const|apply c_id]|lra]. }
  apply (squeeze _ (fun y => / 2 * (t / a y - INR n + (l + INR n - c y * INR n) - ld sigma + f y * (s / a y)))
                   (fun y => / 2 * (c y * t - INR n + (l + a y * INR n - INR n) - ld sigma + f y * (c y * s))) eta d Hd).
  - intros y Hy. apply Rabs_def2 in Hy. rewrite kl_at_eq.
    assert (Py : 0 < y) by lra. assert (By : 0 < W + y - omg) by lra.
    destruct (rr_spec eta y He Py) as (Q1 & Q2 & Q3).
    destruct (order eta y omg omg (rr eta y) He Py HB By Q1 Q2) as [Pa Oa]. fold (a y) in Pa, Oa.
    destruct (order y eta omg omg (rr eta y) Py He By HB Q1 Q3) as [Pc Oc]. fold (c y) in Pc, Oc.
    pose proof (con_pd eta omg He HB) as HP. pose proof (con_pd y omg Py By) as HQ.
    pose proof (ld_le n A OK _ _ (a y) HP HQ Pa Oa) as L1. pose proof (ld_le n A OK _ _ (c y) HQ HP Pc Oc) as L2. fold l in L1, L2.
    pose proof (tr_le n A OK _ _ sigma (a y) HP HQ Hsig Pa Oa) as T1. pose proof (tr_le n A OK _ _ sigma (c y) HQ HP Hsig Pc Oc) as T2. fold t in T1, T2.
    pose proof (inv_anti n _ _ (inv (S_ eta omg)) (inv (S_ y omg)) (a y) HP HQ (ok_inv n A OK _ HP) (ok_inv n A OK _ HQ) Pa Oa (vsub (m eta) mu)) as I1.
    pose proof (inv_anti n _ _ (inv (S_ y omg)) (inv (S_ eta omg)) (c y) HQ HP (ok_inv n A OK _ HQ) (ok_inv n A OK _ HP) Pc Oc (vsub (m eta) mu)) as I2. fold s in I1, I2.
    assert (EQ : q n (inv (S_ y omg)) (vsub (m y) mu) = f y * q n (inv (S_ y omg)) (vsub (m eta) mu)).
    { unfold q. replace (vsub (m y) mu) with (vscal ((W + eta) / (W + y)) (vsub (m eta) mu)).
      - rewrite mv_scal, dot_scal_l, dot_scal_r. unfold f. ring.
      - apply functional_extensionality. intros k. unfold vscal, vsub. symmetry. apply mean_scale; auto. }
    rewrite EQ. assert (Pf : 0 <= f y) by apply pow2_ge_0.
    set (Ty := trace n (mm n (inv (S_ y omg)) sigma)) in *. set (Sy := q n (inv (S_ y omg)) (vsub (m eta) mu)) in *. set (Ly := ld (S_ y omg)) in *.
    assert (T1' : t / a y <= Ty) by (apply (Rmult_le_reg_l (a y)); auto; replace (a y * (t / a y)) with t by (field; lra); auto).
    assert (I1' : s / a y <= Sy) by (apply (Rmult_le_reg_l (a y)); auto; replace (a y * (s / a y)) with s by (field; lra); auto).
    pose proof (Rmult_le_compat_l _ _ _ Pf I1'). pose proof (Rmult_le_compat_l _ _ _ Pf I2). lra.
  - rewrite A1, C1, F1, kl_at_eq. fold t s l. field.
  - rewrite A1, C1, F1, kl_at_eq. fold t s l. field.
  - assert (a eta <> 0) by (rewrite A1; lra).
    repeat (first [apply c_div|apply c_mult|apply c_minus|apply c_plus]; try apply c_const; auto).
  - repeat (first [apply c_div|apply c_mult|apply c_minus|apply c_plus]; try apply c_const; auto).
Qed.
Lemma entropy_cont : forall eta omg, 0 < eta -> 0 < W + eta - omg -> continuity_pt (fun o => chol_entropy A n (S_ eta o)) omg.
Proof.
  intros eta omg He HB. pose proof W_nn as Wn. set (l := ld (S_ eta omg)).
  set (a := fun y => 1 * ((W + eta - omg) / (W + eta - y))). set (c := fun y => 1 * ((W + eta - y) / (W + eta - omg))).
  set (d := (W + eta - omg) / 2). assert (Hd : 0 < d) by (unfold d; lra).
  assert (A1 : a omg = 1) by (unfold a; field; lra). assert (C1 : c omg = 1) by (unfold c; field; lra).
  assert (CA : continuity_pt a omg) by (unfold a; apply c_mult; [apply c_const|]; apply c_div; [apply c_const|apply c_minus; [apply c_const|apply c_id]|lra]).
  assert (CC : continuity_pt c omg) by (unfold c; apply c_mult; [apply c_const|]; apply c_div; [apply c_minus; [apply c_const|apply c_id]|apply c_const|lra]).
  apply (squeeze _ (fun y => / 2 * (l + INR n - c y * INR n + INR n * ln (2 * PI) + INR n)) (fun y => / 2 * (l + a y * INR n - INR n + INR n * ln (2 * PI) + INR n)) omg d Hd).
  - intros y Hy. apply Rabs_def2 in Hy. unfold d in Hy. unfold chol_entropy, entropy. assert (By : 0 < W + eta - y) by lra.
    destruct (order eta eta omg y 1 He He HB By ltac:(lra) ltac:(lra)) as [Pa Oa]. fold (a y) in Pa, Oa.
    destruct (order eta eta y omg 1 He He By HB ltac:(lra) ltac:(lra)) as [Pc Oc]. fold (c y) in Pc, Oc.
    pose proof (con_pd eta omg He HB) as HP. pose proof (con_pd eta y He By) as HQ.
    pose proof (ld_le n A OK _ _ (a y) HP HQ Pa Oa) as L1. pose proof (ld_le n A OK _ _ (c y) HQ HP Pc Oc) as L2. fold l in L1, L2. lra.
  - rewrite C1. unfold chol_entropy, entropy. fold l. field.
  - rewrite A1. unfold chol_entropy, entropy. fold l. field.
  - repeat (first [apply c_mult|apply c_minus|apply c_plus]; try apply c_const; auto).
  - repeat (first [apply c_mult|apply c_minus|apply c_plus]; try apply c_const; auto).
Qed.
End Chol.

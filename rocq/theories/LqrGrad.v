(** Derivative of the solution of a linear system with respect to a parameter. *)
From Coq Require Import List Arith Lia Reals Bool Lra Psatz FunctionalExtensionality.
From Verif Require Import Common Mat.
Import ListNotations.
Local Open Scope R_scope.

Definition n1 (N : nat) (v : vec) : R := sm N (fun i => Rabs (v i)).
Definition m1 (N : nat) (X : mat) : R := sm N (fun i => sm N (fun j => Rabs (X i j))).
Lemma n1_nonneg : forall N v, 0 <= n1 N v.
Proof. intros. apply sm_nonneg. intros. apply Rabs_pos. Qed.
Lemma m1_nonneg : forall N v, 0 <= m1 N v.
Proof. intros. apply sm_nonneg. intros. apply n1_nonneg. Qed.
Lemma sm_abs : forall N f, Rabs (sm N f) <= sm N (fun i => Rabs (f i)).
Proof.
  induction N; intros f; [unfold sm; simpl; rewrite Rabs_R0; lra|]. rewrite !sm_S. eapply Rle_trans; [apply Rabs_triang|]. apply Rplus_le_compat_r. auto.
Qed.
Lemma n1_entry : forall N v i, (i < N)%nat -> Rabs (v i) <= n1 N v.
Proof.
  intros N v i Hi. unfold n1. apply Rle_trans with (sm N (fun j => if Nat.eqb j i then Rabs (v i) else 0)).
  - rewrite (sm_single N i); auto; [rewrite Nat.eqb_refl; lra|]. intros j Hj NE. destruct (Nat.eqb_spec j i); [congruence|reflexivity].
  - apply sm_le. intros j Hj. destruct (Nat.eqb_spec j i); [subst; lra|apply Rabs_pos].
Qed.
Lemma n1_mv : forall N X v, n1 N (mv N X v) <= m1 N X * n1 N v.
Proof.
  intros. unfold n1 at 1, m1. rewrite <- sm_scal_r. apply sm_le. intros i Hi. unfold mv. eapply Rle_trans; [apply sm_abs|].
  rewrite <- sm_scal_r. apply sm_le. intros j Hj. rewrite Rabs_mult. apply Rmult_le_compat_l; [apply Rabs_pos|]. apply n1_entry. auto.
Qed.
Lemma n1_add : forall N u v, n1 N (vadd u v) <= n1 N u + n1 N v.
Proof. intros. unfold n1, vadd. rewrite <- sm_plus. apply sm_le. intros. apply Rabs_triang. Qed.
Lemma n1_scal : forall N c v, n1 N (vscal c v) = Rabs c * n1 N v.
Proof. intros. unfold n1, vscal. rewrite <- sm_scal. apply sm_ext. intros. apply Rabs_mult. Qed.
Lemma n1_ext : forall N u v, (forall i, (i < N)%nat -> u i = v i) -> n1 N u = n1 N v.
Proof. intros. apply sm_ext. intros. rewrite H; auto. Qed.

(** If M(t) x(t) = b(t) with M(t) = M0 + t M1 + t^2 M2 and b(t) = b0 + t b1 + t^2 b2 for small t, and M0 has the
    left inverse I, then x'(0) = I (b1 - M1 x(0)). *)
Lemma solution_derivative : forall N (M0 M1 M2 I : mat) (b0 b1 b2 : vec) (x : R -> vec) r, 0 < r ->
  (forall i j, (i < N)%nat -> (j < N)%nat -> mm N I M0 i j = eye i j) ->
  (forall t, Rabs t < r -> forall i, (i < N)%nat -> mv N (madd M0 (madd (mscal t M1) (mscal (t * t) M2))) (x t) i = b0 i + t * b1 i + t * t * b2 i) ->
  forall i, (i < N)%nat -> derivable_pt_lim (fun t => x t i) 0 (mv N I (vsub b1 (mv N M1 (x 0))) i).
Proof.
  intros N M0 M1 M2 I b0 b1 b2 x r Hr IM EQ.
  set (x0 := x 0). set (dx := mv N I (vsub b1 (mv N M1 x0))). set (d := fun t => vsub (x t) x0).
  assert (INVv : forall v i, (i < N)%nat -> mv N I (mv N M0 v) i = v i).
  { intros v i Hi. rewrite <- mv_mm. rewrite (mv_ext N (mm N I M0) eye v v) by auto. apply mv_eye; auto. }
  assert (E0 : forall i, (i < N)%nat -> mv N M0 x0 i = b0 i).
  { intros i Hi. pose proof (EQ 0 ltac:(rewrite Rabs_R0; auto) i Hi) as H. fold x0 in H. rewrite !mv_madd, !mv_mscal in H. unfold vadd, vscal in H. lra. }
  assert (ED : forall t, Rabs t < r -> forall i, (i < N)%nat ->
     d t i = t * dx i + (- t * mv N I (mv N M1 (d t)) i + t * t * mv N I (vsub b2 (mv N M2 (vadd x0 (d t)))) i)).
  { intros t Ht i Hi. rewrite <- (INVv (d t) i Hi). unfold dx.
    assert (Z : forall k, (k < N)%nat -> mv N M0 (d t) k = t * b1 k - t * mv N M1 x0 k + (- t * mv N M1 (d t) k + t * t * (b2 k - mv N M2 (vadd x0 (d t)) k))).
    { intros k Hk. pose proof (EQ t Ht k Hk) as H. rewrite !mv_madd, !mv_mscal in H.
      assert (XE : x t = vadd x0 (d t)) by (apply functional_extensionality; intros q; unfold vadd, d, vsub; ring).
      unfold vadd, vscal in H. rewrite <- XE. pose proof (E0 k Hk). unfold d in *. rewrite !mv_sub. unfold vsub. lra. }
    rewrite (mv_ext N I I (mv N M0 (d t)) (vadd (vscal t (vsub b1 (mv N M1 x0))) (vadd (vscal (- t) (mv N M1 (d t))) (vscal (t * t) (vsub b2 (mv N M2 (vadd x0 (d t)))))))); auto.
    - rewrite !mv_add, !mv_scal. reflexivity.
    - intros k Hk. rewrite Z by auto. unfold vadd, vscal, vsub. ring. }
  set (a := m1 N I * m1 N M1). set (c := m1 N I * m1 N M2). set (e := m1 N I * (n1 N b2 + m1 N M2 * n1 N x0)). set (q := n1 N dx).
  assert (a0 : 0 <= a) by (apply Rmult_le_pos; apply m1_nonneg). assert (c0 : 0 <= c) by (apply Rmult_le_pos; apply m1_nonneg).
  assert (e0 : 0 <= e) by (apply Rmult_le_pos; [apply m1_nonneg|]; apply Rplus_le_le_0_compat; [apply n1_nonneg|apply Rmult_le_pos; [apply m1_nonneg|apply n1_nonneg]]).
  assert (q0 : 0 <= q) by apply n1_nonneg.
  (* the remainder *)
  set (rem := fun t => vadd (vscal (- t) (mv N I (mv N M1 (d t)))) (vscal (t * t) (mv N I (vsub b2 (mv N M2 (vadd x0 (d t))))))).
  assert (BR : forall t, n1 N (rem t) <= Rabs t * a * n1 N (d t) + Rabs t * Rabs t * (e + c * n1 N (d t))).
  { intros t. unfold rem. eapply Rle_trans; [apply n1_add|]. rewrite !n1_scal, Rabs_Ropp, Rabs_mult.
    apply Rplus_le_compat.
    - rewrite Rmult_assoc. apply Rmult_le_compat_l; [apply Rabs_pos|]. unfold a. eapply Rle_trans; [apply n1_mv|]. rewrite Rmult_assoc. apply Rmult_le_compat_l; [apply m1_nonneg|]. apply n1_mv.
    - apply Rmult_le_compat_l; [apply Rmult_le_pos; apply Rabs_pos|]. eapply Rle_trans; [apply n1_mv|]. unfold e, c.
      replace (m1 N I * (n1 N b2 + m1 N M2 * n1 N x0) + m1 N I * m1 N M2 * n1 N (d t)) with (m1 N I * (n1 N b2 + m1 N M2 * (n1 N x0 + n1 N (d t)))) by ring.
      apply Rmult_le_compat_l; [apply m1_nonneg|].
      change (vsub b2 (mv N M2 (vadd x0 (d t)))) with (fun k => b2 k - mv N M2 (vadd x0 (d t)) k).
      rewrite (n1_ext N (fun k => b2 k - mv N M2 (vadd x0 (d t)) k) (vadd b2 (vscal (-1) (mv N M2 (vadd x0 (d t)))))) by (intros; unfold vadd, vscal; ring).
      eapply Rle_trans; [apply n1_add|]. apply Rplus_le_compat_l. rewrite n1_scal. replace (Rabs (-1)) with 1 by (rewrite Rabs_left; lra). rewrite Rmult_1_l.
      eapply Rle_trans; [apply n1_mv|]. apply Rmult_le_compat_l; [apply m1_nonneg|]. apply n1_add. }
  assert (BD : forall t, Rabs t < r -> n1 N (d t) <= Rabs t * q + n1 N (rem t)).
  { intros t Ht. rewrite (n1_ext N (d t) (vadd (vscal t dx) (rem t))) by (intros k Hk; rewrite (ED t Ht k Hk); unfold rem, vadd, vscal; ring).
    eapply Rle_trans; [apply n1_add|]. rewrite n1_scal. unfold q. lra. }
  set (D := 2 * (q + e)).
  assert (BD2 : forall t, Rabs t < r -> Rabs t <= 1 -> Rabs t * (a + c) <= / 2 -> n1 N (d t) <= Rabs t * D).
  { intros t H1 H2 H3. pose proof (BD t H1). pose proof (BR t). pose proof (n1_nonneg N (d t)). pose proof (Rabs_pos t). set (T := Rabs t) in *. set (z := n1 N (d t)) in *.
    assert (TT : T * T <= T * 1) by (apply Rmult_le_compat_l; auto). assert (cz : 0 <= c * z) by (apply Rmult_le_pos; auto).
    assert (S1 : T * T * (e + c * z) <= T * 1 * (e + c * z)) by (apply Rmult_le_compat_r; lra).
    assert (S2 : T * (a + c) * z <= / 2 * z) by (apply Rmult_le_compat_r; auto). unfold D. lra. }
  intros i Hi eps He.
  set (C := a * D + e + c * D).
  assert (D0 : 0 <= D) by (unfold D; lra). assert (C0 : 0 <= C) by (unfold C; pose proof (Rmult_le_pos a D a0 D0); pose proof (Rmult_le_pos c D c0 D0); lra).
  set (del := Rmin (Rmin r 1) (Rmin (/ (2 * (a + c + 1))) (eps / (C + 1)))).
  assert (dp : 0 < del).
  { unfold del. repeat apply Rmin_glb_lt; auto; try lra; [apply Rinv_0_lt_compat; lra|apply Rdiv_lt_0_compat; lra]. }
  exists (mkposreal del dp). intros h Hh Hd. simpl in Hd. rewrite Rplus_0_l. fold x0.
  assert (B1 : Rabs h < r /\ Rabs h <= 1 /\ Rabs h < / (2 * (a + c + 1)) /\ Rabs h < eps / (C + 1)).
  { unfold del in Hd. pose proof (Rmin_l (Rmin r 1) (Rmin (/ (2 * (a + c + 1))) (eps / (C + 1)))). pose proof (Rmin_r (Rmin r 1) (Rmin (/ (2 * (a + c + 1))) (eps / (C + 1)))).
    pose proof (Rmin_l r 1). pose proof (Rmin_r r 1). pose proof (Rmin_l (/ (2 * (a + c + 1))) (eps / (C + 1))). pose proof (Rmin_r (/ (2 * (a + c + 1))) (eps / (C + 1))). repeat split; lra. }
  destruct B1 as (B1 & B2 & B3 & B4).
  assert (B5 : Rabs h * (a + c) <= / 2).
  { assert (Rabs h * (2 * (a + c + 1)) <= 1). { apply Rmult_le_reg_r with (/ (2 * (a + c + 1))); [apply Rinv_0_lt_compat; lra|]. rewrite Rmult_assoc, Rinv_r by lra. lra. } pose proof (Rabs_pos h). nra. }
  pose proof (BD2 h B1 B2 B5) as BB. pose proof (BR h) as RR. pose proof (n1_entry N (rem h) i Hi) as RE. pose proof (n1_nonneg N (d h)) as DN.
  assert (HP : 0 < Rabs h) by (apply Rabs_pos_lt; auto).
  assert (FE : (x h i - x0 i) / h - dx i = rem h i / h).
  { pose proof (ED h B1 i Hi) as E. unfold d at 1, vsub at 1 in E. rewrite E. unfold rem, vadd, vscal. field. auto. }
  rewrite FE. unfold Rdiv. rewrite Rabs_mult, Rabs_inv. apply Rmult_lt_reg_r with (Rabs h); auto. rewrite Rmult_assoc, Rinv_l, Rmult_1_r by lra.
  eapply Rle_lt_trans; [apply RE|]. eapply Rle_lt_trans; [apply RR|].
  set (T := Rabs h) in *. set (z := n1 N (d h)) in *.
  assert (S1 : T * a * z <= T * T * (a * D)). { replace (T * T * (a * D)) with (T * a * (T * D)) by ring. apply Rmult_le_compat_l; auto. apply Rmult_le_pos; lra. }
  assert (S2 : T * T * (e + c * z) <= T * T * (e + c * D)). { apply Rmult_le_compat_l; [apply Rmult_le_pos; lra|]. apply Rplus_le_compat_l. apply Rmult_le_compat_l; auto. apply Rle_trans with (T * D); auto. rewrite <- (Rmult_1_l D) at 2. apply Rmult_le_compat_r; auto. }
  assert (S3 : T * T * (a * D) + T * T * (e + c * D) = T * (T * C)) by (unfold C; ring).
  assert (S4 : T * C < eps).
  { assert (T * (C + 1) < eps). { apply Rmult_lt_reg_r with (/ (C + 1)); [apply Rinv_0_lt_compat; lra|]. rewrite Rmult_assoc, Rinv_r by lra. unfold Rdiv in B4. lra. } lra. }
  assert (S5 : T * (T * C) < T * eps) by (apply Rmult_lt_compat_l; auto). lra.
Qed.

(** Sums of derivatives *)
Lemma sm_derivable : forall N (f : nat -> R -> R) (f' : nat -> R) t, (forall i, (i < N)%nat -> derivable_pt_lim (f i) t (f' i)) ->
  derivable_pt_lim (fun u => sm N (fun i => f i u)) t (sm N f').
Proof.
  induction N; intros f f' t H.
  - unfold sm. simpl. apply derivable_pt_lim_const.
  - rewrite sm_S. assert (E : (fun u => sm (S N) (fun i => f i u)) = plus_fct (fun u => sm N (fun i => f i u)) (f N)) by (apply functional_extensionality; intros; unfold plus_fct; apply sm_S).
    rewrite E. apply derivable_pt_lim_plus; auto.
Qed.
Lemma dl_scal : forall c f t f', derivable_pt_lim f t f' -> derivable_pt_lim (fun u => c * f u) t (c * f').
Proof. intros. apply (derivable_pt_lim_scal f c t f' H). Qed.
Lemma dl_scal_r : forall c f t f', derivable_pt_lim f t f' -> derivable_pt_lim (fun u => f u * c) t (f' * c).
Proof.
  intros. replace (fun u => f u * c) with (fun u => c * f u) by (apply functional_extensionality; intros; ring). rewrite (Rmult_comm f' c). apply dl_scal; auto.
Qed.
Lemma dl_plus : forall f g t f' g', derivable_pt_lim f t f' -> derivable_pt_lim g t g' -> derivable_pt_lim (fun u => f u + g u) t (f' + g').
Proof. intros. apply (derivable_pt_lim_plus f g t f' g'); auto. Qed.
Lemma dl_const : forall c t, derivable_pt_lim (fun _ => c) t 0.
Proof. intros. apply derivable_pt_lim_const. Qed.
Lemma dl_eq : forall f g t a b, derivable_pt_lim f t a -> (forall u, f u = g u) -> a = b -> derivable_pt_lim g t b.
Proof. intros f g t a b H E <-. replace g with f by (apply functional_extensionality; auto). auto. Qed.

(** Properties C53 and C51 (distribution part). *)
From Coq Require Import List Arith Lia Reals Lra FunctionalExtensionality.
From Verif Require Import Common Mat LqrGrad GaussModel GaussProofs.
Import ListNotations.
Local Open Scope R_scope.

(** * C53: the score functions are the derivatives of the log densities in every direction *)
Theorem gd_score : forall n mu S ld d x, (forall i j, (i < n)%nat -> (j < n)%nat -> S i j = S j i) ->
  derivable_pt_lim (fun t => logpdf n (vadd mu (vscal t d)) S ld x) 0 (dot n (gd_diff_log n S mu x) d).
Proof.
  intros n mu S ld d x Hs. eapply dl_eq; [apply (logpdf_mean_derivative n (fun t => vadd mu (vscal t d)) d S ld x)|reflexivity|].
  - intros k Hk. unfold vadd, vscal. apply dl_line.
  - unfold gd_diff_log, dot, mv, vadd, vscal, vsub. rewrite <- sm_scal.
    rewrite (sm_ext n (fun i => sm n (fun j => S i j * (x j - mu j)) * d i) (fun i => sm n (fun j => d i * S i j * (x j - mu j)))) by (intros; rewrite <- sm_scal_r; apply sm_ext; intros; ring).
    rewrite sm_swap. apply sm_ext. intros o Ho. rewrite <- sm_scal_r, <- sm_scal. apply sm_ext. intros q Hq. rewrite (Hs o q) by auto. field.
Qed.

Lemma join_lo : forall n a b k, (k < n)%nat -> join n a b k = a k.
Proof. intros. unfold join. destruct (Nat.ltb_spec k n); [auto|lia]. Qed.
Lemma join_hi : forall n a b k, join n a b (n + k)%nat = b k.
Proof. intros. unfold join. destruct (Nat.ltb_spec (n + k)%nat n); [lia|]. f_equal. lia. Qed.
Lemma dot_join : forall n m a b d, dot (n + m)%nat (join n a b) d = sm n (fun k => a k * d k) + sm m (fun k => b k * d (n + k)%nat).
Proof.
  intros. unfold dot. rewrite sm_app. f_equal; apply sm_ext; intros k Hk; [rewrite join_lo by auto; reflexivity|rewrite join_hi; reflexivity].
Qed.

(** The parameter vector is [rho]; the standard deviations need not be positive. *)
Theorem diag_score : forall n rho d x, (forall k, (k < n)%nat -> hi n rho k <> 0) ->
  derivable_pt_lim (fun t => let r := vadd rho (vscal t d) in diag_logpdf n (lo r) (fun k => hi n r k ^ 2) x) 0
    (dot (n + n)%nat (diag_diff_log n (lo rho) (hi n rho) x) d).
Proof.
  intros n rho d x Hp. cbv zeta.
  eapply dl_eq; [apply (diag_logpdf_derivative n (fun t => lo (vadd rho (vscal t d))) (fun t k => hi n (vadd rho (vscal t d)) k ^ 2) d (fun k => 2 * hi n rho k * d (n + k)%nat) x)|reflexivity|].
  - intros k Hk. apply dl_line.
  - intros k Hk. eapply dl_eq; [apply (dl_sqr (fun t => rho (n + k)%nat + t * d (n + k)%nat)); apply dl_line|reflexivity|].
    unfold hi. rewrite Rmult_0_l, Rplus_0_r. reflexivity.
  - intros k Hk. apply sq_pos. unfold hi, vadd, vscal. rewrite Rmult_0_l, Rplus_0_r. apply Hp. auto.
  - unfold diag_diff_log. rewrite dot_join, <- sm_plus. apply sm_ext. intros k Hk. specialize (Hp k Hk).
    unfold hi, lo, vadd, vscal, vsub in *. rewrite !Rmult_0_l, !Rplus_0_r. field. auto.
Qed.

(** Setting and reading the parameters of the Cholesky parametrisation *)
Theorem chol_parameters : forall n mu L rho, length rho = chol_size n ->
  length (chol_get n mu L) = chol_size n /\
  chol_get n (fst (chol_set n L rho)) (snd (chol_set n L rho)) = rho /\
  (forall k, (k < n)%nat -> fst (chol_set n L (chol_get n mu L)) k = mu k) /\
  (forall i j, snd (chol_set n L (chol_get n mu L)) i j = L i j) /\
  (forall i j, (i < j)%nat -> snd (chol_set n L rho) i j = L i j).
Proof.
  intros n mu L rho HL. rewrite chol_size_eq in HL.
  assert (G : length (chol_get n mu L) = chol_size n) by (unfold chol_get; rewrite app_length, !map_length, seq_length, chol_size_eq; reflexivity).
  assert (SK : skipn n (chol_get n mu L) = map (fun p => L (fst p) (snd p)) (tril n)).
  { unfold chol_get. rewrite skipn_app, skipn_all2 by (rewrite map_length, seq_length; lia). rewrite map_length, seq_length, Nat.sub_diag. reflexivity. }
  split; [auto|]. split; [|split; [|split]].
  - unfold chol_get, chol_set. simpl fst. simpl snd. fold (mfill (combine (tril n) (skipn n rho)) L).
    rewrite mfill_get; [|apply tril_NoDup|rewrite skipn_length; lia].
    rewrite <- firstn_mapseq by lia. apply firstn_skipn.
  - intros k Hk. unfold chol_set, chol_get. simpl fst. rewrite app_nth1 by (rewrite map_length, seq_length; auto).
    rewrite nth_mapseq by auto. reflexivity.
  - intros i j. unfold chol_set. simpl snd. fold (mfill (combine (tril n) (skipn n (chol_get n mu L))) L). rewrite SK.
    destruct (in_dec (fun p q : nat * nat => ltac:(decide equality; apply Nat.eq_dec)) (i, j) (tril n)) as [I|NI].
    + apply mfill_in; [rewrite map_fst_combine by (rewrite map_length; auto); apply tril_NoDup|].
      apply (combine_map_in (i, j) (fun p => L (fst p) (snd p))). auto.
    + apply mfill_other. rewrite map_fst_combine by (rewrite map_length; auto). auto.
  - intros i j Hij. unfold chol_set. simpl snd. apply mfill_other. rewrite map_fst_combine by (rewrite skipn_length; lia). intros I. apply tril_in in I. lia.
Qed.

(** Moving along the direction [d] in parameter space *)
Lemma chol_line : forall n mu L d, length d = chol_size n ->
  let D := snd (chol_set n (fun _ _ => 0) d) in
  skipn n d = map (fun p => D (fst p) (snd p)) (tril n) /\
  (forall i j, (i < j)%nat -> D i j = 0) /\
  forall t, (forall k, (k < n)%nat -> fst (chol_set n L (vaddl (chol_get n mu L) t d)) k = mu k + t * nth k d 0) /\
            (forall i j, snd (chol_set n L (vaddl (chol_get n mu L) t d)) i j = L i j + t * D i j).
Proof.
  intros n mu L d HL D. pose proof HL as HL0. rewrite chol_size_eq in HL.
  assert (SK : skipn n d = map (fun p => D (fst p) (snd p)) (tril n)).
  { unfold D, chol_set. simpl snd. fold (mfill (combine (tril n) (skipn n d)) (fun _ _ => 0)). rewrite mfill_get; auto; [apply tril_NoDup|rewrite skipn_length; lia]. }
  split; [auto|]. split.
  - intros i j Hij. unfold D, chol_set. simpl snd. fold (mfill (combine (tril n) (skipn n d)) (fun _ _ => 0)). rewrite mfill_other; auto. rewrite map_fst_combine by (rewrite skipn_length; lia). intros I. apply tril_in in I. lia.
  - intros t.
    assert (F : firstn n d = map (fun k => nth k d 0) (seq 0 n)).
    { apply firstn_mapseq. lia. }
    assert (V : vaddl (chol_get n mu L) t d = map (fun k => mu k + t * nth k d 0) (seq 0 n) ++ map (fun p => L (fst p) (snd p) + t * D (fst p) (snd p)) (tril n)).
    { rewrite <- (firstn_skipn n d) at 1. unfold chol_get. rewrite vaddl_app by (rewrite map_length, seq_length, firstn_length; lia).
      rewrite F, SK. rewrite !vaddl_map. reflexivity. }
    rewrite V. split.
    + intros k Hk. unfold chol_set. simpl fst. rewrite app_nth1 by (rewrite map_length, seq_length; auto).
      rewrite nth_mapseq by auto. reflexivity.
    + intros i j. unfold chol_set. simpl snd.
      rewrite skipn_app, skipn_all2 by (rewrite map_length, seq_length; lia). rewrite map_length, seq_length, Nat.sub_diag. simpl app. simpl skipn.
      fold (mfill (combine (tril n) (map (fun p => L (fst p) (snd p) + t * D (fst p) (snd p)) (tril n))) L).
      destruct (in_dec (fun p q : nat * nat => ltac:(decide equality; apply Nat.eq_dec)) (i, j) (tril n)) as [I|NI].
      * apply mfill_in; [rewrite map_fst_combine by (rewrite map_length; auto); apply tril_NoDup|].
        apply (combine_map_in (i, j) (fun p => L (fst p) (snd p) + t * D (fst p) (snd p))). auto.
      * rewrite mfill_other by (rewrite map_fst_combine by (rewrite map_length; auto); auto).
        unfold D, chol_set. simpl snd. fold (mfill (combine (tril n) (skipn n d)) (fun _ _ => 0)).
        rewrite mfill_other by (rewrite map_fst_combine by (rewrite skipn_length; lia); auto). ring.
Qed.

(** diff_log of the Cholesky parametrisation: for every direction [d] in parameter space, with
    [Sinv t] any inverse of the covariance matrix at parameters get_parameters() + t d. *)
Theorem chol_score : forall n mu L IL d x (Sinv : R -> mat) r,
  (forall i j, (i < n)%nat -> (j < n)%nat -> (i < j)%nat -> L i j = 0) ->
  (forall i j, (i < n)%nat -> (j < n)%nat -> mm n L IL i j = eye i j) ->
  (forall i j, (i < n)%nat -> (j < n)%nat -> mm n IL L i j = eye i j) ->
  length d = chol_size n -> 0 < r ->
  let st t := chol_set n L (vaddl (chol_get n mu L) t d) in
  let sigma t := mm n (snd (st t)) (mt (snd (st t))) in
  (forall t, Rabs t < r -> forall i j, (i < n)%nat -> (j < n)%nat -> mm n (sigma t) (Sinv t) i j = eye i j) ->
  derivable_pt_lim (fun t => logpdf n (fst (st t)) (Sinv t) (sm n (fun i => ln (snd (st t) i i ^ 2))) x) 0
    (dotl (chol_diff_log n IL mu x) d).
Proof.
  intros n mu L IL d x Sinv r HL HR HI Hd Hr st sigma Hinv.
  destruct (chol_line n mu L d Hd) as [SK [DU LINE]]. set (D := snd (chol_set n (fun _ _ => 0) d)) in *.
  assert (Emu : forall t k, (k < n)%nat -> fst (st t) k = mu k + t * nth k d 0) by (intros t k Hk; apply (proj1 (LINE t)); auto).
  assert (EL : forall t i j, snd (st t) i j = L i j + t * D i j) by (intros t i j; apply (proj2 (LINE t))).
  clearbody st. pose (dm := (fun k => nth k d 0) : vec). pose (IS := chol_inv_sigma n IL). pose (M0 := mm n L (mt L)).
  pose (z := fun t => mv n (Sinv t) (vsub x (fst (st t)))).
  (* the inverse of sigma *)
  assert (IM : forall i j, (i < n)%nat -> (j < n)%nat -> mm n IS M0 i j = eye i j).
  { intros i j Hi Hj. unfold IS, chol_inv_sigma, M0. rewrite mm_assoc.
    rewrite (mm_ext n (mt IL) (mt IL) _ (mt L)); auto.
    - change (mm n (mt IL) (mt L) i j) with (mm n (mt IL) (mt L) i j). rewrite <- mt_mm. unfold mt. rewrite HR by auto. unfold eye. rewrite Nat.eqb_sym. reflexivity.
    - intros l Hl. rewrite <- (mm_assoc n n IL L (mt L)). change (mm n (mm n IL L) (mt L) l j) with (mv n (mm n IL L) (fun q => mt L q j) l).
      rewrite (mv_ext n (mm n IL L) eye _ (fun q => mt L q j)); auto. rewrite mv_eye by auto. reflexivity. }
  assert (Hz : forall t, Rabs t < r -> forall i, (i < n)%nat ->
     mv n (madd M0 (madd (mscal t (madd (mm n L (mt D)) (mm n D (mt L)))) (mscal (t * t) (mm n D (mt D))))) (z t) i = vsub x mu i + t * (- dm i) + t * t * 0).
  { intros t Ht i Hi. transitivity (mv n (sigma t) (z t) i).
    - apply mv_ext; auto. intros j Hj. unfold madd, mscal, M0, sigma, mm, mt.
      rewrite <- sm_plus, <- !sm_scal, <- !sm_plus. apply sm_ext. intros l Hl. rewrite !EL. ring.
    - unfold z. rewrite <- mv_mm. rewrite (mv_ext n (mm n (sigma t) (Sinv t)) eye _ (vsub x (fst (st t)))); auto.
      rewrite mv_eye by auto. unfold vsub. rewrite Emu by auto. unfold dm. ring. }
  pose proof (solution_derivative n M0 _ _ IS _ _ _ z r Hr IM Hz) as Dz.
  set (z' := mv n IS (vsub (fun i => - dm i) (mv n (madd (mm n L (mt D)) (mm n D (mt L))) (z 0)))) in *.
  (* z(0) is inv_sigma delta *)
  assert (Z0 : forall i, (i < n)%nat -> z 0 i = mv n IS (vsub x mu) i).
  { intros i Hi.
    transitivity (mv n IS (mv n (sigma 0) (z 0)) i).
    - rewrite <- mv_mm. rewrite (mv_ext n _ eye (z 0) (z 0)); auto; [rewrite mv_eye; auto|].
      intros j Hj. rewrite <- IM by auto. apply mm_ext; auto. intros l Hl. unfold sigma, M0. apply mm_ext; intros q Hq; unfold mt; rewrite EL; ring.
    - apply mv_ext; auto. intros j Hj. unfold z. rewrite <- mv_mm.
      rewrite (mv_ext n (mm n (sigma 0) (Sinv 0)) eye _ (vsub x mu)); [rewrite mv_eye; auto| |].
      + intros l Hl. apply Hinv; auto. rewrite Rabs_R0. auto.
      + intros l Hl. unfold vsub. rewrite Emu by auto. ring. }
  pose proof (lower_inverse n L IL HL HR) as LI.
  (* derivative *)
  eapply dl_eq with (f := fun t => - / 2 * (INR n * ln (2 * PI) + sm n (fun i => ln ((L i i + t * D i i) ^ 2)) + sm n (fun i => (x i - (mu i + t * dm i)) * z t i))).
  - apply dl_scal. apply dl_plus; [apply dl_plus; [apply dl_const|]|].
    + apply (sm_derivable n (fun i t => ln ((L i i + t * D i i) ^ 2))). intros i Hi.
      apply (dl_ln (fun t => (L i i + t * D i i) ^ 2)).
      * apply (dl_sqr (fun t => L i i + t * D i i)). apply dl_line.
      * apply sq_pos. rewrite Rmult_0_l, Rplus_0_r. destruct (LI i Hi) as [E _]. intros C. rewrite C in E. lra.
    + apply (sm_derivable n (fun i t => (x i - (mu i + t * dm i)) * z t i)). intros i Hi.
      apply (dl_mult (fun t => x i - (mu i + t * dm i)) (fun t => z t i)); [|apply Dz; auto].
      apply dl_minus; [apply dl_const|apply dl_line].
  - intros t.
    assert (E1 : sm n (fun i => ln (snd (st t) i i ^ 2)) = sm n (fun i => ln ((L i i + t * D i i) ^ 2))) by (apply sm_ext; intros; rewrite EL; reflexivity).
    assert (E2 : dot n (vsub x (fst (st t))) (mv n (Sinv t) (vsub x (fst (st t)))) = sm n (fun i => (x i - (mu i + t * dm i)) * z t i)).
    { unfold dot. apply sm_ext. intros i Hi. fold (z t). unfold vsub. rewrite Emu by auto. reflexivity. }
    unfold logpdf. rewrite E1, E2. reflexivity.
  - cbv beta.
    (* the quadratic part *)
    assert (ISs : forall i j, IS i j = IS j i) by (intros; unfold IS, chol_inv_sigma, mm, mt; apply sm_ext; intros; ring).
    pose (y := mv n IL (vsub x mu)).
    assert (LtZ : forall j, (j < n)%nat -> mv n (mt L) (z 0) j = y j).
    { intros j Hj. rewrite (mv_ext n (mt L) (mt L) (z 0) (mv n IS (vsub x mu))); auto. unfold IS, chol_inv_sigma. rewrite mv_mm, <- mv_mm. fold y.
      rewrite (mv_ext n _ eye y y); auto; [apply mv_eye; auto|]. intros l Hl. rewrite <- mt_mm. unfold mt. rewrite HI by auto. unfold eye. rewrite Nat.eqb_sym. reflexivity. }
    assert (Q : sm n (fun i => (0 - dm i) * z 0 i + (x i - (mu i + 0 * dm i)) * z' i)
                = - 2 * dot n dm (z 0) - 2 * sm n (fun i => sm n (fun j => z 0 i * y j * D i j))).
    { rewrite sm_plus.
      rewrite (sm_ext n (fun i => (0 - dm i) * z 0 i) (fun i => - (dm i * z 0 i))) by (intros; ring). rewrite sm_opp. fold (dot n dm (z 0)).
      rewrite (sm_ext n (fun i => (x i - (mu i + 0 * dm i)) * z' i) (fun i => vsub x mu i * z' i)) by (intros; unfold vsub; ring). fold (dot n (vsub x mu) z').
      unfold z'. rewrite (dot_mv n n IS (vsub x mu)). rewrite (dot_ext n (mv n (mt IS) (vsub x mu)) _ (z 0) (vsub (fun i => - dm i) (mv n (madd (mm n L (mt D)) (mm n D (mt L))) (z 0)))); [|intros i Hi; rewrite Z0 by auto; apply mv_ext; intros; auto; unfold mt; apply ISs|auto].
      rewrite dot_sub_r, mv_madd, dot_add_r, !mv_mm.
      rewrite (dot_mv n n L (z 0)). rewrite (dot_mv n n D (z 0)).
      rewrite (dot_ext n (mv n (mt L) (z 0)) (mv n (mt D) (z 0)) y (mv n (mt D) (z 0))) by auto.
      rewrite (dot_ext n (mv n (mt D) (z 0)) (mv n (mt L) (z 0)) (mv n (mt D) (z 0)) y) by auto.
      rewrite (dot_comm n (mv n (mt D) (z 0)) y).
      assert (E : dot n y (mv n (mt D) (z 0)) = sm n (fun i => sm n (fun j => z 0 i * y j * D i j))).
      { unfold dot, mv, mt. rewrite sm_swap. apply sm_ext. intros j Hj. rewrite <- sm_scal. apply sm_ext. intros. ring. }
      rewrite E. assert (E2 : dot n (z 0) (fun i => - dm i) = - dot n dm (z 0)).
      { unfold dot. rewrite <- sm_opp. apply sm_ext. intros. ring. }
      rewrite E2. ring. }
    match goal with |- - / 2 * (0 + ?A + ?B) = _ => replace B with (- 2 * dot n dm (z 0) - 2 * sm n (fun i => sm n (fun j => z 0 i * y j * D i j))) by (rewrite <- Q; apply sm_ext; intros; ring) end.
    rewrite (sm_ext n (fun i => / (L i i + 0 * D i i) ^ 2 * (2 * (L i i + 0 * D i i) * D i i)) (fun i => 2 * (IL i i * D i i))).
    2:{ intros i Hi. destruct (LI i Hi) as [E _]. assert (L i i <> 0) by (intros C; rewrite C in E; lra).
        assert (IE : IL i i = / L i i) by (apply (Rmult_eq_reg_l (L i i)); auto; rewrite E, Rinv_r; auto). rewrite IE, Rmult_0_l, Rplus_0_r. field. auto. }
    (* the right-hand side *)
    rewrite chol_size_eq in Hd.
    unfold chol_diff_log. fold IS. cbv zeta. rewrite <- (firstn_skipn n d), dotl_app by (rewrite map_length, seq_length, firstn_length; lia).
    assert (F : firstn n d = map dm (seq 0 n)).
    { apply firstn_mapseq. lia. }
    rewrite F, SK, !dotl_map, rsum_tril. fold (sm n (fun i => mv n IS (vsub x mu) i * dm i)).
    rewrite (sm_ext n (fun i => mv n IS (vsub x mu) i * dm i) (fun i => dm i * z 0 i)) by (intros; rewrite Z0 by auto; ring). fold (dot n dm (z 0)).
    simpl fst. simpl snd. fold y. unfold mt.
    rewrite (sm_ext n (fun i => sm (i + 1) (fun j => (y j * mv n (fun i0 j0 => IS j0 i0) (vsub x mu) i - (if (j =? i)%nat then IL j j else 0)) * D i j))
               (fun i => sm n (fun j => z 0 i * y j * D i j) - IL i i * D i i)).
    + rewrite sm_minus, sm_scal. field.
    + intros i Hi. rewrite (sm_lower n i) by (auto; intros j Hj1 Hj2; rewrite DU by auto; ring).
      assert (E : sm n (fun j => (if (j =? i)%nat then IL j j else 0) * D i j) = IL i i * D i i).
      { rewrite (sm_single n i); auto; [rewrite Nat.eqb_refl; reflexivity|]. intros j Hj NE. destruct (Nat.eqb_spec j i); [congruence|ring]. }
      rewrite <- E, <- sm_minus. apply sm_ext. intros j Hj. rewrite Z0 by auto.
      rewrite (mv_ext n (fun i0 j0 => IS j0 i0) IS (vsub x mu) (vsub x mu)); auto. ring.
Qed.

(** * C53: policies.  The regressors' Jacobians are assumed to be right: [J k o] is the derivative
    of output [o] with respect to weight [k]. *)
Lemma line_0 : forall th d, vadd th (vscal 0 d) = th.
Proof. intros. apply functional_extensionality. intros. unfold vadd, vscal. ring. Qed.

Theorem gp_score : forall nw n (mu : vec -> vec) J S ld th d a,
  (forall o, (o < n)%nat -> derivable_pt_lim (fun t => mu (vadd th (vscal t d)) o) 0 (sm nw (fun k => J k o * d k))) ->
  derivable_pt_lim (fun t => logpdf n (mu (vadd th (vscal t d))) S ld a) 0 (dot nw (gp_diff_log n J S (mu th) a) d).
Proof.
  intros nw n mu J S ld th d a HJ.
  eapply dl_eq; [apply (logpdf_mean_derivative n (fun t => mu (vadd th (vscal t d))) (fun o => sm nw (fun k => J k o * d k)) S ld a HJ)|reflexivity|].
  cbv beta. rewrite line_0. unfold dot, gp_diff_log.
  rewrite (sm_ext nw _ (fun k => / 2 * sm n (fun o => sm n (fun q => J k q * d k * (S q o + S o q)) * (a o - mu th o)))).
  - rewrite sm_scal, sm_swap. f_equal. apply sm_ext. intros o Ho. rewrite sm_scal_r. f_equal. rewrite sm_swap. apply sm_ext. intros q Hq. rewrite sm_scal_r. reflexivity.
  - intros k Hk. rewrite Rmult_assoc. f_equal. rewrite <- sm_scal_r. apply sm_ext. intros o Ho.
    rewrite (sm_ext n (fun q => J k q * d k * (S q o + S o q)) (fun q => d k * (J k q * (S q o + S o q)))) by (intros; ring). rewrite sm_scal. ring.
Qed.

Lemma diag_gp_form : forall n (J : mat) (v mu a : vec) k, (forall o, (o < n)%nat -> v o <> 0) ->
  gp_diff_log n J (diagm (fun i => 1 / v i)) mu a k = sm n (fun o => (a o - mu o) / v o * J k o).
Proof.
  intros n J v mu a k Hv. unfold gp_diff_log. rewrite <- sm_scal. apply sm_ext. intros o Ho. specialize (Hv o Ho). rewrite (sm_single n o); auto.
  - unfold diagm. rewrite Nat.eqb_refl. field. auto.
  - intros q Hq NE. unfold diagm. destruct (Nat.eqb_spec q o); [congruence|]. destruct (Nat.eqb_spec o q); [congruence|]. ring.
Qed.
Lemma diag_form : forall n (J : mat) (v mu a : vec) k, (forall o, (o < n)%nat -> v o <> 0) ->
  sm n (fun o => sm n (fun q => J k q * diagm (fun i => 1 / v i) q o) * vsub a mu o) = sm n (fun o => (a o - mu o) / v o * J k o).
Proof.
  intros n J v mu a k Hv. apply sm_ext. intros o Ho. specialize (Hv o Ho). rewrite (sm_single n o); auto.
  - unfold diagm, vsub. rewrite Nat.eqb_refl. field. auto.
  - intros q Hq NE. unfold diagm. destruct (Nat.eqb_spec q o); [congruence|]. ring.
Qed.

(** The weight vector is [rho]: first the [nw] weights of the mean, then the standard deviations. *)
Theorem dgp_score : forall nw n (mu : vec -> vec) J rho d a,
  (forall o, (o < n)%nat -> hi nw rho o <> 0) ->
  (forall o, (o < n)%nat -> derivable_pt_lim (fun t => mu (lo (vadd rho (vscal t d))) o) 0 (sm nw (fun k => J k o * d k))) ->
  derivable_pt_lim (fun t => let r := vadd rho (vscal t d) in diag_logpdf n (mu (lo r)) (fun k => hi nw r k ^ 2) a) 0
    (dot (nw + n)%nat (dgp_diff_log nw n J (hi nw rho) (mu (lo rho)) a) d).
Proof.
  intros nw n mu J rho d a Hp HJ. cbv zeta.
  eapply dl_eq; [apply (diag_logpdf_derivative n (fun t => mu (lo (vadd rho (vscal t d)))) (fun t k => hi nw (vadd rho (vscal t d)) k ^ 2)
    (fun o => sm nw (fun k => J k o * d k)) (fun k => 2 * hi nw rho k * d (nw + k)%nat) a HJ)|reflexivity|].
  - intros k Hk. eapply dl_eq; [apply (dl_sqr (fun t => rho (nw + k)%nat + t * d (nw + k)%nat)); apply dl_line|reflexivity|].
    unfold hi. rewrite Rmult_0_l, Rplus_0_r. reflexivity.
  - intros k Hk. apply sq_pos. rewrite line_0. auto.
  - cbv beta. rewrite line_0. unfold dgp_diff_log. rewrite dot_join, sm_plus. f_equal.
    + rewrite (sm_ext nw _ (fun k => sm n (fun o => (a o - mu (lo rho) o) / hi nw rho o ^ 2 * (J k o * d k)))).
      * rewrite sm_swap. apply sm_ext. intros o Ho. rewrite sm_scal. reflexivity.
      * intros k Hk. rewrite (diag_gp_form n J (fun i => hi nw rho i ^ 2)) by (intros; apply pow_nonzero; auto). rewrite <- sm_scal_r. apply sm_ext. intros. ring.
    + apply sm_ext. intros k Hk. specialize (Hp k Hk). field. auto.
Qed.

Theorem ssgp_score : forall nw ns n (mu sd : vec -> vec) Jmu Jstd eps rho d a, 0 < eps ->
  (forall o, (o < n)%nat -> derivable_pt_lim (fun t => mu (lo (vadd rho (vscal t d))) o) 0 (sm nw (fun k => Jmu k o * d k))) ->
  (forall o, (o < n)%nat -> derivable_pt_lim (fun t => sd (hi nw (vadd rho (vscal t d))) o) 0 (sm ns (fun k => Jstd k o * d (nw + k)%nat))) ->
  derivable_pt_lim (fun t => let r := vadd rho (vscal t d) in diag_logpdf n (mu (lo r)) (fun k => sd (hi nw r) k ^ 2 + eps) a) 0
    (dot (nw + ns)%nat (ssgp_diff_log nw n Jmu Jstd eps (mu (lo rho)) (sd (hi nw rho)) a) d).
Proof.
  intros nw ns n mu sd Jmu Jstd eps rho d a He HJ HK. cbv zeta.
  assert (Hp : forall o, 0 < sd (hi nw rho) o ^ 2 + eps) by (intros; pose proof (pow2_ge_0 (sd (hi nw rho) o)); lra).
  eapply dl_eq; [apply (diag_logpdf_derivative n (fun t => mu (lo (vadd rho (vscal t d)))) (fun t k => sd (hi nw (vadd rho (vscal t d))) k ^ 2 + eps)
    (fun o => sm nw (fun k => Jmu k o * d k)) (fun o => 2 * sd (hi nw rho) o * sm ns (fun k => Jstd k o * d (nw + k)%nat)) a HJ)|reflexivity|].
  - intros k Hk. eapply dl_eq; [apply (dl_plus (fun t => sd (hi nw (vadd rho (vscal t d))) k ^ 2) (fun _ => eps)); [apply (dl_sqr (fun t => sd (hi nw (vadd rho (vscal t d))) k)); apply HK; auto|apply dl_const]|reflexivity|].
    cbv beta. rewrite line_0. ring.
  - intros k Hk. rewrite line_0. auto.
  - cbv beta. rewrite line_0. unfold ssgp_diff_log. rewrite dot_join, sm_plus. f_equal.
    + rewrite (sm_ext nw _ (fun k => sm n (fun o => (a o - mu (lo rho) o) / (sd (hi nw rho) o ^ 2 + eps) * (Jmu k o * d k)))).
      * rewrite sm_swap. apply sm_ext. intros o Ho. rewrite sm_scal. reflexivity.
      * intros k Hk. rewrite (diag_form n Jmu (fun i => sd (hi nw rho) i ^ 2 + eps)) by (intros o Ho; specialize (Hp o); lra). rewrite <- sm_scal_r. apply sm_ext. intros. ring.
    + rewrite (sm_ext ns _ (fun k => sm n (fun o => (vsub a (mu (lo rho)) o ^ 2 - (sd (hi nw rho) o ^ 2 + eps)) * sd (hi nw rho) o / (sd (hi nw rho) o ^ 2 + eps) ^ 2 * (Jstd k o * d (nw + k)%nat)))).
      * rewrite sm_swap. apply sm_ext. intros o Ho. rewrite sm_scal. specialize (Hp o). unfold vsub. field. lra.
      * intros k Hk. rewrite <- sm_scal_r. apply sm_ext. intros. ring.
Qed.

Theorem slsgp_score : forall nw ns n (mu ls : vec -> vec) Jmu Jls rho d a,
  (forall o, (o < n)%nat -> derivable_pt_lim (fun t => mu (lo (vadd rho (vscal t d))) o) 0 (sm nw (fun k => Jmu k o * d k))) ->
  (forall o, (o < n)%nat -> derivable_pt_lim (fun t => ls (hi nw (vadd rho (vscal t d))) o) 0 (sm ns (fun k => Jls k o * d (nw + k)%nat))) ->
  derivable_pt_lim (fun t => let r := vadd rho (vscal t d) in diag_logpdf n (mu (lo r)) (fun k => exp (ls (hi nw r) k) ^ 2) a) 0
    (dot (nw + ns)%nat (slsgp_diff_log nw n Jmu Jls (mu (lo rho)) (ls (hi nw rho)) a) d).
Proof.
  intros nw ns n mu ls Jmu Jls rho d a HJ HK. cbv zeta.
  assert (Hn : forall o, exp (ls (hi nw rho) o) <> 0) by (intros; pose proof (exp_pos (ls (hi nw rho) o)); lra).
  eapply dl_eq; [apply (diag_logpdf_derivative n (fun t => mu (lo (vadd rho (vscal t d)))) (fun t k => exp (ls (hi nw (vadd rho (vscal t d))) k) ^ 2)
    (fun o => sm nw (fun k => Jmu k o * d k)) (fun o => 2 * exp (ls (hi nw rho) o) ^ 2 * sm ns (fun k => Jls k o * d (nw + k)%nat)) a HJ)|reflexivity|].
  - intros k Hk. eapply dl_eq; [apply (dl_sqr (fun t => exp (ls (hi nw (vadd rho (vscal t d))) k))); apply (dl_exp (fun t => ls (hi nw (vadd rho (vscal t d))) k)); apply HK; auto|reflexivity|].
    cbv beta. rewrite line_0. ring.
  - intros k Hk. rewrite line_0. apply sq_pos. auto.
  - cbv beta. rewrite line_0. unfold slsgp_diff_log. rewrite dot_join, sm_plus. f_equal.
    + rewrite (sm_ext nw _ (fun k => sm n (fun o => (a o - mu (lo rho) o) / (exp (ls (hi nw rho) o) ^ 2) * (Jmu k o * d k)))).
      * rewrite sm_swap. apply sm_ext. intros o Ho. rewrite sm_scal. reflexivity.
      * intros k Hk. rewrite (diag_form n Jmu (fun i => exp (ls (hi nw rho) i) ^ 2)) by (intros o Ho; apply pow_nonzero; auto). rewrite <- sm_scal_r. apply sm_ext. intros. ring.
    + rewrite (sm_ext ns _ (fun k => sm n (fun o => (vsub a (mu (lo rho)) o ^ 2 / exp (ls (hi nw rho) o) ^ 2 - 1) * (Jls k o * d (nw + k)%nat)))).
      * rewrite sm_swap. apply sm_ext. intros o Ho. rewrite sm_scal. specialize (Hn o). unfold vsub. field. lra.
      * intros k Hk. rewrite <- sm_minus, <- sm_scal_r. apply sm_ext. intros. ring.
Qed.

(** * Concrete cases *)
Example gd_score_ex : gd_diff_log 2 (diagm (fun i => INR (S i))) (fun _ => 1) (fun i => INR i + 2) 1%nat = 4.
Proof. unfold gd_diff_log, mv, diagm, vsub, sm. simpl. lra. Qed.
Example diag_score_ex : diag_diff_log 1 (fun _ => 1) (fun _ => 2) (fun _ => 4) 0%nat = 3 / 4 /\ diag_diff_log 1 (fun _ => 1) (fun _ => 2) (fun _ => 4) 1%nat = 5 / 8.
Proof. unfold diag_diff_log, join, vsub. cbv zeta. simpl. lra. Qed.
Example chol_parameters_ex : chol_size 2 = 5%nat /\ chol_get 2 (fun i => INR i) (fun i j => INR (i + 2 * j + 1)) = [INR 0; INR 1; INR 1; INR 2; INR 4] /\
  snd (chol_set 2 (fun _ _ => 9) [1; 2; 3; 4; 5]) 1%nat 0%nat = 4 /\ snd (chol_set 2 (fun _ _ => 9) [1; 2; 3; 4; 5]) 0%nat 1%nat = 9.
Proof. repeat split; reflexivity. Qed.
(** scale 2 (inverse 1/2), sample at distance 4 from the mean: score (1, 3/2) *)
Example chol_score_ex : chol_diff_log 1 (fun _ _ => / 2) (fun _ => 1) (fun _ => 5) = [1; 3 / 2].
Proof.
  unfold chol_diff_log, chol_inv_sigma, mm, mv, mt, vsub, sm. cbv zeta. simpl. f_equal; [lra|f_equal; lra].
Qed.
Example dgp_score_ex : dgp_diff_log 1 1 (fun _ _ => 3) (fun _ => 2) (fun _ => 1) (fun _ => 5) 0%nat = 3.
Proof. unfold dgp_diff_log, join, gp_diff_log, diagm, sm. simpl. lra. Qed.
Example ssgp_score_ex : ssgp_diff_log 1 1 (fun _ _ => 3) (fun _ _ => 2) 1 (fun _ => 1) (fun _ => 1) (fun _ => 3) 1%nat = 1.
Proof. unfold ssgp_diff_log, join, vsub, sm. cbv zeta. simpl. lra. Qed.
Example slsgp_score_ex : slsgp_diff_log 1 1 (fun _ _ => 3) (fun _ _ => 2) (fun _ => 1) (fun _ => 0) (fun _ => 3) 1%nat = 6.
Proof. unfold slsgp_diff_log, join, vsub, sm. cbv zeta. simpl. rewrite exp_0. lra. Qed.

(** * Entropy and divergence *)
(** [E] is the expectation over a random vector [x] with mean [mu] and covariance [sigma]. The
    entropy bound of the constrained updates is the expected negative log density, and the
    quantity they constrain is the expected log ratio of the old and the new density (the
    Kullback-Leibler divergence from the new to the old distribution). *)
Theorem gaussian_entropy_kl : forall (Omega : Type) (E : (Omega -> R) -> R) n (x : Omega -> vec) mu sigma S ld mu' S' ld',
  (forall f g, E (fun o => f o + g o) = E f + E g) -> (forall c f, E (fun o => c * f o) = c * E f) -> E (fun _ => 1) = 1 ->
  (forall i, (i < n)%nat -> E (fun o => x o i - mu i) = 0) ->
  (forall i j, (i < n)%nat -> (j < n)%nat -> E (fun o => (x o i - mu i) * (x o j - mu j)) = sigma i j) ->
  (forall i j, (i < n)%nat -> (j < n)%nat -> mm n S sigma i j = eye i j) ->
  E (fun o => - logpdf n mu S ld (x o)) = entropy n ld /\
  E (fun o => logpdf n mu S ld (x o) - logpdf n mu' S' ld' (x o)) = kl_constraint n mu mu' sigma S' ld ld'.
Proof.
  intros Omega E n x mu sigma S ld mu' S' ld' Hadd Hscal H1 Hm Hc Hinv.
  assert (Hext : forall f g, (forall o, f o = g o) -> E f = E g) by (intros f g H; f_equal; apply functional_extensionality; auto).
  assert (Hconst : forall c, E (fun _ => c) = c).
  { intros c. rewrite (Hext _ (fun _ => c * 1)) by (intros; ring). rewrite Hscal, H1. ring. }
  assert (Hsm : forall m (f : nat -> Omega -> R), E (fun o => sm m (fun i => f i o)) = sm m (fun i => E (f i))).
  { induction m; intros f.
    - unfold sm. simpl. apply (Hconst 0).
    - rewrite (Hext _ (fun o => sm m (fun i => f i o) + f m o)) by (intros; apply sm_S). rewrite Hadd, IHm, sm_S. reflexivity. }
  assert (Hsym : forall i j, (i < n)%nat -> (j < n)%nat -> sigma i j = sigma j i).
  { intros i j Hi Hj. rewrite <- !Hc by auto. apply Hext. intros; ring. }
  assert (Q : forall T m, E (fun o => dot n (vsub (x o) m) (mv n T (vsub (x o) m))) = trace n (mm n T sigma) + dot n (vsub m mu) (mv n T (vsub m mu))).
  { intros T m. 
    rewrite (Hext _ (fun o => sm n (fun i => sm n (fun j => T i j * ((x o i - mu i) * (x o j - mu j)) + (T i j * (mu j - m j)) * (x o i - mu i) + ((T i j * (mu i - m i)) * (x o j - mu j) + (mu i - m i) * T i j * (mu j - m j)))))).
    2:{ intros o. unfold dot, mv, vsub. apply sm_ext. intros i Hi. rewrite <- sm_scal. apply sm_ext. intros j Hj. ring. }
    rewrite Hsm. unfold trace, dot, mm, mv, vsub. rewrite <- sm_plus. apply sm_ext. intros i Hi.
    rewrite Hsm, <- sm_scal, <- sm_plus. apply sm_ext. intros j Hj.
    rewrite !Hadd, !Hscal, Hconst, Hc, !Hm by auto. rewrite (Hsym i j) by auto. ring. }
  assert (TI : trace n (mm n S sigma) = INR n).
  { unfold trace. rewrite (sm_ext n _ (fun _ => 1)); [rewrite sm_const; ring|]. intros i Hi. rewrite Hinv by auto. unfold eye. rewrite Nat.eqb_refl. reflexivity. }
  assert (Z0 : dot n (vsub mu mu) (mv n S (vsub mu mu)) = 0).
  { unfold dot. apply sm_zero. intros i Hi. unfold vsub. ring. }
  split.
  - unfold logpdf. rewrite (Hext _ (fun o => / 2 * (INR n * ln (2 * PI) + ld) + / 2 * dot n (vsub (x o) mu) (mv n S (vsub (x o) mu)))) by (intros; ring).
    rewrite Hadd, Hconst, Hscal, Q, TI, Z0. unfold entropy. ring.
  - unfold logpdf.
    rewrite (Hext _ (fun o => (/ 2 * (ld' - ld) + / 2 * dot n (vsub (x o) mu') (mv n S' (vsub (x o) mu'))) + - / 2 * dot n (vsub (x o) mu) (mv n S (vsub (x o) mu)))) by (intros; ring).
    rewrite !Hadd, Hconst, !Hscal, !Q, TI, Z0. unfold kl_constraint. ring.
Qed.

(** a fair coin on -1, 1 has mean 0 and variance 1 *)
Example gaussian_entropy_ex :
  let E (f : bool -> R) := / 2 * (f true + f false) in
  E (fun o => - logpdf 1 (fun _ => 0) (fun _ _ => 1) 0 (fun _ => if o then 1 else -1)) = entropy 1 0.
Proof. cbv zeta. unfold logpdf, entropy, dot, mv, vsub, sm. simpl. field. Qed.

Print Assumptions gaussian_entropy_kl.
Print Assumptions gd_score.
Print Assumptions diag_score.
Print Assumptions chol_parameters.
Print Assumptions chol_score.
Print Assumptions gp_score.
Print Assumptions dgp_score.
Print Assumptions ssgp_score.
Print Assumptions slsgp_score.

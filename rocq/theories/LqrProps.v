(** Theorems C50. *)
From Coq Require Import List Arith Lia Reals Bool Lra Psatz FunctionalExtensionality.
From Verif Require Import Common Mat LqrModel LqrGrad.
From Verif Require EnvModel.
Import ListNotations.
Local Open Scope R_scope.

(** * What the solver is about: rewards, dynamics *)
Definition reward (l : lqr) (s a : vec) : R :=
  - (sm (n_s l) (fun i => sm (n_s l) (fun j => s i * mQ l i j * s j)) + sm (n_a l) (fun i => sm (n_a l) (fun j => a i * mR l i j * a j))).
Definition next (l : lqr) (s a : vec) : vec := fun i => sm (n_s l) (fun j => mA l i j * s j) + sm (n_a l) (fun j => mB l i j * a j).
(** The controller u = - K x. *)
Definition ctrl (l : lqr) (K : mat) (s : vec) : vec := fun i => - sm (n_s l) (fun j => K i j * s j).
(** numpy.linalg.solve and numpy.linalg.inv on the matrix at hand. *)
Definition solves (N : nat) (M : mat) (x b : vec) : Prop := forall a, (a < N)%nat -> sm N (fun c => M a c * x c) = b a.
Definition inverse (N : nat) (M I : mat) : Prop :=
  (forall i j, (i < N)%nat -> (j < N)%nat -> mm N M I i j = eye i j) /\ (forall i j, (i < N)%nat -> (j < N)%nat -> mm N I M i j = eye i j).
Definition symmetric (N : nat) (M : mat) : Prop := forall i j, (i < N)%nat -> (j < N)%nat -> M i j = M j i.
Definition psd (N : nat) (M : mat) : Prop := forall v, 0 <= dot N v (mv N M v).

(** * Lemmas *)
Definition qf (n : nat) (P : mat) (s : vec) : R := dot n s (mv n P s).
Lemma einsum_qf : forall k P s, einsum k P s = qf k P s.
Proof. intros. unfold einsum, qf, dot, mv. apply sm_ext. intros. rewrite <- sm_scal. apply sm_ext. intros. ring. Qed.
Lemma reward_qf : forall l s a, reward l s a = - (qf (n_s l) (mQ l) s + qf (n_a l) (mR l) a).
Proof. intros. unfold reward. pose proof (einsum_qf (n_s l) (mQ l) s) as E1. pose proof (einsum_qf (n_a l) (mR l) a) as E2. unfold einsum in E1, E2. rewrite E1, E2. reflexivity. Qed.
Lemma next_mv : forall l s a, next l s a = vadd (mv (n_s l) (mA l) s) (mv (n_a l) (mB l) a).
Proof. reflexivity. Qed.
Lemma ctrl_mv : forall l K s, ctrl l K s = vscal (-1) (mv (n_s l) K s).
Proof. intros. apply functional_extensionality. intros i. unfold ctrl, vscal, mv. ring. Qed.
Lemma dot_mt : forall n k X u v, dot n u (mv k (mt X) v) = dot k (mv n X u) v.
Proof. intros. rewrite dot_mv, mt_mt. reflexivity. Qed.
Lemma qf_scal : forall n P c s, qf n P (vscal c s) = c ^ 2 * qf n P s.
Proof. intros. unfold qf. rewrite mv_scal, dot_scal_l, dot_scal_r. ring. Qed.
Lemma qf_ext : forall n P P' s s', (forall i j, (i < n)%nat -> (j < n)%nat -> P i j = P' i j) -> (forall i, (i < n)%nat -> s i = s' i) -> qf n P s = qf n P' s'.
Proof. intros. unfold qf. apply dot_ext; auto. intros. apply mv_ext; auto. Qed.
Lemma vsub_next : forall l K s, next l s (ctrl l K s) = vsub (mv (n_s l) (mA l) s) (mv (n_a l) (mB l) (mv (n_s l) K s)).
Proof.
  intros. rewrite next_mv, ctrl_mv, mv_scal. apply functional_extensionality. intros i. unfold vadd, vsub, vscal. ring.
Qed.

(** The quadratic form of the right-hand side. *)
Lemma rhs_qf : forall l K P s, qf (n_s l) (riccati_rhs l K P) s =
  - reward l s (ctrl l K s) + gam l * qf (n_s l) P (next l s (ctrl l K s)).
Proof.
  intros l K P s. rewrite reward_qf, vsub_next, ctrl_mv, qf_scal.
  set (n := n_s l) in *. set (m := n_a l) in *. unfold riccati_rhs. fold n m. unfold qf.
  rewrite !mv_madd, mv_mscal, mv_madd, !mv_msub. rewrite !dot_add_r, dot_scal_r, dot_add_r, !dot_sub_r.
  rewrite !mv_mm. rewrite !dot_mt. set (As := mv n (mA l) s). set (Ks := mv n K s). set (BK := mv m (mB l) Ks).
  rewrite mv_sub, dot_sub_r, !dot_sub_l. ring.
Qed.

Lemma flat_unflat : forall n v b, (0 < n)%nat -> unflat n v (b / n)%nat (b mod n)%nat = v b.
Proof. intros. unfold unflat. f_equal. rewrite (Nat.div_mod b n) at 3 by lia. lia. Qed.
Lemma kron_row : forall n X Y v i k, (i < n)%nat -> (k < n)%nat ->
  mv (n * n) (kron n X Y) v (i * n + k)%nat = mm n (mm n X (unflat n v)) (mt Y) i k.
Proof.
  intros n X Y v i k Hi Hk. unfold mv, kron.
  assert (E1 : ((i * n + k) / n = i)%nat) by (rewrite Nat.add_comm, Nat.div_add, Nat.div_small; lia).
  assert (E2 : ((i * n + k) mod n = k)%nat) by (rewrite Nat.add_comm, Nat.mod_add, Nat.mod_small; lia).
  rewrite E1, E2.
  rewrite (sm_ext (n * n) _ (fun b => (fun j q => X i j * Y k q * unflat n v j q) (b / n)%nat (b mod n)%nat)) by (intros; rewrite flat_unflat by lia; reflexivity).
  rewrite (sm_flat n n (fun j q => X i j * Y k q * unflat n v j q)). rewrite sm_swap. unfold mm, mt. apply sm_ext. intros q Hq.
  rewrite <- sm_scal_r. apply sm_ext. intros. ring.
Qed.

(** compute_lqr_P returns a fixed point of the right-hand side. *)
Lemma P_fixpoint : forall l K solve, solves (n_s l * n_s l) (lqr_M l K) (solve (lqr_M l K) (flat (n_s l) (lqr_L l K))) (flat (n_s l) (lqr_L l K)) ->
  forall i k, (i < n_s l)%nat -> (k < n_s l)%nat -> lqr_P l solve K i k = riccati_rhs l K (lqr_P l solve K) i k.
Proof.
  intros l K solve SV i k Hi Hk. set (n := n_s l) in *. set (v := solve (lqr_M l K) (flat n (lqr_L l K))) in *.
  assert (LT : (i * n + k < n * n)%nat) by nia.
  pose proof (SV (i * n + k)%nat LT) as H. change (sm (n * n) (fun c => lqr_M l K (i * n + k)%nat c * v c)) with (mv (n * n) (lqr_M l K) v (i * n + k)%nat) in H.
  unfold lqr_M in H. fold n in H. rewrite mv_msub, mv_mscal, mv_madd, !mv_msub in H. unfold vsub at 1, vscal, vadd in H. unfold vsub in H.
  rewrite mv_eye in H by auto. rewrite !kron_row in H by auto.
  assert (FL : flat n (lqr_L l K) (i * n + k)%nat = lqr_L l K i k).
  { unfold flat. f_equal; [rewrite Nat.add_comm, Nat.div_add, Nat.div_small; lia|rewrite Nat.add_comm, Nat.mod_add, Nat.mod_small; lia]. }
  rewrite FL in H. change (v (i * n + k)%nat) with (lqr_P l solve K i k) in H. change (unflat n v) with (lqr_P l solve K) in H.
  set (P := lqr_P l solve K) in *. unfold riccati_rhs. fold n. set (m := n_a l) in *.
  rewrite !mt_mm in H. rewrite !mt_mt in H. rewrite <- !mm_assoc in H.
  unfold lqr_L in H. fold m in H. unfold madd, msub, mscal in *. lra.
Qed.

(** * C50 *)

(** The matrix returned satisfies the discounted Lyapunov equation of the closed loop A - B K. *)
Theorem lqr_lyapunov : forall l K solve, solves (n_s l * n_s l) (lqr_M l K) (solve (lqr_M l K) (flat (n_s l) (lqr_L l K))) (flat (n_s l) (lqr_L l K)) ->
  let P := lqr_P l solve K in
  let C := fun i j => mA l i j - sm (n_a l) (fun q => mB l i q * K q j) in
  forall i k, (i < n_s l)%nat -> (k < n_s l)%nat ->
    P i k = mQ l i k + sm (n_a l) (fun a => sm (n_a l) (fun b => K a i * mR l a b * K b k))
            + gam l * sm (n_s l) (fun p => sm (n_s l) (fun q => C p i * P p q * C q k)).
Proof.
  intros l K solve SV P C i k Hi Hk. pose proof (P_fixpoint l K solve SV i k Hi Hk) as E. fold P in E. rewrite E at 1. clear E.
  unfold riccati_rhs. set (n := n_s l) in *. set (m := n_a l) in *. unfold madd, mscal, msub.
  assert (TR : forall X Y p Z, mm p (mm n X P) Y = mm p (mm n X P) Y -> forall i k, mm n (mm n X P) Z i k = sm n (fun p => sm n (fun q => X i p * P p q * Z q k))).
  { intros. unfold mm. rewrite sm_swap. apply sm_ext. intros. rewrite <- sm_scal_r. apply sm_ext. intros. ring. }
  assert (TR' : forall X Z i k, mm n (mm n X P) Z i k = sm n (fun p => sm n (fun q => X i p * P p q * Z q k))) by (intros; apply (TR X Z n Z); auto). clear TR.
  assert (KRK : mm m (mm m (mt K) (mR l)) K i k = sm m (fun a => sm m (fun b => K a i * mR l a b * K b k))).
  { unfold mm, mt. rewrite sm_swap. apply sm_ext. intros. rewrite <- sm_scal_r. apply sm_ext. intros. ring. }
  rewrite KRK. rewrite !(mm_assoc n m _ (mB l) K). rewrite !TR'.
  assert (LIN : forall f g h e, sm n (fun p => sm n (fun q => f p q)) - sm n (fun p => sm n (fun q => g p q)) - sm n (fun p => sm n (fun q => h p q)) + sm n (fun p => sm n (fun q => e p q))
            = sm n (fun p => sm n (fun q => f p q - g p q - h p q + e p q))).
  { intros. rewrite <- !sm_minus, <- sm_plus. apply sm_ext. intros. rewrite <- !sm_minus, <- sm_plus. reflexivity. }
  rewrite LIN.
  rewrite (sm_ext n (fun p => sm n (fun q => C p i * P p q * C q k)) (fun p => sm n (fun q => mt (mA l) i p * P p q * mA l q k - mm m (mt K) (mt (mB l)) i p * P p q * mA l q k -
     mt (mA l) i p * P p q * mm m (mB l) K q k + mm m (mt K) (mt (mB l)) i p * P p q * mm m (mB l) K q k))).
  - ring.
  - intros p Hp. apply sm_ext. intros q Hq. unfold C. fold m.
    assert (E1 : mm m (mt K) (mt (mB l)) i p = sm m (fun q => mB l p q * K q i)) by (unfold mm, mt; apply sm_ext; intros; ring).
    rewrite E1. unfold mt. change (mm m (mB l) K q k) with (sm m (fun q0 => mB l q q0 * K q0 k)). ring.
Qed.

(** The value function returned satisfies the Bellman equation of the controller. *)
Theorem lqr_value_bellman : forall l K solve s, solves (n_s l * n_s l) (lqr_M l K) (solve (lqr_M l K) (flat (n_s l) (lqr_L l K))) (flat (n_s l) (lqr_L l K)) ->
  lqr_V l solve K s = reward l s (ctrl l K s) + gam l * lqr_V l solve K (next l s (ctrl l K s)).
Proof.
  intros l K solve s SV. unfold lqr_V. rewrite !einsum_qf.
  rewrite (qf_ext (n_s l) (lqr_P l solve K) (riccati_rhs l K (lqr_P l solve K)) s s) by (auto; intros; apply P_fixpoint; auto).
  rewrite rhs_qf. ring.
Qed.

Lemma Q_qf : forall l P s a, qf (n_s l + n_a l) (lqr_Qmat l P) (hstack l s a) = - reward l s a + gam l * qf (n_s l) P (next l s a).
Proof.
  intros l P s a. set (n := n_s l) in *. set (m := n_a l) in *.
  assert (HL : forall i, (i < n)%nat -> hstack l s a i = s i) by (intros i Hi; unfold hstack; fold n; destruct (Nat.ltb_spec i n); [reflexivity|lia]).
  assert (HR : forall i, hstack l s a (n + i)%nat = a i) by (intros i; unfold hstack; fold n; destruct (Nat.ltb_spec (n + i) n); [lia|f_equal; lia]).
  assert (MS : forall F u, mv (n + m) F (hstack l s a) u = mv n F s u + mv m (fun i j => F i (n + j)%nat) a u).
  { intros F u. unfold mv. rewrite sm_app. f_equal; apply sm_ext; intros; [rewrite HL by auto; auto|rewrite HR; auto]. }
  unfold qf at 1. unfold dot. rewrite sm_app.
  rewrite (sm_ext n _ (fun i => s i * (mv n (madd (mQ l) (mm n (mm n (mscal (gam l) (mt (mA l))) P) (mA l))) s i + mv m (mm n (mm n (mscal (gam l) (mt (mA l))) P) (mB l)) a i))).
  2: { intros i Hi. rewrite HL, MS by auto. f_equal. f_equal; apply mv_ext; auto; intros j Hj; unfold lqr_Qmat; fold n; destruct (Nat.ltb_spec i n); try lia.
       - destruct (Nat.ltb_spec j n); [reflexivity|lia].
       - destruct (Nat.ltb_spec (n + j) n); [lia|]. replace (n + j - n)%nat with j by lia. reflexivity. }
  rewrite (sm_ext m _ (fun i => a i * (mv n (mm n (mm n (mscal (gam l) (mt (mB l))) P) (mA l)) s i + mv m (madd (mR l) (mm n (mm n (mscal (gam l) (mt (mB l))) P) (mB l))) a i))).
  2: { intros i Hi. rewrite HR, MS by auto. unfold mv, lqr_Qmat. fold n. f_equal. destruct (Nat.ltb_spec (n + i) n); [lia|]. replace (n + i - n)%nat with i by lia. f_equal; apply sm_ext; intros j Hj.
       - destruct (Nat.ltb_spec j n); [reflexivity|lia].
       - destruct (Nat.ltb_spec (n + j) n); [lia|]. replace (n + j - n)%nat with j by lia. reflexivity. }
  match goal with |- sm n (fun i => s i * (?X i + ?Y i)) + sm m (fun i => a i * (?Z i + ?W i)) = _ =>
    change (dot n s (vadd X Y) + dot m a (vadd Z W) = - reward l s a + gam l * qf n P (next l s a)) end.
  rewrite !dot_add_r, !mv_madd, !dot_add_r, !mv_mm, !mv_mscal, !dot_scal_r, !dot_mt.
  rewrite reward_qf, next_mv. fold n m. unfold qf. rewrite mv_add, dot_add_r, !dot_add_l. ring.
Qed.

(** The action-value function returned is the reward plus the discounted value of the next
    state, and agrees with the value function on the controller's action. *)
Theorem lqr_action_value : forall l K solve s, solves (n_s l * n_s l) (lqr_M l K) (solve (lqr_M l K) (flat (n_s l) (lqr_L l K))) (flat (n_s l) (lqr_L l K)) ->
  (forall a, lqr_Q l solve K s a = reward l s a + gam l * lqr_V l solve K (next l s a)) /\
  lqr_V l solve K s = lqr_Q l solve K s (ctrl l K s).
Proof.
  intros l K solve s SV.
  assert (E : forall a, lqr_Q l solve K s a = reward l s a + gam l * lqr_V l solve K (next l s a)).
  { intros a. unfold lqr_Q, lqr_V. rewrite !einsum_qf, Q_qf. ring. }
  split; auto. rewrite E. apply lqr_value_bellman; auto.
Qed.

(** The trajectory of the controller and its discounted return. *)
Fixpoint traj (l : lqr) (K : mat) (s : vec) (t : nat) : vec :=
  match t with O => s | S t' => let s' := traj l K s t' in next l s' (ctrl l K s') end.
Definition ret (l : lqr) (K : mat) (s : vec) (T : nat) : R := sm T (fun t => gam l ^ t * reward l (traj l K s t) (ctrl l K (traj l K s t))).

(** The value function is the discounted return of the controller: exactly, up to the value of
    the state reached, at every horizon; in the limit when that remainder vanishes. *)
Theorem lqr_value_return : forall l K solve s, solves (n_s l * n_s l) (lqr_M l K) (solve (lqr_M l K) (flat (n_s l) (lqr_L l K))) (flat (n_s l) (lqr_L l K)) ->
  (forall T, lqr_V l solve K s = ret l K s T + gam l ^ T * lqr_V l solve K (traj l K s T)) /\
  (Un_cv (fun T => gam l ^ T * lqr_V l solve K (traj l K s T)) 0 -> Un_cv (ret l K s) (lqr_V l solve K s)).
Proof.
  intros l K solve s SV.
  assert (E : forall T, lqr_V l solve K s = ret l K s T + gam l ^ T * lqr_V l solve K (traj l K s T)).
  { induction T as [|T IH]; [unfold ret, sm; simpl; ring|]. rewrite IH at 1. unfold ret. rewrite sm_S.
    rewrite (lqr_value_bellman l K solve (traj l K s T) SV) at 1. simpl traj. simpl pow. ring. }
  split; auto. intros CV eps He. destruct (CV eps He) as [N HN]. exists N. intros T HT. specialize (HN T HT). unfold R_dist in *.
  rewrite (E T). replace (ret l K s T - (ret l K s T + gam l ^ T * lqr_V l solve K (traj l K s T))) with (- (gam l ^ T * lqr_V l solve K (traj l K s T) - 0)) by ring.
  rewrite Rabs_Ropp. auto.
Qed.

(** * Gaussian policies *)
Lemma qf_N : forall l P e, qf (n_a l) (madd (mR l) (mm (n_s l) (mm (n_s l) (mscal (gam l) (mt (mB l))) P) (mB l))) e =
  qf (n_a l) (mR l) e + gam l * qf (n_s l) P (mv (n_a l) (mB l) e).
Proof. intros. unfold qf. rewrite mv_madd, dot_add_r, !mv_mm, mv_mscal, dot_scal_r, dot_mt. reflexivity. Qed.

(** With a noise of mean zero and covariance Sigma around the controller (finitely many
    outcomes e k of probability w k), the two functions returned are the value and the
    action-value of the randomised controller. *)
Theorem lqr_gaussian_bellman : forall l K Sigma solve s N (w : nat -> R) (e : nat -> vec),
  solves (n_s l * n_s l) (lqr_M l K) (solve (lqr_M l K) (flat (n_s l) (lqr_L l K))) (flat (n_s l) (lqr_L l K)) -> gam l <> 1 ->
  sm N w = 1 -> (forall i, (i < n_a l)%nat -> sm N (fun k => w k * e k i) = 0) ->
  (forall i j, (i < n_a l)%nat -> (j < n_a l)%nat -> sm N (fun k => w k * (e k i * e k j)) = Sigma i j) ->
  (forall a, lqr_Qg l solve K Sigma s a = reward l s a + gam l * lqr_Vg l solve K Sigma (next l s a)) /\
  lqr_Vg l solve K Sigma s = sm N (fun k => w k * lqr_Qg l solve K Sigma s (fun i => ctrl l K s i + e k i)).
Proof.
  intros l K Sigma solve s N w e SV G1 W1 W2 W3. destruct (lqr_action_value l K solve s SV) as [EQ EV].
  set (P := lqr_P l solve K) in *. set (n := n_s l) in *. set (m := n_a l) in *. set (g := gam l) in *.
  split.
  - intros a. unfold lqr_Qg, lqr_Vg. rewrite EQ. fold P. unfold Q_term, V_term. fold n m g. field. lra.
  - set (u := ctrl l K s) in *. set (N0 := madd (mR l) (mm n (mm n (mscal g (mt (mB l))) P) (mB l))).
    set (lin := fun x : vec => dot m u (mv m (mR l) x) + dot m x (mv m (mR l) u) + g * (dot n (next l s u) (mv n P (mv m (mB l) x)) + dot n (mv m (mB l) x) (mv n P (next l s u)))).
    assert (EX : forall k, lqr_Q l solve K s (fun i => u i + e k i) = lqr_Q l solve K s u - lin (e k) - qf m N0 (e k)).
    { intros k. rewrite !EQ. unfold lqr_V. rewrite !einsum_qf, !reward_qf. fold P n m. unfold N0, n, m, g. rewrite qf_N. fold n m g.
      change (fun i => u i + e k i) with (vadd u (e k)).
      assert (NX : next l s (vadd u (e k)) = vadd (next l s u) (mv m (mB l) (e k))).
      { rewrite !next_mv. fold n m. rewrite mv_add. apply functional_extensionality. intros i. unfold vadd. ring. }
      rewrite NX. unfold lin, qf. rewrite !mv_add, !dot_add_r, !dot_add_l. fold n m g. ring. }
    assert (ZL : forall c : vec, sm N (fun k => w k * dot m c (e k)) = 0).
    { intros c. unfold dot. rewrite (sm_ext N _ (fun k => sm m (fun i => c i * (w k * e k i)))) by (intros; rewrite <- sm_scal; apply sm_ext; intros; ring).
      rewrite sm_swap. apply sm_zero. intros i Hi. rewrite sm_scal, W2 by auto. ring. }
    assert (LZ : sm N (fun k => w k * lin (e k)) = 0).
    { unfold lin. rewrite (sm_ext N _ (fun k => w k * dot m (mv m (mt (mR l)) u) (e k) + w k * dot m (mv m (mR l) u) (e k) +
         g * (w k * dot m (mv n (mt (mB l)) (mv n (mt P) (next l s u))) (e k) + w k * dot m (mv n (mt (mB l)) (mv n P (next l s u))) (e k)))).
      - rewrite !sm_plus, sm_scal, sm_plus, !ZL. ring.
      - intros k Hk. rewrite (dot_mv m m (mR l) u (e k)), (dot_comm m (e k) (mv m (mR l) u)), (dot_comm n (mv m (mB l) (e k))).
        rewrite (dot_mv n n P (next l s u)), (dot_mv n m (mB l) (mv n (mt P) (next l s u)) (e k)), (dot_mv n m (mB l) (mv n P (next l s u)) (e k)). ring. }
    assert (QZ : sm N (fun k => w k * qf m N0 (e k)) = trace m (mm m Sigma N0)).
    { unfold qf, dot, mv. rewrite (sm_ext N _ (fun k => sm m (fun i => sm m (fun j => N0 i j * (w k * (e k i * e k j)))))).
      - rewrite sm_swap. rewrite (sm_ext m _ (fun i => sm m (fun j => Sigma i j * N0 i j))).
        + unfold trace, mm. rewrite sm_swap. apply sm_ext. intros i Hi. apply sm_ext. intros j Hj.
          f_equal. rewrite <- !W3 by auto. apply sm_ext. intros. ring.
        + intros i Hi. rewrite sm_swap. apply sm_ext. intros j Hj. rewrite sm_scal, W3 by auto. ring.
      - intros k Hk. rewrite <- sm_scal. apply sm_ext. intros i Hi. rewrite <- !sm_scal. apply sm_ext. intros. ring. }
    unfold lqr_Qg, lqr_Vg. fold P.
    rewrite (sm_ext N _ (fun k => (lqr_Q l solve K s u - Q_term l P Sigma) * w k - w k * lin (e k) - w k * qf m N0 (e k))) by (intros; rewrite EX; ring).
    rewrite !sm_minus, sm_scal, W1, LZ, QZ, EV. unfold Q_term, V_term. fold n m g. change (madd (mR l) (mm n (mm n (mscal g (mt (mB l))) P) (mB l))) with N0. field. lra.
Qed.

(** * The feedback gain *)
Lemma bil_ext : forall n P P' u v, (forall i j, (i < n)%nat -> (j < n)%nat -> P i j = P' i j) -> dot n u (mv n P v) = dot n u (mv n P' v).
Proof. intros. apply dot_ext; auto. intros. apply mv_ext; auto. Qed.
Lemma bil_sym : forall n P u v, symmetric n P -> dot n u (mv n P v) = dot n v (mv n P u).
Proof.
  intros n P u v SY. rewrite dot_mv, dot_comm. apply dot_ext; auto. intros. apply mv_ext; auto. intros. unfold mt. apply SY; auto.
Qed.
Lemma sym_bil : forall n P, (forall u v, dot n u (mv n P v) = dot n v (mv n P u)) -> symmetric n P.
Proof.
  intros n P H i j Hi Hj. specialize (H (unit_v i) (unit_v j)). rewrite !dot_unit_l, !mv_unit in H by auto. exact H.
Qed.
Lemma rhs_bil : forall l K P u v, dot (n_s l) u (mv (n_s l) (riccati_rhs l K P) v) =
  dot (n_s l) u (mv (n_s l) (mQ l) v) + dot (n_a l) (mv (n_s l) K u) (mv (n_a l) (mR l) (mv (n_s l) K v)) +
  gam l * dot (n_s l) (next l u (ctrl l K u)) (mv (n_s l) P (next l v (ctrl l K v))).
Proof.
  intros l K P u v. rewrite !vsub_next.
  set (n := n_s l) in *. set (m := n_a l) in *. unfold riccati_rhs. fold n m.
  rewrite !mv_madd, mv_mscal, mv_madd, !mv_msub. rewrite !dot_add_r, dot_scal_r, dot_add_r, !dot_sub_r.
  rewrite !mv_mm. rewrite !dot_mt. rewrite mv_sub, dot_sub_r, !dot_sub_l. ring.
Qed.

(** One-step lookahead with the quadratic cost-to-go P. *)
Definition look (l : lqr) (P : mat) (s a : vec) : R := reward l s a + gam l * - qf (n_s l) P (next l s a).

Lemma gain_greedy : forall l P inv s a, symmetric (n_s l) P -> symmetric (n_a l) (mR l) -> psd (n_a l) (gain_matrix l P) ->
  inverse (n_a l) (gain_matrix l P) (inv (gain_matrix l P)) -> look l P s a <= look l P s (ctrl l (riccati_gain l inv P) s).
Proof.
  intros l P inv s a SP SR PN [I1 I2]. set (K := riccati_gain l inv P). set (u := ctrl l K s). set (n := n_s l) in *. set (m := n_a l) in *. set (g := gam l) in *.
  set (N := gain_matrix l P) in *. set (e := vsub a u).
  assert (NK : forall i, (i < m)%nat -> mv m N (mv n K s) i = g * mv n (mt (mB l)) (mv n P (mv n (mA l) s)) i).
  { intros i Hi. unfold K, riccati_gain. fold n m g N. rewrite !mv_mm, mv_mscal, mv_scal. unfold vscal at 1. f_equal.
    set (z := mv n (mt (mB l)) (mv n P (mv n (mA l) s))). rewrite <- (mv_mm m m N (inv N) z).
    rewrite (mv_ext m (mm m N (inv N)) eye z z) by (auto; intros; apply I1; auto). apply mv_eye. auto. }
  assert (AE : a = vadd u e) by (apply functional_extensionality; intros i; unfold vadd, e, vsub; ring).
  assert (G0 : dot m e (vadd (mv m (mR l) u) (vscal g (mv n (mt (mB l)) (mv n P (next l s u))))) = 0).
  { unfold dot. apply sm_zero. intros i Hi. replace (vadd (mv m (mR l) u) (vscal g (mv n (mt (mB l)) (mv n P (next l s u)))) i) with 0; [ring|].
    unfold vadd, vscal. rewrite next_mv. fold n m. unfold u. rewrite ctrl_mv. fold n. rewrite !mv_scal, !mv_add, !mv_scal. unfold vadd, vscal.
    specialize (NK i Hi). unfold N, gain_matrix in NK. fold n m g in NK. rewrite mv_madd, mv_mscal, !mv_mm in NK. unfold vadd, vscal in NK. lra. }
  rewrite AE. unfold look. rewrite !reward_qf. fold n m g.
  assert (NX : next l s (vadd u e) = vadd (next l s u) (mv m (mB l) e)).
  { rewrite !next_mv. fold n m. rewrite mv_add. apply functional_extensionality. intros i. unfold vadd. ring. }
  rewrite NX. unfold qf. rewrite !mv_add, !dot_add_r, !dot_add_l.
  rewrite (bil_sym m (mR l) u e SR), (bil_sym n P (next l s u) (mv m (mB l) e) SP).
  pose proof (PN e) as PE. unfold N, gain_matrix in PE. fold n m g in PE. rewrite mv_madd, mv_mscal, !mv_mm, dot_add_r, dot_scal_r, dot_mt in PE.
  rewrite dot_add_r, dot_scal_r, dot_mt in G0. lra.
Qed.

Definition pd (n : nat) (M : mat) : Prop := forall v, (exists i, (i < n)%nat /\ v i <> 0) -> 0 < dot n v (mv n M v).

(** The iterates of compute_lqr_feedback_gain. *)
Fixpoint Pit (l : lqr) (inv : mat -> mat) (k : nat) : mat :=
  match k with O => eye | S k' => riccati_rhs l (riccati_gain l inv (Pit l inv k')) (Pit l inv k') end.
Lemma gain_iter_Pit : forall l inv k j, gain_iter l inv k (Pit l inv j) (riccati_gain l inv (Pit l inv j)) = (Pit l inv (k + j), riccati_gain l inv (Pit l inv (k + j))).
Proof.
  induction k as [|k IH]; intros j; [reflexivity|]. cbn [gain_iter]. change (riccati_rhs l (riccati_gain l inv (Pit l inv j)) (Pit l inv j)) with (Pit l inv (S j)).
  rewrite IH. replace (k + S j)%nat with (S k + j)%nat by lia. reflexivity.
Qed.

(** The discounted return of k actions from s, the final state costing its squared length. *)
Fixpoint kret (l : lqr) (k : nat) (s : vec) (us : nat -> vec) : R :=
  match k with
  | O => - sm (n_s l) (fun i => s i * s i)
  | S k' => reward l s (us O) + gam l * kret l k' (next l s (us O)) (fun t => us (S t))
  end.

(** The first action of the gain returned after k iterations is the first action of a plan
    that is optimal over k+1 steps, from every state. *)
Theorem feedback_gain_optimal : forall l inv k s, 0 <= gam l -> symmetric (n_s l) (mQ l) -> psd (n_s l) (mQ l) -> symmetric (n_a l) (mR l) -> pd (n_a l) (mR l) ->
  (forall M, symmetric (n_a l) M -> pd (n_a l) M -> inverse (n_a l) M (inv M)) ->
  exists us, us O = ctrl l (feedback_gain l inv k) s /\ forall us', kret l (S k) s us' <= kret l (S k) s us.
Proof.
  intros l inv k s G0 SQ PQ SR DR IV. set (n := n_s l) in *. set (m := n_a l) in *. set (g := gam l) in *.
  assert (PR : psd m (mR l)).
  { intros v. destruct (Req_dec (dot m v v) 0) as [Z|NZ].
    - assert (V0 : forall i, (i < m)%nat -> v i = 0).
      { intros i Hi. destruct (Req_dec (v i) 0) as [|NE]; auto. exfalso. assert (0 < dot m v v); [|lra]. apply Rlt_le_trans with (v i * v i); [nra|].
        apply Rle_trans with (sm m (fun j => if Nat.eqb j i then v i * v i else 0)).
        - rewrite (sm_single m i); auto; [rewrite Nat.eqb_refl; lra|]. intros j Hj NEj. destruct (Nat.eqb_spec j i); [congruence|reflexivity].
        - apply sm_le. intros j Hj. destruct (Nat.eqb_spec j i); [subst; lra|nra]. }
      replace (dot m v (mv m (mR l) v)) with 0; [lra|]. symmetry. apply sm_zero. intros i Hi. rewrite V0 by auto. ring.
    - left. apply DR. apply Classical_Pred_Type.not_all_not_ex. intros AL. apply NZ. apply sm_zero. intros i Hi. destruct (Req_dec (v i) 0) as [->|NE]; [ring|]. exfalso. apply (AL i). auto. }
  assert (INV : forall j, symmetric n (Pit l inv j) /\ psd n (Pit l inv j)).
  { induction j as [|j [IS IP]].
    - split; [intros i i' _ _; simpl; unfold eye; rewrite Nat.eqb_sym; reflexivity|]. intros v. simpl. rewrite (dot_ext n v (mv n eye v) v v) by (auto; intros; apply mv_eye; auto). apply dot_nonneg.
    - split.
      + apply sym_bil. intros u v. cbn [Pit]. unfold n. rewrite !rhs_bil. fold n m g. rewrite (bil_sym n (mQ l) u v SQ).
        rewrite (bil_sym m (mR l) (mv n _ u) (mv n _ v) SR). rewrite (bil_sym n (Pit l inv j) (next l u _) (next l v _) IS). reflexivity.
      + intros v. cbn [Pit]. unfold n. rewrite rhs_bil. fold n m g. pose proof (PQ v). pose proof (PR (mv n (riccati_gain l inv (Pit l inv j)) v)).
        pose proof (IP (next l v (ctrl l (riccati_gain l inv (Pit l inv j)) v))). assert (0 <= g * dot n (next l v (ctrl l (riccati_gain l inv (Pit l inv j)) v)) (mv n (Pit l inv j) (next l v (ctrl l (riccati_gain l inv (Pit l inv j)) v)))) by (apply Rmult_le_pos; auto). lra. }
  assert (GR : forall j s a, look l (Pit l inv j) s a <= look l (Pit l inv j) s (ctrl l (riccati_gain l inv (Pit l inv j)) s)).
  { intros j s' a. destruct (INV j) as [IS IP].
    assert (BN : forall u v, dot m u (mv m (gain_matrix l (Pit l inv j)) v) = dot m u (mv m (mR l) v) + g * dot n (mv m (mB l) u) (mv n (Pit l inv j) (mv m (mB l) v))).
    { intros u v. unfold gain_matrix. fold n m g. rewrite mv_madd, mv_mscal, !mv_mm, dot_add_r, dot_scal_r, dot_mt. reflexivity. }
    assert (SN : symmetric m (gain_matrix l (Pit l inv j))).
    { apply sym_bil. intros u v. rewrite !BN. rewrite (bil_sym m (mR l) u v SR), (bil_sym n (Pit l inv j) (mv m (mB l) u) (mv m (mB l) v) IS). reflexivity. }
    assert (NP : forall v, 0 <= g * dot n (mv m (mB l) v) (mv n (Pit l inv j) (mv m (mB l) v))) by (intros; apply Rmult_le_pos; auto).
    apply gain_greedy; auto.
    - intros v. fold m. rewrite BN. pose proof (PR v). specialize (NP v). lra.
    - apply IV; auto. intros v NZ. fold m. rewrite BN. pose proof (DR v NZ). specialize (NP v). lra. }
  assert (ST : forall j s, look l (Pit l inv j) s (ctrl l (riccati_gain l inv (Pit l inv j)) s) = - qf n (Pit l inv (S j)) s).
  { intros j s'. cbn [Pit]. unfold n. rewrite rhs_qf. unfold look. ring. }
  assert (UP : forall j s us, kret l j s us <= - qf n (Pit l inv j) s).
  { induction j as [|j IH]; intros s' us.
    - cbn [kret Pit]. unfold qf. rewrite (dot_ext n s' (mv n eye s') s' s') by (auto; intros; apply mv_eye; auto). unfold dot. fold n. lra.
    - cbn [kret]. rewrite <- ST. eapply Rle_trans; [|apply (GR j s' (us O))]. unfold look. apply Rplus_le_compat_l. apply Rmult_le_compat_l; auto. }
  assert (EX : forall j s, exists us, kret l j s us = - qf n (Pit l inv j) s).
  { induction j as [|j IH]; intros s'.
    - exists (fun _ => s'). cbn [kret Pit]. unfold qf. rewrite (dot_ext n s' (mv n eye s') s' s') by (auto; intros; apply mv_eye; auto). reflexivity.
    - destruct (IH (next l s' (ctrl l (riccati_gain l inv (Pit l inv j)) s'))) as [us Hus].
      exists (fun t => match t with O => ctrl l (riccati_gain l inv (Pit l inv j)) s' | S t' => us t' end).
      cbn [kret]. change (fun t => us t) with us. rewrite Hus, <- ST. reflexivity. }
  unfold feedback_gain. pose proof (gain_iter_Pit l inv k 0) as GI. cbn [Pit] in GI. rewrite GI, Nat.add_0_r. cbn [snd].
  destruct (EX k (next l s (ctrl l (riccati_gain l inv (Pit l inv k)) s))) as [us Hus].
  exists (fun t => match t with O => ctrl l (riccati_gain l inv (Pit l inv k)) s | S t' => us t' end). split; auto.
  intros us'. eapply Rle_trans; [apply UP|]. rewrite <- ST. cbn [kret]. change (fun t => us t) with us. rewrite Hus. apply Rle_refl.
Qed.

(** * The gradient with respect to the gain *)
Lemma mm_lin_l : forall k X Y Z t i j, mm k (fun a b => X a b + t * Y a b) Z i j = mm k X Z i j + t * mm k Y Z i j.
Proof. intros. unfold mm. rewrite <- sm_scal, <- sm_plus. apply sm_ext. intros. ring. Qed.
Lemma mm_lin_r : forall k X Y Z t i j, mm k Z (fun a b => X a b + t * Y a b) i j = mm k Z X i j + t * mm k Z Y i j.
Proof. intros. unfold mm. rewrite <- sm_scal, <- sm_plus. apply sm_ext. intros. ring. Qed.

(** The i-th component returned is the derivative of the value of the Gaussian policy with
    respect to the i-th entry of the gain matrix. *)
Theorem lqr_gradient_K : forall l K Sigma solve inv s i r,
  let n := n_s l in let N := (n * n)%nat in
  let Kt := fun t : R => (fun a b => K a b + t * dK l i a b) : mat in
  0 < r -> (forall t, Rabs t < r -> solves N (lqr_M l (Kt t)) (solve (lqr_M l (Kt t)) (flat n (lqr_L l (Kt t)))) (flat n (lqr_L l (Kt t)))) ->
  solves N (lqr_M l K) (solve (lqr_M l K) (flat n (lqr_dL l K i))) (flat n (lqr_dL l K i)) -> inverse N (lqr_M l K) (inv (lqr_M l K)) ->
  derivable_pt_lim (fun t => lqr_Vg l solve (Kt t) Sigma s) 0 (lqr_dV l solve inv K Sigma s i).
Proof.
  intros l K Sigma solve inv s i r n N Kt Hr SV SD [IV1 IV2]. set (m := n_a l) in *. set (g := gam l) in *.
  set (D := dK l i) in *. set (kb := mm m (mt K) (mt (mB l))). set (dkb := mm m (mt D) (mt (mB l))).
  set (M2 := mscal (- g) (kron n dkb dkb)). set (L2 := mm m (mm m (mt D) (mR l)) D).
  assert (KB : forall t a b, mm m (mt (Kt t)) (mt (mB l)) a b = kb a b + t * dkb a b).
  { intros. change (mt (Kt t)) with (fun a b => mt K a b + t * mt D a b). apply mm_lin_l. }
  assert (ME : forall t, lqr_M l (Kt t) = madd (lqr_M l K) (madd (mscal t (lqr_dM l K i)) (mscal (t * t) M2))).
  { intros t. apply functional_extensionality. intros a. apply functional_extensionality. intros b. unfold lqr_M, lqr_dM, M2. fold n m g D kb dkb.
    unfold madd, mscal, msub, kron. rewrite !KB. ring. }
  assert (LE : forall t a, flat n (lqr_L l (Kt t)) a = flat n (lqr_L l K) a + t * flat n (lqr_dL l K i) a + t * t * flat n L2 a).
  { intros t a. unfold flat, lqr_L, lqr_dL, L2. fold n m D. unfold madd. set (p := (a / n)%nat). set (q := (a mod n)%nat).
    change (mt (Kt t)) with (fun a b => mt K a b + t * mt D a b).
    assert (E1 : mm m (mm m (fun a b => mt K a b + t * mt D a b) (mR l)) (Kt t) p q = mm m (fun a b => mm m (mt K) (mR l) a b + t * mm m (mt D) (mR l) a b) (Kt t) p q).
    { apply mm_ext; auto. intros. apply mm_lin_l. }
    rewrite E1, mm_lin_l. unfold Kt. fold D. rewrite !mm_lin_r. ring. }
  assert (K0 : Kt 0 = K) by (apply functional_extensionality; intros a; apply functional_extensionality; intros b; unfold Kt; ring).
  set (x := fun t => solve (lqr_M l (Kt t)) (flat n (lqr_L l (Kt t)))).
  assert (XD : forall a, (a < N)%nat -> derivable_pt_lim (fun t => x t a) 0 (mv N (inv (lqr_M l K)) (vsub (flat n (lqr_dL l K i)) (mv N (lqr_dM l K i) (x 0))) a)).
  { apply (solution_derivative N (lqr_M l K) (lqr_dM l K i) M2 (inv (lqr_M l K)) (flat n (lqr_L l K)) (flat n (lqr_dL l K i)) (flat n L2) x r); auto.
    intros t Ht a Ha. rewrite <- ME, <- LE. apply (SV t Ht a Ha). }
  set (dx := mv N (inv (lqr_M l K)) (vsub (flat n (lqr_dL l K i)) (mv N (lqr_dM l K i) (x 0)))) in *.
  assert (LINV : forall y b, (forall a, (a < N)%nat -> mv N (lqr_M l K) y a = b a) -> forall a, (a < N)%nat -> y a = mv N (inv (lqr_M l K)) b a).
  { intros y b Hy a Ha. rewrite <- (mv_ext N (inv (lqr_M l K)) (inv (lqr_M l K)) (mv N (lqr_M l K) y) b) by auto. rewrite <- mv_mm.
    rewrite (mv_ext N (mm N (inv (lqr_M l K)) (lqr_M l K)) eye y y) by auto. symmetry. apply mv_eye. auto. }
  assert (X0 : forall a, (a < N)%nat -> x 0 a = mv N (inv (lqr_M l K)) (flat n (lqr_L l K)) a).
  { apply LINV. intros a Ha. unfold x. rewrite K0. pose proof (SV 0 ltac:(rewrite Rabs_R0; auto) a Ha) as H. rewrite K0 in H. exact H. }
  assert (DP : forall p q, (p < n)%nat -> (q < n)%nat -> lqr_dP l solve inv K i p q = dx (p * n + q)%nat).
  { intros p q Hp Hq. assert (LT : (p * n + q < N)%nat) by (unfold N; nia). unfold lqr_dP. fold n. unfold unflat, vadd, vscal.
    rewrite (LINV (solve (lqr_M l K) (flat n (lqr_dL l K i))) (flat n (lqr_dL l K i)) SD _ LT). unfold dx. rewrite mv_sub. unfold vsub.
    fold N.
    assert (E2 : mv N (inv (lqr_M l K)) (mv N (lqr_dM l K i) (x 0)) (p * n + q)%nat = mv N (inv (lqr_M l K)) (mv N (lqr_dM l K i) (mv N (inv (lqr_M l K)) (flat n (lqr_L l K)))) (p * n + q)%nat).
    { apply mv_ext; auto. intros. apply mv_ext; auto. }
    rewrite E2. ring. }
  assert (PD : forall p q, (p < n)%nat -> (q < n)%nat -> derivable_pt_lim (fun t => lqr_P l solve (Kt t) p q) 0 (lqr_dP l solve inv K i p q)).
  { intros p q Hp Hq. rewrite DP by auto. apply XD. unfold N. nia. }
  unfold lqr_Vg, lqr_V, V_term. fold n m g.
  set (dP := lqr_dP l solve inv K i) in *.
  apply (dl_eq (fun t => -1 * sm n (fun p => sm n (fun q => s p * s q * lqr_P l solve (Kt t) p q)) +
      (- / (1 - g)) * (trace m (mm m Sigma (mR l)) + sm m (fun a => sm m (fun b => Sigma a b * sm n (fun q => sm n (fun p => g * mB l p b * mB l q a * lqr_P l solve (Kt t) p q)))))) _ 0
      (-1 * sm n (fun p => sm n (fun q => s p * s q * dP p q)) +
      (- / (1 - g)) * (0 + sm m (fun a => sm m (fun b => Sigma a b * sm n (fun q => sm n (fun p => g * mB l p b * mB l q a * dP p q))))))).
  - apply dl_plus; apply dl_scal; [|apply dl_plus; [apply dl_const|]]; apply sm_derivable; intros a Ha; apply sm_derivable; intros b Hb; apply dl_scal; auto.
    apply sm_derivable. intros q Hq. apply sm_derivable. intros p Hp. apply dl_scal. auto.
  - intros t. cbv beta. set (P := lqr_P l solve (Kt t)).
    assert (EE : einsum n P s = sm n (fun p => sm n (fun q => s p * s q * P p q))) by (unfold einsum; apply sm_ext; intros; apply sm_ext; intros; ring).
    fold n in EE. rewrite EE.
    assert (TT : trace m (mm m Sigma (madd (mR l) (mm n (mm n (mscal g (mt (mB l))) P) (mB l)))) =
       trace m (mm m Sigma (mR l)) + sm m (fun a => sm m (fun b => Sigma a b * sm n (fun q => sm n (fun p => g * mB l p b * mB l q a * P p q))))).
    { unfold trace. rewrite <- sm_plus. apply sm_ext. intros a Ha. unfold mm at 1 4. rewrite <- sm_plus. apply sm_ext. intros b Hb. unfold madd. rewrite Rmult_plus_distr_l. f_equal. f_equal.
      unfold mm. apply sm_ext. intros q Hq. rewrite <- sm_scal_r. apply sm_ext. intros p Hp. unfold mscal, mt. ring. }
    rewrite TT. unfold Rdiv. ring.
  - unfold lqr_dV. fold n m g dP.
    assert (EE : einsum n dP s = sm n (fun p => sm n (fun q => s p * s q * dP p q))) by (unfold einsum; apply sm_ext; intros; apply sm_ext; intros; ring).
    rewrite EE.
    assert (TT : sm m (fun a => sm m (fun b => Sigma a b * sm n (fun q => sm n (fun p => g * mB l p b * mB l q a * dP p q)))) = g * trace m (mm n (mm n (mm m Sigma (mt (mB l))) dP) (mB l))).
    { unfold trace. rewrite <- sm_scal. apply sm_ext. intros a Ha. unfold mm at 1. 
      rewrite (sm_ext m _ (fun b => sm n (fun q => sm n (fun p => Sigma a b * (g * mB l p b * mB l q a * dP p q))))) by (intros; rewrite <- sm_scal; apply sm_ext; intros; rewrite <- sm_scal; reflexivity).
      rewrite sm_swap, <- sm_scal. apply sm_ext. intros q Hq. rewrite sm_swap. unfold mm. rewrite <- sm_scal_r, <- sm_scal. apply sm_ext. intros p Hp.
      rewrite <- sm_scal_r, <- sm_scal_r, <- sm_scal. apply sm_ext. intros b Hb. unfold mt. ring. }
    rewrite TT. unfold Rdiv. ring.
Qed.

(** The rewards and the dynamics are the ones of the LQR environment without bounds. *)
Theorem lqr_solver_env : forall (e : EnvModel.lqr) g x a, EnvModel.max_pos e = None -> EnvModel.max_action e = None ->
  let l := {| n_s := EnvModel.l_n e; n_a := EnvModel.l_m e; mA := EnvModel.lA e; mB := EnvModel.lB e; mQ := EnvModel.lQ e; mR := EnvModel.lR e; gam := g |} in
  EnvModel.lqr_step e x a = (next l x a, reward l x a, false).
Proof.
  intros e g x a H1 H2 l. unfold EnvModel.lqr_step, EnvModel.exceeds. rewrite H1, H2. cbn [EnvModel.lbound].
  assert (E : forall k M v, EnvModel.quad k M v = sm k (fun i => sm k (fun j => v i * M i j * v j))).
  { intros. rewrite sm_swap. apply sm_ext. intros j Hj. change (rsum (map (fun i => v i * M i j) (seq 0 k))) with (sm k (fun i => v i * M i j)). rewrite <- sm_scal_r. reflexivity. }
  rewrite !E. reflexivity.
Qed.

(** * Concrete cases: the scalar system A = 1, B = 1, Q = R = 1, gamma = 1/2, K = 1/2 *)
Definition ex_lqr : lqr := {| n_s := 1; n_a := 1; mA := fun _ _ => 1; mB := fun _ _ => 1; mQ := fun _ _ => 1; mR := fun _ _ => 1; gam := / 2 |}.
Definition ex_K : mat := fun _ _ => / 2.
Definition ex_solve (M : mat) (b : vec) : vec := fun _ => b 0%nat / M 0%nat 0%nat.
Example ex_P : lqr_P ex_lqr ex_solve ex_K 0%nat 0%nat = 10 / 7.
Proof. unfold lqr_P, ex_solve, unflat, lqr_M, flat, lqr_L. cbn. unfold kron, madd, mscal, msub, eye, mm, mt, sm, ex_K. cbn. lra. Qed.
Example ex_solves : solves 1 (lqr_M ex_lqr ex_K) (ex_solve (lqr_M ex_lqr ex_K) (flat 1 (lqr_L ex_lqr ex_K))) (flat 1 (lqr_L ex_lqr ex_K)).
Proof.
  intros [|a] Ha; [|lia]. unfold ex_solve, flat, lqr_L, lqr_M. cbn. unfold kron, madd, mscal, msub, eye, mm, mt, sm, ex_K. cbn. lra.
Qed.

Print Assumptions lqr_lyapunov.
Print Assumptions lqr_value_bellman.
Print Assumptions lqr_action_value.
Print Assumptions lqr_value_return.
Print Assumptions lqr_gaussian_bellman.
Print Assumptions feedback_gain_optimal.
Print Assumptions lqr_gradient_K.
Print Assumptions lqr_solver_env.

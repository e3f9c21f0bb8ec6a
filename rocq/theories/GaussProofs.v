(** Lemmas for the Gaussian distributions. *)
From Coq Require Import List Arith Lia Reals Lra FunctionalExtensionality.
From Verif Require Import Common FeatProofs Mat LqrGrad GaussModel.
Import ListNotations.
Local Open Scope R_scope.

Lemma ln_le_sub1 : forall x, 0 < x -> ln x <= x - 1.
Proof. intros x Hx. pose proof (exp_ineq1_le (ln x)). rewrite exp_ln in H by auto. lra. Qed.

Lemma sq_pos : forall x, x <> 0 -> 0 < x ^ 2.
Proof. intros. rewrite <- Rsqr_pow2. apply Rsqr_pos_lt. auto. Qed.

Lemma nth_mapseq : forall (f : nat -> R) n k, (k < n)%nat -> nth k (map f (seq 0 n)) 0 = f k.
Proof.
  intros. rewrite (nth_indep _ 0 (f 0%nat)) by (rewrite map_length, seq_length; auto). rewrite map_nth, seq_nth by auto. reflexivity.
Qed.
Lemma firstn_mapseq : forall (d : list R) n, (n <= length d)%nat -> firstn n d = map (fun k => nth k d 0) (seq 0 n).
Proof.
  intros d n H. apply (nth_ext _ _ 0 0); [rewrite map_length, seq_length, firstn_length; lia|]. intros k Hk. rewrite firstn_length in Hk.
  rewrite nth_mapseq by lia. rewrite <- (firstn_skipn n d) at 2. rewrite app_nth1; auto. rewrite firstn_length. lia.
Qed.

Lemma quad_diagm : forall n d u v, dot n u (mv n (diagm d) v) = sm n (fun k => d k * (u k * v k)).
Proof.
  intros. apply sm_ext. intros k Hk. unfold mv. rewrite (sm_single n k); auto.
  - unfold diagm. rewrite Nat.eqb_refl. ring.
  - intros j Hj NE. unfold diagm. destruct (Nat.eqb_spec k j); [congruence|ring].
Qed.
Lemma trace_diagm : forall n d e, trace n (mm n (diagm d) (diagm e)) = sm n (fun k => d k * e k).
Proof.
  intros. apply sm_ext. intros k Hk. unfold mm. rewrite (sm_single n k); auto.
  - unfold diagm. rewrite !Nat.eqb_refl. ring.
  - intros j Hj NE. unfold diagm. destruct (Nat.eqb_spec k j); [congruence|ring].
Qed.
Lemma dot_sm : forall n N w (u : nat -> vec) z, dot n (fun k => sm N (fun i => w i * u i k)) z = sm N (fun i => w i * dot n (u i) z).
Proof.
  intros. unfold dot.
  rewrite (sm_ext n _ (fun k => sm N (fun i => w i * (u i k * z k)))) by (intros; rewrite <- sm_scal_r; apply sm_ext; intros; ring).
  rewrite sm_swap. apply sm_ext. intros. rewrite <- sm_scal. apply sm_ext. intros. ring.
Qed.

(** The symmetric quadratic form of a sum *)
Lemma quad_add : forall n S u v, (forall i j, (i < n)%nat -> (j < n)%nat -> S i j = S j i) ->
  dot n (vadd u v) (mv n S (vadd u v)) = dot n u (mv n S u) + dot n v (mv n S v) + 2 * dot n u (mv n S v).
Proof.
  intros n S u v Hs. rewrite mv_add, dot_add_l, !dot_add_r.
  assert (dot n v (mv n S u) = dot n u (mv n S v)).
  { rewrite dot_mv, dot_comm. apply dot_ext; auto. intros i Hi. apply mv_ext; auto. intros j Hj. unfold mt. auto. }
  lra.
Qed.
Lemma quad_neg : forall n S u, dot n (vscal (-1) u) (mv n S (vscal (-1) u)) = dot n u (mv n S u).
Proof. intros. rewrite mv_scal, dot_scal_l, dot_scal_r. ring. Qed.

(** Decomposition of the weighted sum of squares around the regularised mean *)
Lemma con_decomp : forall n N w theta mu eta S m, (forall i j, (i < n)%nat -> (j < n)%nat -> S i j = S j i) -> sm N w + eta <> 0 ->
  let c := con_mu N w theta mu eta in
  let q u := dot n u (mv n S u) in
  sm N (fun i => w i * q (vsub (theta i) m)) + eta * q (vsub m mu)
  = sm N (fun i => w i * q (vsub (theta i) c)) + eta * q (vsub c mu) + (sm N w + eta) * q (vsub m c).
Proof.
  intros n N w theta mu eta S m Hs HW c q.
  assert (E1 : forall i, q (vsub (theta i) m) = q (vsub (theta i) c) + q (vsub m c) + 2 * dot n (vsub (theta i) c) (mv n S (vsub c m))).
  { intros i. unfold q. replace (vsub (theta i) m) with (vadd (vsub (theta i) c) (vsub c m)) by (apply functional_extensionality; intros; unfold vadd, vsub; ring).
    rewrite quad_add by auto. f_equal. f_equal. replace (vsub m c) with (vscal (-1) (vsub c m)) by (apply functional_extensionality; intros; unfold vscal, vsub; ring).
    rewrite quad_neg. reflexivity. }
  assert (E2 : q (vsub m mu) = q (vsub c mu) + q (vsub m c) - 2 * dot n (vsub c mu) (mv n S (vsub c m))).
  { unfold q. replace (vsub m mu) with (vadd (vsub c mu) (vscal (-1) (vsub c m))) by (apply functional_extensionality; intros; unfold vadd, vsub, vscal; ring).
    rewrite quad_add by auto. rewrite quad_neg. rewrite mv_scal, dot_scal_r.
    replace (dot n (vsub m c) (mv n S (vsub m c))) with (dot n (vsub c m) (mv n S (vsub c m))); [ring|].
    rewrite <- (quad_neg n S (vsub m c)). replace (vscal (-1) (vsub m c)) with (vsub c m) by (apply functional_extensionality; intros; unfold vscal, vsub; ring). reflexivity. }
  rewrite (sm_ext N _ (fun i => w i * q (vsub (theta i) c) + (w i * q (vsub m c) + 2 * (w i * dot n (vsub (theta i) c) (mv n S (vsub c m)))))) by (intros; rewrite E1; ring).
  rewrite sm_plus, sm_plus, sm_scal_r, sm_scal, E2.
  rewrite <- (dot_sm n N w (fun i => vsub (theta i) c)).
  rewrite (dot_ext n _ _ (vscal eta (vsub c mu)) (mv n S (vsub c m))); auto.
  - rewrite dot_scal_l. ring.
  - intros k Hk. unfold vscal, vsub.
    rewrite (sm_ext N _ (fun i => w i * theta i k - w i * c k)) by (intros; ring). rewrite sm_minus, sm_scal_r.
    unfold c, con_mu. field. auto.
Qed.

(** * Directional derivatives *)
Lemma dl_opp : forall f t f', derivable_pt_lim f t f' -> derivable_pt_lim (fun u => - f u) t (- f').
Proof. intros. apply (derivable_pt_lim_opp f t f'). auto. Qed.
Lemma dl_minus : forall f g t f' g', derivable_pt_lim f t f' -> derivable_pt_lim g t g' -> derivable_pt_lim (fun u => f u - g u) t (f' - g').
Proof. intros. apply (derivable_pt_lim_minus f g t f' g'); auto. Qed.
Lemma dl_mult : forall f g t f' g', derivable_pt_lim f t f' -> derivable_pt_lim g t g' -> derivable_pt_lim (fun u => f u * g u) t (f' * g t + f t * g').
Proof. intros. apply (derivable_pt_lim_mult f g t f' g'); auto. Qed.
Lemma dl_div : forall f g t f' g', derivable_pt_lim f t f' -> derivable_pt_lim g t g' -> g t <> 0 ->
  derivable_pt_lim (fun u => f u / g u) t ((f' * g t - g' * f t) / (g t)²).
Proof. intros. apply (derivable_pt_lim_div f g t f' g'); auto. Qed.
Lemma dl_inv : forall g t g', derivable_pt_lim g t g' -> g t <> 0 -> derivable_pt_lim (fun u => / g u) t (- g' / (g t)²).
Proof.
  intros. eapply dl_eq; [apply (dl_div (fun _ => 1) g t 0 g' (dl_const 1 t) H H0)| |].
  - intros. unfold Rdiv. ring.
  - unfold Rdiv. ring.
Qed.
Lemma dl_comp : forall f g t f' g', derivable_pt_lim f t f' -> derivable_pt_lim g (f t) g' -> derivable_pt_lim (fun u => g (f u)) t (g' * f').
Proof. intros. apply (derivable_pt_lim_comp f g t f' g'); auto. Qed.
Lemma dl_ln : forall f t f', derivable_pt_lim f t f' -> 0 < f t -> derivable_pt_lim (fun u => ln (f u)) t (/ f t * f').
Proof. intros. apply (dl_comp f ln t f' (/ f t)); auto. apply derivable_pt_lim_ln. auto. Qed.
Lemma dl_exp : forall f t f', derivable_pt_lim f t f' -> derivable_pt_lim (fun u => exp (f u)) t (exp (f t) * f').
Proof. intros. apply (dl_comp f exp t f' (exp (f t))); auto. apply derivable_pt_lim_exp. Qed.
Lemma dl_sqr : forall f t f', derivable_pt_lim f t f' -> derivable_pt_lim (fun u => f u ^ 2) t (2 * f t * f').
Proof. intros. eapply dl_eq; [apply (dl_mult f f t f' f'); auto| |]; intros; simpl; ring. Qed.
Lemma dl_id : forall t, derivable_pt_lim (fun u => u) t 1.
Proof. intros. apply derivable_pt_lim_id. Qed.
(** the line through a point *)
Lemma dl_line : forall a d, derivable_pt_lim (fun t => a + t * d) 0 d.
Proof.
  intros. eapply dl_eq; [apply (dl_plus (fun _ => a) (fun t => t * d) 0 0 (1 * d)); [apply dl_const|apply dl_scal_r, dl_id]| |].
  - reflexivity.
  - ring.
Qed.

(** The log density of a diagonal Gaussian along curves of means and variances *)
Lemma diag_logpdf_form : forall n mu var x,
  diag_logpdf n mu var x = - / 2 * (INR n * ln (2 * PI)) - / 2 * sm n (fun k => ln (var k) + (x k - mu k) ^ 2 / var k).
Proof.
  intros. unfold diag_logpdf, logpdf. rewrite quad_diagm, sm_plus. unfold vsub.
  rewrite (sm_ext n (fun k => / var k * ((x k - mu k) * (x k - mu k))) (fun k => (x k - mu k) ^ 2 / var k)) by (intros; unfold Rdiv; ring).
  ring.
Qed.
Lemma diag_logpdf_derivative : forall n (mu var : R -> vec) (mu' var' : vec) x,
  (forall k, (k < n)%nat -> derivable_pt_lim (fun t => mu t k) 0 (mu' k)) ->
  (forall k, (k < n)%nat -> derivable_pt_lim (fun t => var t k) 0 (var' k)) ->
  (forall k, (k < n)%nat -> 0 < var 0 k) ->
  derivable_pt_lim (fun t => diag_logpdf n (mu t) (var t) x) 0
    (sm n (fun k => (x k - mu 0 k) / var 0 k * mu' k + / 2 * ((x k - mu 0 k) ^ 2 / var 0 k ^ 2 - / var 0 k) * var' k)).
Proof.
  intros n mu var mu' var' x Hm Hv Hp.
  eapply dl_eq with (f := fun t => - / 2 * (INR n * ln (2 * PI)) - / 2 * sm n (fun k => ln (var t k) + (x k - mu t k) ^ 2 / var t k)).
  - apply dl_minus; [apply dl_const|]. apply dl_scal.
    apply (sm_derivable n (fun k t => ln (var t k) + (x k - mu t k) ^ 2 / var t k)). intros k Hk.
    apply dl_plus; [apply (dl_ln (fun t => var t k)); auto|].
    apply (dl_div (fun t => (x k - mu t k) ^ 2) (fun t => var t k)); [|auto|specialize (Hp k Hk); lra].
    apply (dl_sqr (fun t => x k - mu t k)). apply dl_minus; [apply dl_const|auto].
  - intros. symmetry. apply diag_logpdf_form.
  - rewrite Rminus_0_l, <- sm_scal, <- sm_opp. apply sm_ext. intros k Hk. specialize (Hp k Hk). unfold Rsqr. field. lra.
Qed.

(** The log density of a Gaussian with fixed covariance along a curve of means *)
Lemma logpdf_mean_derivative : forall n (mu : R -> vec) (mu' : vec) S ld x,
  (forall k, (k < n)%nat -> derivable_pt_lim (fun t => mu t k) 0 (mu' k)) ->
  derivable_pt_lim (fun t => logpdf n (mu t) S ld x) 0
    (/ 2 * sm n (fun o => sm n (fun q => mu' q * (S q o + S o q)) * (x o - mu 0 o))).
Proof.
  intros n mu mu' S ld x Hm. unfold logpdf.
  eapply dl_eq with (f := fun t => - / 2 * (INR n * ln (2 * PI) + ld + sm n (fun i => (x i - mu t i) * sm n (fun j => S i j * (x j - mu t j))))).
  - apply dl_scal. apply dl_plus; [apply dl_const|].
    apply (sm_derivable n (fun i t => (x i - mu t i) * sm n (fun j => S i j * (x j - mu t j)))). intros i Hi.
    apply (dl_mult (fun t => x i - mu t i) (fun t => sm n (fun j => S i j * (x j - mu t j)))).
    + apply dl_minus; [apply dl_const|auto].
    + apply (sm_derivable n (fun j t => S i j * (x j - mu t j))). intros j Hj. apply dl_scal. apply dl_minus; [apply dl_const|auto].
  - reflexivity.
  - rewrite Rplus_0_l.
    rewrite (sm_ext n _ (fun i => - sm n (fun j => mu' i * S i j * (x j - mu 0 j)) - sm n (fun j => mu' j * S i j * (x i - mu 0 i)))).
    + rewrite sm_minus, sm_opp. rewrite (sm_swap n n (fun i j => mu' i * S i j * (x j - mu 0 j))).
      rewrite (sm_ext n (fun o => sm n (fun q => mu' q * (S q o + S o q)) * (x o - mu 0 o))
                (fun o => sm n (fun q => mu' q * S q o * (x o - mu 0 o)) + sm n (fun q => mu' q * S o q * (x o - mu 0 o)))).
      * rewrite sm_plus. field.
      * intros o Ho. rewrite <- sm_scal_r, <- sm_plus. apply sm_ext. intros. ring.
    + intros i Hi. rewrite Rminus_0_l.
      rewrite (sm_ext n (fun j => S i j * (0 - mu' j)) (fun j => - (mu' j * S i j))) by (intros; ring). rewrite sm_opp.
      rewrite (sm_scal_r n (x i - mu 0 i) (fun j => mu' j * S i j)).
      rewrite (sm_ext n (fun j => mu' i * S i j * (x j - mu 0 j)) (fun j => mu' i * (S i j * (x j - mu 0 j)))) by (intros; ring). rewrite sm_scal. ring.
Qed.

(** * Triangular index sets *)
Lemma tril_S : forall n, tril (S n) = tril n ++ map (fun j => (n, j)) (seq 0 (n + 1)).
Proof. intros. unfold tril. rewrite seq_S, map_app, concat_app. simpl. rewrite app_nil_r. reflexivity. Qed.
Lemma tril_in : forall n i j, In (i, j) (tril n) <-> (i < n /\ j <= i)%nat.
Proof.
  induction n; intros i j.
  - simpl. lia.
  - rewrite tril_S, in_app_iff, IHn, in_map_iff. split.
    + intros [H|[k [E H]]]; [lia|]. inversion E; subst. apply in_seq in H. lia.
    + intros H. destruct (Nat.eq_dec i n) as [->|NE]; [|left; lia]. right. exists j. split; auto. apply in_seq. lia.
Qed.
Lemma tril_length : forall n, (2 * length (tril n) = n * (n + 1))%nat.
Proof. induction n; [reflexivity|]. rewrite tril_S, app_length, map_length, seq_length. lia. Qed.
Lemma tril_NoDup : forall n, NoDup (tril n).
Proof.
  induction n; [constructor|]. rewrite tril_S. apply NoDup_app_intro; auto.
  - apply FinFun.Injective_map_NoDup; [|apply seq_NoDup]. intros a b E. inversion E. auto.
  - intros [i j] H1 H2. apply tril_in in H1. apply in_map_iff in H2. destruct H2 as [k [E _]]. inversion E. lia.
Qed.
Lemma chol_size_eq : forall n, chol_size n = (n + length (tril n))%nat.
Proof.
  intros n. unfold chol_size. pose proof (tril_length n). set (k := length (tril n)) in *.
  replace (n * n - n)%nat with ((k - n) * 2)%nat by nia. rewrite Nat.div_mul by lia. nia.
Qed.
Lemma rsum_tril : forall n f, rsum (map f (tril n)) = sm n (fun i => sm (i + 1) (fun j => f (i, j))).
Proof.
  induction n; intros f; [reflexivity|]. rewrite tril_S, map_app, rsum_app, IHn, sm_S, map_map. reflexivity.
Qed.
Lemma sm_lower : forall n i f, (i < n)%nat -> (forall j, (i < j)%nat -> (j < n)%nat -> f j = 0) -> sm (i + 1) f = sm n f.
Proof.
  intros n i f Hi H. replace n with ((i + 1) + (n - i - 1))%nat by lia. rewrite (sm_app (i + 1) (n - i - 1)), (sm_zero (n - i - 1)); [ring|]. intros. apply H; lia.
Qed.

(** assignments at distinct index pairs *)
Definition mfill (l : list ((nat * nat) * R)) (X : mat) : mat := fold_left (fun X px => mset X (fst px) (snd px)) l X.
Lemma mset_same : forall X i j x, mset X (i, j) x i j = x.
Proof. intros. unfold mset. simpl. rewrite !Nat.eqb_refl. reflexivity. Qed.
Lemma mset_other : forall X p x i j, (i, j) <> p -> mset X p x i j = X i j.
Proof.
  intros X [a b] x i j H. unfold mset. simpl. destruct (Nat.eqb_spec i a); destruct (Nat.eqb_spec j b); subst; auto. congruence.
Qed.
Lemma mfill_other : forall l X i j, ~ In (i, j) (map fst l) -> mfill l X i j = X i j.
Proof.
  induction l as [|[p x] l IH]; intros X i j H; [reflexivity|]. unfold mfill in *. simpl in *. rewrite IH by tauto. apply mset_other. intros E. apply H. auto.
Qed.
Lemma mfill_in : forall l X i j x, NoDup (map fst l) -> In ((i, j), x) l -> mfill l X i j = x.
Proof.
  induction l as [|[p y] l IH]; intros X i j x ND H; [destruct H|]. simpl in *. inversion ND as [|? ? NI ND']; subst.
  change (mfill l (mset X p y) i j = x). destruct H as [E|H].
  - inversion E; subst. rewrite mfill_other by auto. apply mset_same.
  - apply IH; auto.
Qed.
Lemma map_fst_combine : forall {A B} (a : list A) (b : list B), length a = length b -> map fst (combine a b) = a.
Proof. induction a; intros [|b0 b] H; simpl in *; try discriminate; auto. f_equal. apply IHa. lia. Qed.
Lemma combine_map_in : forall {A} (p : A) (f : A -> R) l, In p l -> In (p, f p) (combine l (map f l)).
Proof. induction l; intros H; [destruct H|]. simpl in *. destruct H as [->|H]; auto. Qed.
(** the assigned entries can be read back *)
Lemma mfill_get : forall ps vs X, NoDup ps -> length ps = length vs -> map (fun p => mfill (combine ps vs) X (fst p) (snd p)) ps = vs.
Proof.
  intros ps vs X ND HL.
  assert (G : forall pre prev, length pre = length prev -> NoDup (pre ++ ps) ->
     map (fun p => mfill (combine (pre ++ ps) (prev ++ vs)) X (fst p) (snd p)) ps = vs).
  { revert vs HL. clear ND. induction ps as [|[i j] ps IH]; intros [|v vs] HL pre prev Hp ND; simpl in *; try discriminate; auto. f_equal.
    - apply mfill_in.
      + rewrite map_fst_combine; auto. rewrite !app_length. simpl. lia.
      + clear -Hp. revert prev Hp. induction pre; intros [|q prev] Hp; simpl in *; try discriminate; auto.
    - specialize (IH vs ltac:(lia) (pre ++ [(i, j)]) (prev ++ [v])). rewrite <- !app_assoc in IH. simpl in IH. apply IH; auto. rewrite !app_length. simpl. lia. }
  apply (G [] []); auto.
Qed.

Definition dotl (a b : list R) : R := rsum (map (fun p => fst p * snd p) (combine a b)).
Definition vaddl (a : list R) (t : R) (d : list R) : list R := map (fun p => fst p + t * snd p) (combine a d).
Lemma dotl_app : forall a b a' b', length a = length a' -> dotl (a ++ b) (a' ++ b') = dotl a a' + dotl b b'.
Proof.
  intros a b. unfold dotl. induction a as [|x a IH]; intros [|y a'] b' H; simpl in *; try discriminate; [ring|]. rewrite IH by lia. ring.
Qed.
Lemma dotl_map : forall {A} (f g : A -> R) l, dotl (map f l) (map g l) = rsum (map (fun x => f x * g x) l).
Proof. induction l; unfold dotl in *; simpl; auto. rewrite IHl. reflexivity. Qed.
Lemma vaddl_app : forall a b a' b' t, length a = length a' -> vaddl (a ++ b) t (a' ++ b') = vaddl a t a' ++ vaddl b t b'.
Proof. induction a as [|x a IH]; intros b [|y a'] b' t H; simpl in *; try discriminate; auto. unfold vaddl in *. simpl. rewrite IH by lia. reflexivity. Qed.
Lemma vaddl_map : forall {A} (f g : A -> R) t l, vaddl (map f l) t (map g l) = map (fun x => f x + t * g x) l.
Proof. induction l; unfold vaddl in *; simpl; auto. rewrite IHl. reflexivity. Qed.

(** The inverse of a lower triangular matrix *)
Lemma lower_inverse : forall n L IL, (forall i j, (i < n)%nat -> (j < n)%nat -> (i < j)%nat -> L i j = 0) ->
  (forall i j, (i < n)%nat -> (j < n)%nat -> mm n L IL i j = eye i j) ->
  forall i, (i < n)%nat -> L i i * IL i i = 1 /\ forall j, (j < n)%nat -> (i < j)%nat -> IL i j = 0.
Proof.
  intros n L IL HL HI i. induction i as [i IH] using (well_founded_induction Wf_nat.lt_wf). intros Hi.
  assert (D : L i i * IL i i = 1).
  { pose proof (HI i i Hi Hi) as E. unfold mm, eye in E. rewrite Nat.eqb_refl in E. rewrite (sm_single n i) in E; auto.
    intros k Hk NE. destruct (Nat.lt_ge_cases k i) as [Hlt|Hge].
    - destruct (IH k Hlt Hk) as [_ Z]. rewrite (Z i); auto. ring.
    - rewrite HL; auto; [ring|lia]. }
  split; auto. intros j Hj Hij. pose proof (HI i j Hi Hj) as E. unfold mm, eye in E.
  destruct (Nat.eqb_spec i j) as [|_]; [lia|]. rewrite (sm_single n i) in E; auto.
  - apply Rmult_integral in E. destruct E as [E|E]; auto. rewrite E in D. lra.
  - intros k Hk NE. destruct (Nat.lt_ge_cases k i) as [Hlt|Hge].
    + destruct (IH k Hlt Hk) as [_ Z]. rewrite (Z j); auto; [ring|lia].
    + rewrite HL; auto; [ring|lia].
Qed.

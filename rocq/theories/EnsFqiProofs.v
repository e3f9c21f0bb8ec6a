(** Proofs for BoostedFQI and DoubleFQI with linear regressors. *)
From Coq Require Import List Arith Lia Reals Lra Bool.
From Verif Require Import Common TdModel DqnModel DqnSpec DqnProofs BatchModel BatchProps ApproxModel Mat EnacSpec FqiLinModel FqiLinSpec FqiLinProofs EnsFqiModel.
Import ListNotations.
Local Open Scope R_scope.

(** * The regression is linear in the targets *)
Section Lin.
Context {X : Type}.
Variables (p nA : nat) (phi : X -> vec) (pinv : nat -> nat -> mat -> mat).

Lemma nth_map_sm : forall A (L : list A) k (ts : nat -> A -> R) i,
  nth i (map (fun x => sm k (fun j => ts j x)) L) 0 = sm k (fun j => nth i (map (ts j) L) 0).
Proof.
  intros A L k ts. induction L as [|x L IH]; intros i.
  - cbn [map]. destruct i; cbn [nth]; symmetry; apply sm_0.
  - cbn [map]. destruct i; cbn [nth]; [reflexivity|apply IH].
Qed.

Lemma design_eq : forall (L : list (bsample X)) f g, design phi (map (fun x => (b_s x, f x)) L) = design phi (map (fun x => (b_s x, g x)) L).
Proof.
  intros L f g. apply FunctionalExtensionality.functional_extensionality. intros i. apply FunctionalExtensionality.functional_extensionality. intros j.
  unfold design. rewrite !nth_error_map. destruct (nth_error L i); reflexivity.
Qed.

Lemma lin_fit_sm : forall (L : list (bsample X)) k ts c,
  lin_fit p phi pinv (map (fun x => (b_s x, sm k (fun j => ts j x))) L) c = sm k (fun j => lin_fit p phi pinv (map (fun x => (b_s x, ts j x)) L) c).
Proof.
  intros L k ts c. unfold lin_fit. rewrite !map_length, map_map. cbn [snd].
  rewrite (design_eq L (fun x => sm k (fun j => ts j x)) (fun _ => 0)).
  transitivity (sm k (fun j => sm (length L) (fun i => pinv (length L) p (design phi (map (fun x => (b_s x, 0)) L)) c i * nth i (map (ts j) L) 0))).
  - rewrite <- sm_swap. unfold mv. apply sm_ext. intros i _. rewrite nth_map_sm. rewrite sm_scal. reflexivity.
  - apply sm_ext. intros j _. rewrite map_length, map_map. cbn [snd]. rewrite (design_eq L (ts j) (fun _ => 0)). reflexivity.
Qed.

(** The weights of an action never tried stay, the others add up *)
Lemma reg_fit_sm : forall (D : list (bsample X)) m (ns : nat -> lreg) k ts a c,
  ((forall x, In x D -> b_a x <> a) -> m a c = sm k (fun j => ns j a c)) ->
  reg_fit p phi pinv m (map b_s D) (map b_a D) (map (fun x => sm k (fun j => ts j x)) D) a c
  = sm k (fun j => reg_fit p phi pinv (ns j) (map b_s D) (map b_a D) (map (ts j) D) a c).
Proof.
  intros D m ns k ts a c H. unfold reg_fit. rewrite of_action_map. set (l := filter (fun x => Nat.eqb (b_a x) a) D).
  destruct l as [|z l'] eqn:E.
  - cbn [map]. etransitivity; [apply H|].
    + intros x I Q. assert (F : In x (filter (fun x => Nat.eqb (b_a x) a) D)) by (apply filter_In; split; [exact I|apply Nat.eqb_eq; exact Q]). fold l in F. rewrite E in F. destruct F.
    + apply sm_ext. intros j _. rewrite of_action_map. fold l. rewrite E. reflexivity.
  - transitivity (lin_fit p phi pinv (map (fun x => (b_s x, sm k (fun j => ts j x))) l) c); [rewrite E; reflexivity|].
    rewrite lin_fit_sm. apply sm_ext. intros j _. rewrite of_action_map. fold l. rewrite E. reflexivity.
Qed.

Lemma reg_fit_unseen : forall (D : list (bsample X)) m q a, (forall x, In x D -> b_a x <> a) -> length q = length D ->
  reg_fit p phi pinv m (map b_s D) (map b_a D) q a = m a.
Proof.
  intros D m q a H L. unfold reg_fit, of_action.
  assert (E : filter (fun t : X * nat * R => Nat.eqb (snd (fst t)) a) (combine (combine (map b_s D) (map b_a D)) q) = []); [|rewrite E; reflexivity].
  revert q L. induction D as [|x D IH]; intros [|y q] L; try discriminate; [reflexivity|]. cbn [map combine filter fst snd].
  destruct (Nat.eqb (b_a x) a) eqn:Q; [apply Nat.eqb_eq in Q; destruct (H x (or_introl eq_refl) Q)|].
  apply IH; [intros z I; apply H; right; exact I|simpl in L; lia].
Qed.

Lemma reg_pred_nth : forall m x a, (a < nA)%nat -> nth a (reg_pred p nA phi m x) 0 = dot p (phi x) (m a).
Proof.
  intros m x a Ha. unfold reg_pred. rewrite (nth_indep _ 0 ((fun a => dot p (phi x) (m a)) 0%nat)) by (rewrite map_length, seq_length; assumption).
  rewrite (map_nth (fun a => dot p (phi x) (m a))). rewrite seq_nth by assumption. reflexivity.
Qed.
Lemma dot_sum : forall u k (w : nat -> vec), dot p u (fun c => sm k (fun j => w j c)) = sm k (fun j => dot p u (w j)).
Proof.
  intros u k w. unfold dot. rewrite <- sm_swap. apply sm_ext. intros i _. rewrite sm_scal. reflexivity.
Qed.
Lemma pred_sum : forall (W : lreg) (ns : nat -> lreg) k x, (forall a c, (c < p)%nat -> W a c = sm k (fun j => ns j a c)) ->
  reg_pred p nA phi W x = map (fun a => sm k (fun j => nth a (reg_pred p nA phi (ns j) x) 0)) (seq 0 nA).
Proof.
  intros W ns k x H. unfold reg_pred at 1. apply map_ext_in. intros a I. apply in_seq in I.
  transitivity (dot p (phi x) (fun c => sm k (fun j => ns j a c))); [apply dot_ext; auto|].
  rewrite (dot_sum (phi x) k (fun j => ns j a)). apply sm_ext. intros j _. rewrite reg_pred_nth by lia. reflexivity.
Qed.
End Lin.

Lemma Forall2_is_map : forall A (P : A -> R -> Prop) f D ys, Forall2 P D ys -> (forall x y, In x D -> P x y -> y = f x) -> ys = map f D.
Proof.
  intros A P f D ys F. induction F as [|x y D ys H F IH]; intros G; [reflexivity|]. cbn [map]. f_equal; [apply G; [left; reflexivity|exact H]|].
  apply IH. intros z w I. apply G. right. exact I.
Qed.

Lemma rsum_sm0 : forall A (f : A -> R) l d, rsum (map f l) = sm (length l) (fun j => f (nth j l d)).
Proof.
  intros A f l d. induction l as [|x l IH]; [reflexivity|]. cbn [map rsum length]. rewrite IH.
  change (S (length l)) with (1 + length l)%nat. rewrite sm_app. f_equal. unfold sm. cbn [seq map rsum nth]. ring.
Qed.

(** * BoostedFQI *)
Section Boost.
Context {X : Type}.
Variables (p nA : nat) (phi : X -> vec) (pinv : nat -> nat -> mat -> mat) (gamma : R).
Hypothesis HA : (0 < nA)%nat.
Notation zero := (fun _ _ => 0 : R).

Lemma boosted_sums : forall n (D : list (bsample X)) ms, (n < length ms)%nat -> (forall m, In m ms -> forall a c, m a c = 0) ->
  exists st, boosted_lin p nA phi pinv gamma (S n) D (boosted_init ms) = Some st /\ length (f_models st) = length ms /\
    (forall j, (n < j)%nat -> forall a c, nth j (f_models st) zero a c = 0) /\
    forall a c, fst (fqi_lin p nA phi pinv gamma (S n) D (zero, None)) a c = sm (S n) (fun j => nth j (f_models st) zero a c).
Proof.
  intros n D ms Hn HZ.
  assert (HL : forall (m : lreg) (x : X), length (reg_pred p nA phi m x) = nA) by (intros; unfold reg_pred; rewrite map_length, seq_length; reflexivity).
  assert (NE : forall (m : lreg) (x : X), reg_pred p nA phi m x <> []) by (intros m x E; pose proof (HL m x) as L; rewrite E in L; simpl in L; lia).
  destruct (boosted_run (reg_pred p nA phi) (reg_fit p phi pinv) gamma nA D ms zero n HA HL Hn) as (st & ts & E & _ & LM & FM & TM & FULL).
  exists st. split; [exact E|]. split; [exact LM|].
  assert (ZJ : forall j a c, nth j ms zero a c = 0).
  { intros j a c. destruct (Nat.lt_ge_cases j (length ms)) as [L|G]; [apply HZ, nth_In, L|rewrite nth_overflow by exact G; reflexivity]. }
  split; [intros j Hj a c; rewrite TM by exact Hj; apply ZJ|].
  destruct (fqi_run (reg_pred p nA phi) (reg_fit p phi pinv) gamma n D zero NE) as (fs & ys & F0 & Y0 & FS & YS & EF).
  assert (INV : forall k, (k <= n)%nat -> ys k = map (fun x => sm (S k) (fun j => ts j x)) D /\
    (forall a c, fs (S k) a c = sm (S k) (fun j => nth j (f_models st) zero a c)) /\
    (forall a c, (forall x, In x D -> b_a x <> a) -> fs (S k) a c = 0)).
  { assert (STEP : forall k, (k <= n)%nat -> ys k = map (fun x => sm (S k) (fun j => ts j x)) D ->
      (forall a c, (forall x, In x D -> b_a x <> a) -> fs k a c = 0) ->
      (forall a c, fs (S k) a c = sm (S k) (fun j => nth j (f_models st) zero a c)) /\
      (forall a c, (forall x, In x D -> b_a x <> a) -> fs (S k) a c = 0)).
    { intros k Hk Y U. split.
      - intros a c. rewrite FS, Y by exact Hk. rewrite (reg_fit_sm p phi pinv D (fs k) (fun j => nth j ms zero) (S k) ts a c).
        + apply sm_ext. intros j Hj. rewrite FM by lia. reflexivity.
        + intros N. rewrite U by exact N. symmetry. apply sm_zero. intros j _. apply ZJ.
      - intros a c N. rewrite FS by exact Hk. rewrite reg_fit_unseen; [apply U; exact N|exact N|rewrite Y; apply map_length]. }
    induction k as [|k IH]; intros Hk.
    - assert (Y : ys 0%nat = map (fun x => sm 1 (fun j => ts j x)) D).
      { rewrite Y0. apply map_ext_in. intros x I. destruct (FULL 0%nat x ltac:(lia) I) as [A _]. symmetry. apply A. left. reflexivity. }
      split; [exact Y|]. apply STEP; [exact Hk|exact Y|]. intros a c _. rewrite F0. reflexivity.
    - destruct (IH ltac:(lia)) as (Y & W & U).
      assert (Y' : ys (S k) = map (fun x => sm (S (S k)) (fun j => ts j x)) D).
      { eapply Forall2_is_map; [apply YS; lia|]. intros x y I [A B]. destruct (FULL (S k) x Hk I) as [A' B']. unfold bsumm in A', B'.
        destruct (b_abs x).
        - rewrite (A eq_refl). symmetry. apply A'. right. reflexivity.
        - destruct (B eq_refl) as (v & MV & ->). destruct (B' ltac:(discriminate) eq_refl) as (v' & MV' & ->). f_equal. f_equal.
          eapply max_uniq; [exact MV|]. unfold bvalue in MV'. rewrite (pred_sum p nA phi _ (fun j => nth j (f_models st) zero) (S k)) by (intros; apply W). exact MV'. }
      split; [exact Y'|]. apply STEP; [exact Hk|exact Y'|exact U]. }
  intros a c. eapply eq_trans; [exact (f_equal (fun z => fst z a c) EF)|]. cbn [fst]. apply (INV n). lia.
Qed.

Lemma ens_sum_fqi : forall n (D : list (bsample X)) ms, (n < length ms)%nat -> (forall m, In m ms -> forall a c, m a c = 0) ->
  exists st, boosted_lin p nA phi pinv gamma (S n) D (boosted_init ms) = Some st /\ length (f_models st) = length ms /\
    forall x, ens_q p nA phi ESum (f_models st) x = reg_pred p nA phi (fst (fqi_lin p nA phi pinv gamma (S n) D (zero, None))) x.
Proof.
  intros n D ms Hn HZ. destruct (boosted_sums n D ms Hn HZ) as (st & E & L & T & W). exists st. split; [exact E|]. split; [exact L|].
  intros x. unfold ens_q. rewrite (pred_sum p nA phi _ (fun j => nth j (f_models st) zero) (S n)) by (intros; apply W).
  apply map_ext_in. intros a I. apply in_seq in I. unfold ens_predict. rewrite (rsum_sm0 _ (fun m => nth a (reg_pred p nA phi m x) 0) (f_models st) zero). rewrite L.
  replace (length ms) with (S n + (length ms - S n))%nat by lia. rewrite sm_app.
  rewrite <- (Rplus_0_r (sm (S n) (fun j => nth a (reg_pred p nA phi (nth j (f_models st) zero) x) 0))) at 2. f_equal.
  apply sm_zero. intros i _. rewrite reg_pred_nth by lia. unfold dot. apply sm_zero. intros c _. rewrite T by lia. ring.
Qed.
End Boost.

(** * DoubleFQI *)
Section Dbl.
Context {X : Type}.
Variables (p nA : nat) (cell : X -> nat) (phi : X -> vec) (pinv : nat -> nat -> mat -> mat) (gamma : R).
Hypothesis OH : one_hot p cell phi.
Hypothesis HP : forall n m A, penrose n m A (pinv n m A).
Hypothesis HA : (0 < nA)%nat.

(** The target of a sample: the best action of [own], valued by [other] *)
Definition best (Q : nat -> nat -> R) (c : nat) : nat := argmax (map (Q c) (seq 0 nA)).
Definition dbk (own other : nat -> nat -> R) (x : bsample X) : R :=
  b_r x + gamma * (if b_abs x then 0 else other (cell (b_s' x)) (best own (cell (b_s' x)))).
Definition dstart (m : lreg) (t : option (list R * list R)) (c a : nat) : R := match t with None => 0 | Some _ => m a c end.

Lemma nth_seq_map : forall (f : nat -> R) a, (a < nA)%nat -> nth a (map f (seq 0 nA)) 0 = f a.
Proof.
  intros f a Ha. rewrite (nth_indep _ 0 (f 0%nat)) by (rewrite map_length, seq_length; assumption). rewrite map_nth, seq_nth by assumption. reflexivity.
Qed.
Lemma best_spec : forall Q c, (best Q c < nA)%nat /\ forall a, (a < nA)%nat -> Q c a <= Q c (best Q c).
Proof.
  intros Q c. unfold best. destruct (argmax_spec (map (Q c) (seq 0 nA)) (seq_ne nA HA (Q c))) as [L [_ M]]. rewrite map_length, seq_length in L.
  split; [exact L|]. intros a Ha. rewrite nth_seq_map in M by exact L. apply M. apply in_map, in_seq. lia.
Qed.

Lemma diter_step : forall (D : list (bsample X)) m0 m1 t c a, (c < p)%nat ->
  let st := dfqi_iter (reg_pred p nA phi) (reg_fit p phi pinv) gamma D ((m0, m1), t) in
  fst (fst st) a c = table cell (dfqi_part D 0) m0 (dbk (dstart m0 t) (dstart m1 t)) c a /\
  snd (fst st) a c = table cell (dfqi_part D 1) m1 (dbk (dstart m1 t) (dstart m0 t)) c a /\
  exists t', snd st = Some t'.
Proof.
  intros D m0 m1 t c a Hc. cbv zeta.
  assert (N : forall own other Di x, nth (argmax (map (fun b => own b (cell (b_s' x))) (seq 0 nA))) (map (fun b => other b (cell (b_s' x))) (seq 0 nA)) 0
    = dstart other (Some Di) (cell (b_s' x)) (best (dstart own (Some Di)) (cell (b_s' x)))).
  { intros own other Di x. exact (nth_seq_map (fun b => other b (cell (b_s' x))) _ (proj1 (best_spec (dstart own (Some Di)) (cell (b_s' x))))). }
  unfold dfqi_iter. destruct t as [t|]; cbn [fst snd].
  - rewrite !double_map, !add_targets_map, !(reg_fit_table p cell phi pinv OH HP) by assumption. split; [|split; [|eauto]];
      f_equal; apply FunctionalExtensionality.functional_extensionality; intros x; unfold dbk; rewrite !(pred_ext p nA cell phi OH), (N _ _ t); reflexivity.
  - rewrite !(reg_fit_table p cell phi pinv OH HP) by assumption. split; [|split; [|eauto]];
      f_equal; apply FunctionalExtensionality.functional_extensionality; intros x; unfold dbk, dstart; destruct (b_abs x); ring.
Qed.

Lemma dfqi_S : forall n (D : list (bsample X)) st, dfqi_fit (reg_pred p nA phi) (reg_fit p phi pinv) gamma (S n) D st
  = dfqi_iter (reg_pred p nA phi) (reg_fit p phi pinv) gamma D (dfqi_fit (reg_pred p nA phi) (reg_fit p phi pinv) gamma n D st).
Proof. induction n as [|n IH]; intros D st; [reflexivity|]. cbn [dfqi_fit] in *. apply IH. Qed.

Lemma mean_le : forall A (f g : A -> R) h d, h <> [] -> (forall x, In x h -> f x <= g x + d) -> mean (map f h) <= mean (map g h) + d.
Proof.
  intros A f g h d N H. unfold mean. rewrite !map_length. assert (P : 0 < INR (length h)) by (apply lt_0_INR; destruct h; [congruence|simpl; lia]).
  assert (S : rsum (map f h) <= rsum (map g h) + INR (length h) * d).
  { clear N P. induction h as [|x h IH]; [simpl; lra|]. cbn [map rsum length]. rewrite S_INR. pose proof (H x (or_introl eq_refl)).
    assert (rsum (map f h) <= rsum (map g h) + INR (length h) * d) by (apply IH; intros y I; apply H; right; exact I). lra. }
  apply Rmult_le_reg_r with (INR (length h)); [exact P|]. unfold Rdiv. rewrite Rmult_plus_distr_r, !Rmult_assoc, Rinv_l by lra. lra.
Qed.

(** One side of one iteration *)
Section Err.
Variables (Di : list (bsample X)) (m : lreg) (Qs : nat -> nat -> R) (e : R).
Hypothesis HG : 0 <= gamma.
Hypothesis HD : forall c a, (c < p)%nat -> (a < nA)%nat -> here cell Di c a <> [] /\
  exists ys, Forall2 (backup nA cell gamma Qs) (here cell Di c a) ys /\ Rabs (mean ys - Qs c a) <= e.
Variables (own other : nat -> nat -> R) (u l : R).
Hypothesis UO : forall c a, (c < p)%nat -> (a < nA)%nat -> own c a <= Qs c a + u.
Hypothesis UT : forall c a, (c < p)%nat -> (a < nA)%nat -> other c a <= Qs c a + u.

Lemma over_step : forall c a, 0 <= u -> (c < p)%nat -> (a < nA)%nat -> table cell Di m (dbk own other) c a <= Qs c a + (e + gamma * u).
Proof.
  intros c a Hu Hc Ha. destruct (HD c a Hc Ha) as (N & ys & F & B). apply (backups_bk nA cell gamma HA) in F. subst ys.
  assert (L : mean (map (dbk own other) (here cell Di c a)) <= mean (map (bk nA cell gamma Qs) (here cell Di c a)) + gamma * u).
  { apply mean_le; [exact N|]. intros x _. unfold dbk, bk. destruct (b_abs x); [nra|].
    pose proof (OH (b_s' x)) as [Cx _]. destruct (best_spec own (cell (b_s' x))) as [Lb _]. pose proof (UT _ _ Cx Lb) as U.
    destruct (rowmax_spec (map (Qs (cell (b_s' x))) (seq 0 nA)) (seq_ne nA HA _)) as [_ M].
    pose proof (M _ (in_map (Qs (cell (b_s' x))) _ _ (proj2 (in_seq nA 0 (best own (cell (b_s' x)))) ltac:(lia)))). nra. }
  apply BatchProps.Rabs_le_inv in B. unfold table. destruct (here cell Di c a); [congruence|]. lra.
Qed.

Hypothesis LO : forall c a, (c < p)%nat -> (a < nA)%nat -> Qs c a - l <= own c a.
Hypothesis LT : forall c a, (c < p)%nat -> (a < nA)%nat -> Qs c a - l <= other c a.

Lemma under_step : forall c a, 0 <= u -> 0 <= l -> (c < p)%nat -> (a < nA)%nat -> Qs c a - (e + gamma * (2 * l + u)) <= table cell Di m (dbk own other) c a.
Proof.
  intros c a Hu Hl Hc Ha. destruct (HD c a Hc Ha) as (N & ys & F & B). apply (backups_bk nA cell gamma HA) in F. subst ys.
  assert (L : mean (map (bk nA cell gamma Qs) (here cell Di c a)) <= mean (map (dbk own other) (here cell Di c a)) + gamma * (2 * l + u)).
  { apply mean_le; [exact N|]. intros x _. unfold dbk, bk. destruct (b_abs x); [nra|].
    pose proof (OH (b_s' x)) as [Cx _]. destruct (best_spec own (cell (b_s' x))) as [Lb MB]. set (b := best own (cell (b_s' x))) in *.
    destruct (rowmax_spec (map (Qs (cell (b_s' x))) (seq 0 nA)) (seq_ne nA HA _)) as [I _]. apply in_map_iff in I as (a' & E' & I). apply in_seq in I.
    rewrite <- E'. assert (A' : (a' < nA)%nat) by lia.
    pose proof (LT _ _ Cx Lb). pose proof (UO _ _ Cx Lb). pose proof (LO _ _ Cx A'). pose proof (MB a' A'). nra. }
  apply BatchProps.Rabs_le_inv in B. unfold table. destruct (here cell Di c a); [congruence|]. lra.
Qed.
End Err.
End Dbl.

(** Finite sums, vectors and matrices over the reals as functions of the indexes.  Used by the
    models of the LQR solver, of the MORE surrogate and of the Gaussian distributions. *)
From Coq Require Import List Arith Lia Reals Lra FunctionalExtensionality.
From Verif Require Import Common.
Import ListNotations.
Local Open Scope R_scope.

Definition vec := nat -> R.
Definition mat := nat -> nat -> R.
Definition sm (n : nat) (f : nat -> R) : R := rsum (map f (seq 0 n)).
Definition dot (n : nat) (u v : vec) : R := sm n (fun i => u i * v i).
(** matrix-vector product, [k] columns *)
Definition mv (k : nat) (X : mat) (v : vec) : vec := fun i => sm k (fun j => X i j * v j).
(** matrix product, inner dimension [k] *)
Definition mm (k : nat) (X Y : mat) : mat := fun i j => sm k (fun l => X i l * Y l j).
Definition mt (X : mat) : mat := fun i j => X j i.
Definition madd (X Y : mat) : mat := fun i j => X i j + Y i j.
Definition msub (X Y : mat) : mat := fun i j => X i j - Y i j.
Definition mscal (c : R) (X : mat) : mat := fun i j => c * X i j.
Definition vadd (u v : vec) : vec := fun i => u i + v i.
Definition vsub (u v : vec) : vec := fun i => u i - v i.
Definition vscal (c : R) (v : vec) : vec := fun i => c * v i.
Definition eye : mat := fun i j => if Nat.eqb i j then 1 else 0.
Definition trace (n : nat) (X : mat) : R := sm n (fun i => X i i).

(** * Sums *)
Lemma sm_ext : forall n f g, (forall i, (i < n)%nat -> f i = g i) -> sm n f = sm n g.
Proof. intros. unfold sm. apply rsum_map_ext. intros i Hi. apply in_seq in Hi. apply H. lia. Qed.
Lemma sm_S : forall n f, sm (S n) f = sm n f + f n.
Proof. intros. unfold sm. rewrite seq_S, map_app, rsum_app. simpl. ring. Qed.
Lemma sm_plus : forall n f g, sm n (fun i => f i + g i) = sm n f + sm n g.
Proof. intros. apply rsum_map_plus. Qed.
Lemma sm_scal : forall n c f, sm n (fun i => c * f i) = c * sm n f.
Proof. intros. apply rsum_map_scal. Qed.
Lemma sm_scal_r : forall n c f, sm n (fun i => f i * c) = sm n f * c.
Proof. intros. rewrite Rmult_comm, <- sm_scal. apply sm_ext. intros. ring. Qed.
Lemma sm_opp : forall n f, sm n (fun i => - f i) = - sm n f.
Proof. intros. rewrite <- (Rmult_1_l (sm n f)), Ropp_mult_distr_l, <- sm_scal. apply sm_ext. intros. ring. Qed.
Lemma sm_minus : forall n f g, sm n (fun i => f i - g i) = sm n f - sm n g.
Proof. intros. unfold Rminus. rewrite sm_plus, sm_opp. reflexivity. Qed.
Lemma sm_0 : forall n, sm n (fun _ => 0) = 0.
Proof. induction n; [reflexivity|]. rewrite sm_S, IHn. ring. Qed.
Lemma sm_zero : forall n f, (forall i, (i < n)%nat -> f i = 0) -> sm n f = 0.
Proof. intros. rewrite (sm_ext n f (fun _ => 0)) by auto. apply sm_0. Qed.
Lemma sm_swap : forall n m f, sm n (fun i => sm m (fun j => f i j)) = sm m (fun j => sm n (fun i => f i j)).
Proof.
  induction n; intros m f.
  - symmetry. apply sm_zero. intros. reflexivity.
  - rewrite sm_S, IHn, <- sm_plus. apply sm_ext. intros. rewrite sm_S. reflexivity.
Qed.
Lemma sm_nonneg : forall n f, (forall i, (i < n)%nat -> 0 <= f i) -> 0 <= sm n f.
Proof. induction n; intros f H; [unfold sm; simpl; lra|]. rewrite sm_S. apply Rplus_le_le_0_compat; auto. Qed.
Lemma sm_le : forall n f g, (forall i, (i < n)%nat -> f i <= g i) -> sm n f <= sm n g.
Proof. induction n; intros f g H; [unfold sm; simpl; lra|]. rewrite !sm_S. apply Rplus_le_compat; auto. Qed.
Lemma sm_single : forall n k f, (k < n)%nat -> (forall i, (i < n)%nat -> i <> k -> f i = 0) -> sm n f = f k.
Proof.
  induction n; intros k f Hk H; [lia|]. rewrite sm_S. destruct (Nat.eq_dec k n) as [->|NE].
  - rewrite sm_zero; [ring|]. intros; apply H; lia.
  - rewrite (IHn k); [|lia|intros; apply H; lia]. rewrite (H n); [ring|lia|auto].
Qed.
Lemma sm_app : forall n m f, sm (n + m) f = sm n f + sm m (fun i => f (n + i)%nat).
Proof.
  induction m; intros f.
  - rewrite Nat.add_0_r. unfold sm at 3. simpl. ring.
  - rewrite Nat.add_succ_r, !sm_S, IHm. ring.
Qed.
Lemma sm_const : forall n c, sm n (fun _ => c) = INR n * c.
Proof. induction n; intros; [unfold sm; simpl; ring|]. rewrite sm_S, IHn, S_INR. ring. Qed.
Lemma sm_mul : forall n m f g, sm n f * sm m g = sm n (fun i => sm m (fun j => f i * g j)).
Proof. intros. rewrite <- sm_scal_r. apply sm_ext. intros. rewrite <- sm_scal. reflexivity. Qed.
(** sums over a flat index *)
Lemma sm_flat : forall n m F, sm (n * m) (fun b => F (b / m)%nat (b mod m)%nat) = sm n (fun j => sm m (fun l => F j l)).
Proof.
  induction n; intros m F; [reflexivity|]. replace (S n * m)%nat with (n * m + m)%nat by lia. rewrite sm_app, IHn, sm_S. f_equal.
  apply sm_ext. intros i Hi. replace (n * m + i)%nat with (i + n * m)%nat by lia.
  rewrite Nat.div_add, Nat.mod_add by lia. rewrite Nat.div_small, Nat.mod_small by lia. reflexivity.
Qed.

(** * Vectors and matrices *)
Lemma dot_comm : forall n u v, dot n u v = dot n v u.
Proof. intros. apply sm_ext. intros. ring. Qed.
Lemma dot_ext : forall n u v u' v', (forall i, (i < n)%nat -> u i = u' i) -> (forall i, (i < n)%nat -> v i = v' i) -> dot n u v = dot n u' v'.
Proof. intros. apply sm_ext. intros. rewrite H, H0 by auto. reflexivity. Qed.
Lemma dot_add_l : forall n u u' v, dot n (vadd u u') v = dot n u v + dot n u' v.
Proof. intros. unfold dot, vadd. rewrite <- sm_plus. apply sm_ext. intros. ring. Qed.
Lemma dot_add_r : forall n u v v', dot n u (vadd v v') = dot n u v + dot n u v'.
Proof. intros. unfold dot, vadd. rewrite <- sm_plus. apply sm_ext. intros. ring. Qed.
Lemma dot_sub_l : forall n u u' v, dot n (vsub u u') v = dot n u v - dot n u' v.
Proof. intros. unfold dot, vsub. rewrite <- sm_minus. apply sm_ext. intros. ring. Qed.
Lemma dot_sub_r : forall n u v v', dot n u (vsub v v') = dot n u v - dot n u v'.
Proof. intros. unfold dot, vsub. rewrite <- sm_minus. apply sm_ext. intros. ring. Qed.
Lemma dot_scal_l : forall n c u v, dot n (vscal c u) v = c * dot n u v.
Proof. intros. unfold dot, vscal. rewrite <- sm_scal. apply sm_ext. intros. ring. Qed.
Lemma dot_scal_r : forall n c u v, dot n u (vscal c v) = c * dot n u v.
Proof. intros. rewrite dot_comm, dot_scal_l, dot_comm. reflexivity. Qed.
Lemma mv_ext : forall k X X' v v' i, (forall j, (j < k)%nat -> X i j = X' i j) -> (forall j, (j < k)%nat -> v j = v' j) -> mv k X v i = mv k X' v' i.
Proof. intros. apply sm_ext. intros. rewrite H, H0 by auto. reflexivity. Qed.
Lemma mv_add : forall k X u v, mv k X (vadd u v) = vadd (mv k X u) (mv k X v).
Proof. intros. apply functional_extensionality. intros i. unfold mv, vadd. rewrite <- sm_plus. apply sm_ext. intros. ring. Qed.
Lemma mv_sub : forall k X u v, mv k X (vsub u v) = vsub (mv k X u) (mv k X v).
Proof. intros. apply functional_extensionality. intros i. unfold mv, vsub. rewrite <- sm_minus. apply sm_ext. intros. ring. Qed.
Lemma mv_scal : forall k X c v, mv k X (vscal c v) = vscal c (mv k X v).
Proof. intros. apply functional_extensionality. intros i. unfold mv, vscal. rewrite <- sm_scal. apply sm_ext. intros. ring. Qed.
Lemma mv_madd : forall k X Y v, mv k (madd X Y) v = vadd (mv k X v) (mv k Y v).
Proof. intros. apply functional_extensionality. intros i. unfold mv, vadd, madd. rewrite <- sm_plus. apply sm_ext. intros. ring. Qed.
Lemma mv_msub : forall k X Y v, mv k (msub X Y) v = vsub (mv k X v) (mv k Y v).
Proof. intros. apply functional_extensionality. intros i. unfold mv, vsub, msub. rewrite <- sm_minus. apply sm_ext. intros. ring. Qed.
Lemma mv_mscal : forall k c X v, mv k (mscal c X) v = vscal c (mv k X v).
Proof. intros. apply functional_extensionality. intros i. unfold mv, vscal, mscal. rewrite <- sm_scal. apply sm_ext. intros. ring. Qed.
Lemma mv_mm : forall k l X Y v, mv l (mm k X Y) v = mv k X (mv l Y v).
Proof.
  intros. apply functional_extensionality. intros i. unfold mv, mm.
  rewrite (sm_ext l _ (fun j => sm k (fun q => X i q * Y q j * v j))) by (intros; rewrite <- sm_scal_r; reflexivity).
  rewrite sm_swap. apply sm_ext. intros q Hq. rewrite <- sm_scal. apply sm_ext. intros. ring.
Qed.
Lemma mv_eye : forall k v i, (i < k)%nat -> mv k eye v i = v i.
Proof.
  intros. unfold mv, eye. rewrite (sm_single k i); auto.
  - rewrite Nat.eqb_refl. ring.
  - intros j Hj NE. destruct (Nat.eqb_spec i j); [congruence|ring].
Qed.
Lemma dot_mv : forall n k X u v, dot n u (mv k X v) = dot k (mv n (mt X) u) v.
Proof.
  intros. unfold dot, mv, mt.
  rewrite (sm_ext n _ (fun i => sm k (fun j => u i * X i j * v j))) by (intros; rewrite <- sm_scal; apply sm_ext; intros; ring).
  rewrite sm_swap. apply sm_ext. intros. rewrite <- sm_scal_r. apply sm_ext. intros. ring.
Qed.
Lemma mt_mt : forall X, mt (mt X) = X.
Proof. reflexivity. Qed.
Lemma mm_assoc : forall k l X Y Z, mm l (mm k X Y) Z = mm k X (mm l Y Z).
Proof.
  intros. apply functional_extensionality. intros i. apply functional_extensionality. intros j.
  change (mm l (mm k X Y) Z i j) with (mv l (mm k X Y) (fun q => Z q j) i). rewrite mv_mm. reflexivity.
Qed.
Lemma mt_mm : forall k X Y, mt (mm k X Y) = mm k (mt Y) (mt X).
Proof. intros. apply functional_extensionality. intros i. apply functional_extensionality. intros j. unfold mt, mm. apply sm_ext. intros. ring. Qed.
Lemma mm_ext : forall k X X' Y Y' i j, (forall l, (l < k)%nat -> X i l = X' i l) -> (forall l, (l < k)%nat -> Y l j = Y' l j) -> mm k X Y i j = mm k X' Y' i j.
Proof. intros. apply sm_ext. intros. rewrite H, H0 by auto. reflexivity. Qed.
Lemma dot_nonneg : forall n v, 0 <= dot n v v.
Proof. intros. apply sm_nonneg. intros. apply Rle_0_sqr. Qed.
(** vector of a unit entry *)
Definition unit_v (k : nat) : vec := fun i => if Nat.eqb i k then 1 else 0.
Lemma dot_unit_l : forall n k v, (k < n)%nat -> dot n (unit_v k) v = v k.
Proof.
  intros. unfold dot, unit_v. rewrite (sm_single n k); auto.
  - rewrite Nat.eqb_refl. ring.
  - intros j Hj NE. destruct (Nat.eqb_spec j k); [congruence|ring].
Qed.
Lemma mv_unit : forall n k X i, (k < n)%nat -> mv n X (unit_v k) i = X i k.
Proof. intros. unfold mv. change (sm n (fun j => X i j * unit_v k j)) with (dot n (fun j => X i j) (unit_v k)). rewrite dot_comm. apply (dot_unit_l n k (fun j => X i j)). auto. Qed.

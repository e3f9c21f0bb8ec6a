(** Positive definite matrices: inverses, traces and log-determinants, for the full-covariance update
    of ConstrainedREPS. *)
From Coq Require Import List Bool Arith Lia Reals Lra FunctionalExtensionality.
From Verif Require Import Common Mat GaussModel GaussProofs BboProps ConRepsModel ConRepsSpec ConRepsProofs.
Import ListNotations.
Local Open Scope R_scope.

Definition q (n : nat) (X : mat) (u : vec) : R := dot n u (mv n X u).
Definition col (L : mat) (k : nat) : vec := fun i => L i k.

Lemma bil_sym : forall n X u v, (forall i j, (i < n)%nat -> (j < n)%nat -> X i j = X j i) -> dot n u (mv n X v) = dot n v (mv n X u).
Proof.
  intros n X u v Hs. rewrite dot_mv, dot_comm. apply dot_ext; auto. intros i Hi. apply mv_ext; auto. intros j Hj. unfold mt. auto.
Qed.
Lemma pd_nonneg : forall n X u, pd n X -> 0 <= q n X u.
Proof.
  intros n X u [Hs Hp].
  assert (D : (exists i, (i < n)%nat /\ u i <> 0) \/ forall i, (i < n)%nat -> u i = 0).
  { clear. induction n as [|n IH]; [right; intros; lia|]. destruct IH as [(i & Hi & Hu)|Z]; [left; exists i; split; [lia|auto]|].
    destruct (Req_dec (u n) 0) as [E|NE]; [right|left; exists n; split; [lia|auto]].
    intros i Hi. destruct (Nat.eq_dec i n) as [->|]; auto. apply Z. lia. }
  destruct D as [D|Z]; [left; apply Hp; auto|]. right. symmetry. apply sm_zero. intros i Hi. rewrite Z by auto. ring.
Qed.
Lemma mv_inv : forall n X Y u i, meq n (mm n X Y) eye -> (i < n)%nat -> mv n X (mv n Y u) i = u i.
Proof.
  intros n X Y u i H Hi. rewrite <- mv_mm. rewrite (mv_ext n (mm n X Y) eye u u i); auto. apply mv_eye. auto.
Qed.
Lemma inv_form : forall n X Y u v, meq n (mm n X Y) eye -> dot n u (mv n Y v) = dot n (mv n Y v) (mv n X (mv n Y u)).
Proof. intros. rewrite dot_comm. apply dot_ext; auto. intros i Hi. rewrite mv_inv; auto. Qed.
Lemma inv_sym : forall n X Y, pd n X -> meq n (mm n X Y) eye -> forall i j, (i < n)%nat -> (j < n)%nat -> Y i j = Y j i.
Proof.
  intros n X Y [Hs _] HI i j Hi Hj.
  assert (E : forall a b, (a < n)%nat -> (b < n)%nat -> Y a b = dot n (unit_v a) (mv n Y (unit_v b))) by (intros; rewrite dot_unit_l, mv_unit; auto).
  rewrite (E i j), (E j i) by auto. rewrite (inv_form n X Y (unit_v i)), (inv_form n X Y (unit_v j)) by auto. apply bil_sym. auto.
Qed.
Lemma q_inv : forall n X Y u, meq n (mm n X Y) eye -> q n Y u = q n X (mv n Y u).
Proof. intros. apply inv_form. auto. Qed.
(** Inversion reverses the order *)
Lemma inv_anti : forall n P Q YP YQ a, pd n P -> pd n Q -> meq n (mm n P YP) eye -> meq n (mm n Q YQ) eye -> 0 < a ->
  (forall u, q n Q u <= a * q n P u) -> forall u, q n YP u <= a * q n YQ u.
Proof.
  intros n P Q YP YQ a HP HQ IP IQ Ha Hle u. set (x := mv n YP u).
  assert (E1 : q n P x = q n YP u) by (symmetry; apply q_inv; auto).
  assert (E2 : dot n x (mv n Q (mv n YQ u)) = q n YP u).
  { unfold q. rewrite (dot_comm n u). fold x. apply dot_ext; auto. intros i Hi. apply mv_inv; auto. }
  assert (E3 : q n Q (mv n YQ u) = q n YQ u) by (symmetry; apply q_inv; auto).
  pose proof (pd_nonneg n Q (vadd (vscal (/ a) x) (vscal (-1) (mv n YQ u))) HQ) as NN.
  unfold q in NN. rewrite quad_add in NN by (apply HQ). rewrite quad_neg in NN. fold (q n Q (mv n YQ u)) in NN. rewrite E3 in NN.
  rewrite !mv_scal, !dot_scal_l, !dot_scal_r, E2 in NN. fold (q n Q x) in NN. specialize (Hle x). rewrite E1 in Hle.
  set (A := q n YP u) in *. set (C := q n YQ u) in *. set (D := q n Q x) in *. assert (Pi : 0 < / a) by (apply Rinv_0_lt_compat; auto).
  assert (D' : / a * (/ a * D) <= / a * A).
  { apply Rmult_le_compat_l; [lra|]. apply (Rmult_le_reg_l a); auto. rewrite <- Rmult_assoc, Rinv_r by lra. lra. }
  assert (F : 0 <= C - / a * A) by lra. apply (Rmult_le_compat_l a) in F; [|lra]. rewrite Rmult_0_r, Rmult_minus_distr_l, <- Rmult_assoc, Rinv_r in F by lra. lra.
Qed.

(** * Traces *)
Lemma trace_ext : forall n Y X X', meq n X X' -> trace n (mm n Y X) = trace n (mm n Y X').
Proof. intros n Y X X' H. apply sm_ext. intros i Hi. apply mm_ext; auto. Qed.
Lemma trace_gram : forall n Y L, trace n (mm n Y (mm n L (mt L))) = sm n (fun k => q n Y (col L k)).
Proof.
  intros n Y L. unfold trace, mm at 1.
  rewrite (sm_ext n _ (fun i => sm n (fun k => sm n (fun l => L i k * (Y i l * L l k))))).
  - rewrite sm_swap. apply sm_ext. intros k Hk. unfold q, dot, mv, col. apply sm_ext. intros i Hi. rewrite sm_scal. reflexivity.
  - intros i Hi. rewrite sm_swap. apply sm_ext. intros l Hl. unfold mm, mt. rewrite <- sm_scal. apply sm_ext. intros. ring.
Qed.
Lemma trace_outer : forall n Y (u : vec), trace n (mm n Y (fun a b => u a * u b)) = q n Y u.
Proof.
  intros. unfold trace, mm, q, dot, mv. apply sm_ext. intros i Hi. rewrite <- sm_scal. apply sm_ext. intros. ring.
Qed.
Lemma trace_plus : forall n Y A B, trace n (mm n Y (fun a b => A a b + B a b)) = trace n (mm n Y A) + trace n (mm n Y B).
Proof.
  intros. unfold trace, mm. rewrite <- sm_plus. apply sm_ext. intros. rewrite <- sm_plus. apply sm_ext. intros. ring.
Qed.
Lemma trace_scal : forall n Y c A, trace n (mm n Y (fun a b => A a b * c)) = trace n (mm n Y A) * c.
Proof.
  intros. unfold trace, mm. rewrite <- sm_scal_r. apply sm_ext. intros. rewrite <- sm_scal_r. apply sm_ext. intros. ring.
Qed.
Lemma trace_sum : forall n Y N (A : nat -> mat), trace n (mm n Y (fun a b => sm N (fun i => A i a b))) = sm N (fun i => trace n (mm n Y (A i))).
Proof.
  intros. unfold trace, mm. symmetry. rewrite sm_swap. apply sm_ext. intros i Hi. rewrite sm_swap. apply sm_ext. intros. rewrite sm_scal. reflexivity.
Qed.
Lemma trace_inv : forall n X Y, pd n X -> meq n (mm n X Y) eye -> trace n (mm n Y X) = INR n.
Proof.
  intros n X Y HX HI. rewrite <- (Rmult_1_r (INR n)), <- sm_const. apply sm_ext. intros i Hi.
  transitivity (mm n X Y i i); [|rewrite HI by auto; unfold eye; rewrite Nat.eqb_refl; reflexivity].
  unfold mm. apply sm_ext. intros l Hl. rewrite (inv_sym n X Y HX HI l i), (proj1 HX i l) by auto. ring.
Qed.

(** * Triangular factors *)
Lemma forward : forall n K x k, lower n K -> (k < n)%nat -> (forall i, (i < k)%nat -> mv n K x i = 0) -> forall i, (i < k)%nat -> x i = 0.
Proof.
  intros n K x k [Hl Hd] Hk H i. induction i as [i IH] using (well_founded_induction lt_wf). intros Hi.
  pose proof (H i Hi) as E. unfold mv in E. rewrite (sm_single n i) in E; [|lia|].
  - pose proof (Hd i ltac:(lia)). apply Rmult_integral in E. destruct E; [lra|auto].
  - intros j Hj NE. destruct (lt_dec i j) as [G|G]; [rewrite Hl by lia; ring|]. rewrite (IH j) by lia. ring.
Qed.
Lemma forward_diag : forall n K x k, lower n K -> (k < n)%nat -> (forall i, (i < k)%nat -> mv n K x i = 0) -> mv n K x k = K k k * x k.
Proof.
  intros n K x k HK Hk H. pose proof (forward n K x k HK Hk H) as Z. unfold mv. rewrite (sm_single n k); auto.
  intros j Hj NE. destruct (lt_dec k j) as [G|G]; [rewrite (proj1 HK) by lia; ring|]. rewrite Z by lia. ring.
Qed.

Section Linalg.
Variables (n : nat) (A : linalg).
Hypothesis OK : linalg_ok n A.
Local Notation inv := (la_inv A).
Local Notation ld := (la_slogdet A).
Local Notation ch := (la_chol A).

Lemma ld_chol : forall X, pd n X -> ld X = 2 * sm n (fun k => ln (ch X k k)).
Proof. intros X HX. destruct (ok_chol n A OK X HX). apply (ok_slogdet n A OK X (ch X)); auto. Qed.
Lemma tr_chol : forall Y X, pd n X -> trace n (mm n Y X) = sm n (fun k => q n Y (col (ch X) k)).
Proof.
  intros Y X HX. destruct (ok_chol n A OK X HX) as [_ E]. rewrite <- trace_gram. apply trace_ext. intros i j Hi Hj. symmetry. apply E; auto.
Qed.
(** The logarithm of the determinant is below its tangents *)
Lemma ld_tangent : forall P Q, pd n P -> pd n Q -> ld P <= ld Q + trace n (mm n (inv Q) P) - INR n.
Proof.
  intros P Q HP HQ. destruct (ok_chol n A OK P HP) as [LP _]. destruct (ok_chol n A OK Q HQ) as [LQ EQ]. pose proof (ok_inv n A OK Q HQ) as IQ.
  rewrite (ld_chol P HP), (ld_chol Q HQ), (tr_chol (inv Q) P HP). set (L := ch P) in *. set (K := ch Q) in *.
  rewrite <- (Rmult_1_r (INR n)), <- sm_const.
  enough (G : sm n (fun k => 2 * ln (L k k)) <= sm n (fun k => 2 * ln (K k k) + q n (inv Q) (col L k) - 1)).
  { rewrite sm_scal in G. rewrite (sm_minus n (fun k => 2 * ln (K k k) + q n (inv Q) (col L k)) (fun _ => 1)), sm_plus, sm_scal in G. lra. }
  apply sm_le. intros k Hk. set (z := mv n (inv Q) (col L k)). set (x := mv n (mt K) z).
  assert (EX : forall i, (i < n)%nat -> mv n K x i = L i k).
  { intros i Hi. unfold x. rewrite <- mv_mm. rewrite (mv_ext n (mm n K (mt K)) Q z z i) by auto. unfold z. rewrite mv_inv; auto. }
  assert (Z : forall i, (i < k)%nat -> mv n K x i = 0) by (intros i Hi; rewrite EX by lia; apply (proj1 LP); lia).
  pose proof (forward_diag n K x k LQ Hk Z) as FD. rewrite EX in FD by auto.
  pose proof (proj2 LP k Hk) as P1. pose proof (proj2 LQ k Hk) as P2.
  assert (NX : q n (inv Q) (col L k) = dot n x x).
  { rewrite (q_inv n Q (inv Q)) by auto. fold z. unfold q, x. rewrite <- dot_mv. apply dot_ext; auto. intros i Hi. rewrite <- mv_mm.
    apply mv_ext; auto. intros j Hj. symmetry. apply EQ; auto. }
  assert (G1 : x k ^ 2 <= dot n x x).
  { replace (x k ^ 2) with (sm n (fun i => if Nat.eqb i k then x k ^ 2 else 0)).
    - apply sm_le. intros i Hi. destruct (Nat.eqb_spec i k) as [->|]; [lra|]. pose proof (pow2_ge_0 (x i)). simpl in *. lra.
    - rewrite (sm_single n k); auto; [rewrite Nat.eqb_refl; reflexivity|]. intros i Hi NE. destruct (Nat.eqb_spec i k); [congruence|auto]. }
  assert (PX : 0 < x k).
  { apply (Rmult_lt_reg_l (K k k)); auto. lra. }
  assert (X2 : 0 < x k ^ 2) by (apply sq_pos; lra). pose proof (ln_le_sub1 _ X2) as LL. simpl in LL. rewrite Rmult_1_r in LL.
  rewrite ln_mult in LL by auto. simpl in G1. rewrite FD, ln_mult, NX by auto. lra.
Qed.
Lemma ld_le : forall P Q a, pd n P -> pd n Q -> 0 < a -> (forall u, q n Q u <= a * q n P u) -> ld Q <= ld P + a * INR n - INR n.
Proof.
  intros P Q a HP HQ Ha Hle. pose proof (ld_tangent Q P HQ HP) as T.
  pose proof (inv_anti n P Q (inv P) (inv Q) a HP HQ (ok_inv n A OK P HP) (ok_inv n A OK Q HQ) Ha Hle) as IA.
  assert (trace n (mm n (inv P) Q) <= a * INR n); [|lra].
  rewrite <- (trace_inv n Q (inv Q) HQ (ok_inv n A OK Q HQ)). rewrite !(tr_chol _ Q HQ), <- sm_scal. apply sm_le. intros k Hk. apply IA.
Qed.
Lemma tr_le : forall P Q X a, pd n P -> pd n Q -> pd n X -> 0 < a -> (forall u, q n Q u <= a * q n P u) ->
  trace n (mm n (inv P) X) <= a * trace n (mm n (inv Q) X).
Proof.
  intros P Q X a HP HQ HX Ha Hle.
  pose proof (inv_anti n P Q (inv P) (inv Q) a HP HQ (ok_inv n A OK P HP) (ok_inv n A OK Q HQ) Ha Hle) as IA.
  rewrite !(tr_chol _ X HX), <- sm_scal. apply sm_le. intros k Hk. apply IA.
Qed.
End Linalg.

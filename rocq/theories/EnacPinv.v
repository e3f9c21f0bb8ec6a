(** Every real matrix has a Moore-Penrose inverse: Greville's construction, column by column.  It
    shows that what the theorems of C120 assume of [np.linalg.pinv] can be met. *)
From Coq Require Import List Arith Lia Reals Lra.
From Verif Require Import Common Mat EnacSpec EnacProofs.
Import ListNotations.
Local Open Scope R_scope.
Notation vec := (nat -> R).

Fixpoint greville (n m : nat) (A : mat) : mat :=
  match m with
  | O => fun _ _ => 0
  | S k =>
    let P := greville n k A in
    let d := mv n P (fun i => A i k) in
    let c := vsub (fun i => A i k) (mv k A d) in
    let b := if Req_EM_T (dot n c c) 0 then (fun i => sm k (fun l => P l i * d l) / (1 + dot k d d)) else (fun i => c i / dot n c c) in
    fun r i => if (r <? k)%nat then P r i - d r * b i else b i
  end.

Section Step.
Variables (n k : nat) (A P : mat) (b : vec).
Hypothesis HP : penrose n k A P.
Let a : vec := fun i => A i k.
Let d := mv n P a.
Let c := vsub a (mv k A d).
Let P' : mat := fun r i => if (r <? k)%nat then P r i - d r * b i else b i.
Let be (j : nat) : R := sm n (fun i => b i * A i j).
Hypothesis C1 : forall i j, (i < n)%nat -> (j < k)%nat -> c i * be j = 0.
Hypothesis C2 : forall i, (i < n)%nat -> c i * be k = c i.
Hypothesis C3 : forall i j, (i < n)%nat -> (j < n)%nat -> c i * b j = c j * b i.
Hypothesis C4 : forall i j, (i < k)%nat -> (j < k)%nat -> d i * be j = d j * be i.
Hypothesis C5 : forall i, (i < k)%nat -> d i * (1 - be k) = be i.
Hypothesis C6 : forall i, (i < n)%nat -> sm k (fun l => be l * P l i) = sm k (fun l => be l * d l) * b i + (1 - be k) * b i.

Lemma P'_lt : forall r i, (r < k)%nat -> P' r i = P r i - d r * b i.
Proof. intros. unfold P'. rewrite (proj2 (Nat.ltb_lt _ _) H). reflexivity. Qed.
Lemma P'_k : forall i, P' k i = b i.
Proof. intros. unfold P'. rewrite Nat.ltb_irrefl. reflexivity. Qed.

Lemma AP' : forall i j, mm (S k) A P' i j = mm k A P i j + c i * b j.
Proof.
  intros i j. unfold mm. rewrite sm_S, P'_k. rewrite (sm_ext k _ (fun l => A i l * P l j - (A i l * d l) * b j)) by (intros; rewrite P'_lt by assumption; ring).
  rewrite sm_minus, sm_scal_r. unfold c, vsub, a, mv. ring.
Qed.
Lemma P'A_lt : forall r j, (r < k)%nat -> mm n P' A r j = mm n P A r j - d r * be j.
Proof.
  intros r j Hr. unfold mm. rewrite (sm_ext n _ (fun l => P r l * A l j - d r * (b l * A l j))) by (intros; rewrite P'_lt by assumption; ring).
  rewrite sm_minus, sm_scal. reflexivity.
Qed.
Lemma P'A_k : forall j, mm n P' A k j = be j.
Proof. intros. unfold mm, be. apply sm_ext. intros. rewrite P'_k. reflexivity. Qed.

Lemma Ad : forall i, mv k A d i = mv n (mm k A P) a i.
Proof. intros. unfold d. rewrite mv_mm. reflexivity. Qed.
Lemma PAd : forall r, (r < k)%nat -> mv k (mm n P A) d r = d r.
Proof.
  intros r Hr. unfold d. rewrite <- mv_mm. apply mv_ext; [|reflexivity]. intros l Hl. apply (proj1 (proj2 HP)); assumption.
Qed.
Lemma PAk : forall r, mm n P A r k = d r.
Proof. reflexivity. Qed.

Lemma step_penrose : penrose n (S k) A P'.
Proof.
  destruct HP as (H1 & H2 & H3 & H4). split; [|split; [|split]].
  - intros i j Hi Hj. unfold mm at 1. rewrite (sm_ext n _ (fun l => mm k A P i l * A l j + c i * (b l * A l j))) by (intros; rewrite AP'; ring).
    rewrite sm_plus, sm_scal. fold (be j). destruct (Nat.eq_dec j k) as [->|NE].
    + rewrite C2 by exact Hi. change (sm n (fun l => mm k A P i l * A l k)) with (mv n (mm k A P) a i). rewrite <- Ad. unfold c, vsub, a. ring.
    + rewrite C1 by lia. change (sm n (fun l => mm k A P i l * A l j)) with (mm n (mm k A P) A i j). rewrite H1 by lia. ring.
  - intros r i Hr Hi. unfold mm at 1. rewrite sm_S, P'_k. destruct (Nat.eq_dec r k) as [->|NE].
    + rewrite P'A_k. rewrite (sm_ext k _ (fun l => be l * P l i - (be l * d l) * b i)) by (intros; rewrite P'A_k, P'_lt by assumption; ring).
      rewrite sm_minus, sm_scal_r, C6 by exact Hi. rewrite P'_k. ring.
    + assert (Hr' : (r < k)%nat) by lia. rewrite P'A_lt, PAk by exact Hr'.
      rewrite (sm_ext k _ (fun l => mm n P A r l * P l i - (mm n P A r l * d l) * b i - d r * (be l * P l i - (be l * d l) * b i))) by (intros; rewrite P'A_lt, P'_lt by assumption; ring).
      rewrite !sm_minus, sm_scal, !sm_minus, !sm_scal_r, C6 by exact Hi.
      change (sm k (fun l => mm n P A r l * P l i)) with (mm k (mm n P A) P r i). rewrite H2 by assumption.
      change (sm k (fun l => mm n P A r l * d l)) with (mv k (mm n P A) d r). rewrite PAd by exact Hr'. rewrite P'_lt by exact Hr'. ring.
  - intros i j Hi Hj. rewrite !AP', (H3 i j Hi Hj), (C3 i j Hi Hj). reflexivity.
  - intros i j Hi Hj. destruct (Nat.eq_dec i k) as [->|NI], (Nat.eq_dec j k) as [->|NJ]; try reflexivity.
    + rewrite P'A_k, P'A_lt, PAk by lia. rewrite <- (C5 j) by lia. ring.
    + rewrite P'A_k, P'A_lt, PAk by lia. rewrite <- (C5 i) by lia. ring.
    + rewrite !P'A_lt by lia. rewrite (H4 i j), (C4 i j) by lia. reflexivity.
Qed.
End Step.

Lemma greville_penrose : forall n m A, penrose n m A (greville n m A).
Proof.
  intros n m A. induction m as [|k IH].
  - split; [intros; lia|]. split; [intros; lia|]. split; [reflexivity|intros; lia].
  - cbn [greville]. set (P := greville n k A) in *. set (a := fun i => A i k). set (d := mv n P a). set (c := vsub a (mv k A d)).
    set (b := if Req_EM_T (dot n c c) 0 then _ else _).
    assert (CA : forall j, (j < k)%nat -> sm n (fun i => A i j * c i) = 0) by (intros j Hj; apply (ls_normal n k A P a IH j Hj)).
    assert (CAd : sm n (fun i => c i * mv k A d i) = 0).
    { rewrite (sm_ext n _ (fun i => sm k (fun j => d j * (A i j * c i)))).
      - rewrite sm_swap. apply sm_zero. intros j Hj. rewrite sm_scal, CA by exact Hj. ring.
      - intros i _. unfold mv at 1. rewrite <- sm_scal. apply sm_ext. intros. ring. }
    assert (CC : sm n (fun i => c i * a i) = dot n c c).
    { unfold dot. rewrite (sm_ext n (fun i => c i * c i) (fun i => c i * a i - c i * mv k A d i)) by (intros; unfold c, vsub; ring). rewrite sm_minus, CAd. ring. }
    destruct (Req_EM_T (dot n c c) 0) as [Z|NZ].
    + assert (C0 : forall i, (i < n)%nat -> c i = 0).
      { apply sm_sq_zero. unfold dot in Z. rewrite <- Z. apply sm_ext. intros. ring. }
      pose proof (dot_nonneg k d) as DP. set (dl := dot k d d) in *.
      assert (BJ : forall j, (j < k)%nat -> sm n (fun i => b i * A i j) = d j / (1 + dl)).
      { intros j Hj. unfold b. rewrite (sm_ext n _ (fun i => / (1 + dl) * sm k (fun l => d l * (P l i * A i j)))).
        - rewrite sm_scal, sm_swap. rewrite (sm_ext k _ (fun l => mm n P A j l * d l)).
          + change (sm k (fun l => mm n P A j l * d l)) with (mv k (mm n P A) d j). replace (mv k (mm n P A) d j) with (d j) by (symmetry; exact (PAd n k A P IH j Hj)). unfold Rdiv. apply Rmult_comm.
          + intros l Hl. rewrite sm_scal. rewrite <- (proj2 (proj2 (proj2 IH)) l j Hl Hj). unfold mm. ring.
        - intros i _. unfold Rdiv. rewrite Rmult_assoc, Rmult_comm, Rmult_assoc. f_equal. rewrite Rmult_comm, <- sm_scal_r. apply sm_ext. intros. ring. }
      assert (BK : sm n (fun i => b i * A i k) = dl / (1 + dl)).
      { rewrite (sm_ext n _ (fun i => sm k (fun j => d j * (b i * A i j)))).
        - rewrite sm_swap. rewrite (sm_ext k _ (fun j => d j * d j * / (1 + dl))) by (intros j Hj; rewrite sm_scal, BJ by exact Hj; unfold Rdiv; ring).
          rewrite sm_scal_r. reflexivity.
        - intros i Hi. pose proof (C0 i Hi) as Q. unfold c, vsub, a in Q. replace (A i k) with (mv k A d i) by lra. unfold mv at 1. rewrite <- sm_scal. apply sm_ext. intros. ring. }
      apply step_penrose; [exact IH| | | | | |].
      * intros i j Hi Hj. fold a d c. rewrite C0 by exact Hi. ring.
      * intros i Hi. fold a d c. rewrite C0 by exact Hi. ring.
      * intros i j Hi Hj. fold a d c. rewrite (C0 i Hi), (C0 j Hj). ring.
      * intros i j Hi Hj. fold a d. rewrite !BJ by assumption. unfold Rdiv. ring.
      * intros i Hi. fold a d. rewrite BK, BJ by exact Hi. field. lra.
      * intros i Hi. fold a d. rewrite BK. rewrite (sm_ext k (fun l => sm n (fun i0 => b i0 * A i0 l) * P l i) (fun l => (P l i * d l) * / (1 + dl))) by (intros l Hl; rewrite BJ by exact Hl; unfold Rdiv; ring).
        rewrite (sm_ext k (fun l => sm n (fun i0 => b i0 * A i0 l) * d l) (fun l => d l * d l * / (1 + dl))) by (intros l Hl; rewrite BJ by exact Hl; unfold Rdiv; ring).
        rewrite !sm_scal_r. change (sm k (fun l => d l * d l)) with dl. unfold b. fold dl. field. lra.
    + assert (BJ : forall j, (j < k)%nat -> sm n (fun i => b i * A i j) = 0).
      { intros j Hj. unfold b. rewrite (sm_ext n _ (fun i => / dot n c c * (A i j * c i))) by (intros; unfold Rdiv; ring). rewrite sm_scal, CA by exact Hj. ring. }
      assert (BK : sm n (fun i => b i * A i k) = 1).
      { unfold b. rewrite (sm_ext n _ (fun i => / dot n c c * (c i * a i))) by (intros; unfold Rdiv, a; ring). rewrite sm_scal, CC. apply Rinv_l. exact NZ. }
      apply step_penrose; [exact IH| | | | | |].
      * intros i j Hi Hj. rewrite BJ by exact Hj. ring.
      * intros i Hi. rewrite BK. ring.
      * intros i j Hi Hj. fold a d c. unfold b, Rdiv. ring.
      * intros i j Hi Hj. rewrite !BJ by assumption. ring.
      * intros i Hi. rewrite BK, BJ by exact Hi. ring.
      * intros i Hi. rewrite BK. rewrite (sm_zero k (fun l => sm n (fun i0 => b i0 * A i0 l) * P l i)) by (intros l Hl; rewrite BJ by exact Hl; ring).
        rewrite (sm_zero k (fun l => sm n (fun i0 => b i0 * A i0 l) * _)) by (intros l Hl; rewrite BJ by exact Hl; ring). ring.
Qed.

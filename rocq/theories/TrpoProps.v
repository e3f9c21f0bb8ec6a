(** Theorem C41. *)
From Coq Require Import List Arith Lia Reals Bool Lra Psatz.
From Verif Require Import Common TrpoModel.
Import ListNotations.
Local Open Scope R_scope.

Definition residual2 (d : nat) (M : nat -> nat -> R) (b x : vec) : R :=
  rsum (map (fun i => (b i - rsum (map (fun j => M i j * x j) (seq 0 d))) ^ 2) (seq 0 d)).

Lemma mulv_comb : forall d M a b c i, mulv d M (fun j => a j + c * b j) i = mulv d M a i + c * mulv d M b i.
Proof. intros. unfold mulv. rewrite <- rsum_map_scal, <- rsum_map_plus. apply rsum_map_ext. intros; ring. Qed.

Lemma cg_loop_inv : forall d M tol b n x p r r2 al x' stop,
  (forall i, r i = b i - mulv d M x i) -> cg_loop d M tol n x p r r2 al = Some (x', stop) ->
  stop = true -> residual2 d M b x' < tol.
Proof.
  intros d M tol b. induction n as [|n IH]; intros x p r r2 al x' stop INV H; cbn [cg_loop] in H.
  - inversion H; subst. discriminate.
  - cbv zeta in H. destruct (Req_EM_T _ _) in H; [discriminate|]. set (v := (r2 / _)) in H. destruct (Req_EM_T _ _) in H; [discriminate|].
    assert (INV' : forall i, r i - v * mulv d M p i = b i - mulv d M (fun j => x j + v * p j) i).
    { intros i. rewrite mulv_comb, INV. ring. }
    destruct (Rlt_dec _ _) as [L|L] in H.
    + inversion H; subst. intros _. eapply Rle_lt_trans; [|exact L]. right. unfold residual2, dot. apply rsum_map_ext. intros i _.
      change (rsum (map (fun j => M i j * (x j + v * p j)) (seq 0 d))) with (mulv d M (fun j => x j + v * p j) i). rewrite <- INV'. ring.
    + eapply IH; [|exact H]. exact INV'.
Qed.

(** Leaving the loop by the residual test guarantees a small residual of the system
    that was to be solved, in spite of the aliasing. *)
Theorem cg_stop_residual : forall d M tol n b x, cg d M tol n b = Some (x, true) -> residual2 d M b x < tol.
Proof.
  intros d M tol n b x H. eapply cg_loop_inv; [|exact H|reflexivity]. intros i. unfold mulv.
  rewrite (rsum_map_ext _ _ (fun _ => 0)) by (intros; ring). rewrite rsum_map_const. ring.
Qed.

Lemma dot_pos : forall d b k, (k < d)%nat -> b k <> 0 -> 0 < dot d b b.
Proof.
  intros d b k Hk N. assert (0 < b k * b k) by nra. eapply Rlt_le_trans; [eassumption|]. unfold dot. apply rsum_in_le.
  - intros y Hy. apply in_map_iff in Hy. destruct Hy as (i & <- & _). nra.
  - apply (in_map (fun i => b i * b i)). apply in_seq. lia.
Qed.

(** If the gradient is an eigenvector (in particular in one dimension) the first
    iteration solves the system. *)
Theorem cg_eigenvector : forall d M tol n b lambda k, (0 < tol) -> (0 < n)%nat -> (k < d)%nat -> b k <> 0 -> lambda <> 0 ->
  (forall i, (i < d)%nat -> rsum (map (fun j => M i j * b j) (seq 0 d)) = lambda * b i) ->
  exists x, cg d M tol n b = Some (x, true) /\ forall i, (i < d)%nat -> x i = b i / lambda.
Proof.
  intros d M tol n b lambda k Ht Hn Hk Nb Nl EV. destruct n as [|n]; [lia|]. pose proof (dot_pos d b k Hk Nb) as P.
  assert (PZ : dot d b (mulv d M b) = lambda * dot d b b).
  { unfold dot. rewrite <- rsum_map_scal. apply rsum_map_ext. intros i Hi. apply in_seq in Hi. unfold mulv. rewrite EV by lia. ring. }
  assert (PN : lambda * dot d b b <> 0) by (apply Rmult_integral_contrapositive_currified; lra).
  unfold cg. cbn [cg_loop]. rewrite PZ. remember (dot d b b) as dd eqn:ED. clear ED PZ. destruct (Req_EM_T _ _); [contradiction|]. destruct (Req_EM_T _ _); [lra|].
  assert (Z : dot d (fun i => b i - dd / (lambda * dd) * mulv d M b i) (fun i => b i - dd / (lambda * dd) * mulv d M b i) = 0).
  { unfold dot. rewrite (rsum_map_ext _ _ (fun _ => 0)); [rewrite rsum_map_const; ring|]. intros i Hi. apply in_seq in Hi. unfold mulv. rewrite EV by lia. field. split; lra. }
  rewrite Z. destruct (Rlt_dec 0 tol); [|lra]. eexists. split; [reflexivity|]. intros i Hi. cbv beta. rewrite Rplus_0_l. field. split; lra.
Qed.

(** The routine is not conjugate gradient: on a 2 x 2 symmetric positive definite system
    two iterations do not reach the solution. *)
Definition diag12 : nat -> nat -> R := fun i j => if Nat.eqb i j then INR (S i) else 0.
Theorem cg_exact_in_n_steps_refuted : exists M b tol x,
  (forall i j, M i j = M j i) /\ (forall y : vec, (y 0%nat <> 0 \/ y 1%nat <> 0) -> 0 < dot 2 y (mulv 2 M y)) /\ tol = / 10 ^ 10 /\
  cg 2 M tol 2 b = Some (x, false) /\ residual2 2 M b x = 1 / 45.
Proof.
  exists diag12, (fun _ => 1), (/ 10 ^ 10).
  assert (T : 0 < / 10 ^ 10 < 1 / 100).
  { split; [apply Rinv_0_lt_compat; apply pow_lt; lra|]. apply Rlt_le_trans with (/ 10 ^ 3); [|lra]. apply Rinv_lt_contravar; [|simpl; lra].
    apply Rmult_lt_0_compat; apply pow_lt; lra. }
  set (tol := / 10 ^ 10) in *. clearbody tol.
  assert (D : forall a b : vec, dot 2 a b = a 0%nat * b 0%nat + a 1%nat * b 1%nat) by (intros; unfold dot; simpl; ring).
  assert (M0 : forall v : vec, mulv 2 diag12 v 0%nat = v 0%nat) by (intros; unfold mulv, diag12; simpl; ring).
  assert (M1 : forall v : vec, mulv 2 diag12 v 1%nat = 2 * v 1%nat) by (intros; unfold mulv, diag12; simpl; ring).
  eexists. split; [|split; [|split; [reflexivity|]]].
  - intros i j. unfold diag12. destruct (Nat.eqb_spec i j) as [->|N]; [rewrite Nat.eqb_refl; reflexivity|].
    destruct (Nat.eqb_spec j i); [congruence|reflexivity].
  - intros y H. rewrite D, M0, M1. pose proof (Rle_0_sqr (y 0%nat)) as A. pose proof (Rle_0_sqr (y 1%nat)) as B.
    destruct H as [H|H]; apply Rlt_0_sqr in H; unfold Rsqr in *; lra.
  - unfold cg. cbn [cg_loop]. rewrite !D, !M0, !M1. cbv beta.
    destruct (Req_EM_T _ _) as [C|_]; [exfalso; lra|]. destruct (Req_EM_T _ _) as [C|_]; [exfalso; lra|].
    destruct (Rlt_dec _ _) as [C|_]; [exfalso; lra|].
    destruct (Req_EM_T _ _) as [C|_]; [exfalso; lra|]. destruct (Req_EM_T _ _) as [C|_]; [exfalso; lra|].
    destruct (Rlt_dec _ _) as [C|_]; [exfalso; lra|].
    split; [reflexivity|]. unfold residual2. cbn [map seq rsum]. unfold diag12. cbn [Nat.eqb INR]. rewrite !M0, !M1. lra.
Qed.

(** The full step lies on the boundary of the trust region of the quadratic model. *)
Theorem full_step_kl : forall d M max_kl s, 0 < max_kl -> 0 < dot d s (mulv d M s) ->
  let f := full_step d M max_kl s in / 2 * dot d f (mulv d M f) = max_kl /\ exists c, 0 < c /\ forall i, f i = c * s i.
Proof.
  intros d M max_kl s HK HP f. set (q := dot d s (mulv d M s)) in *.
  assert (Q : 0 < / 2 * q / max_kl) by (apply Rdiv_lt_0_compat; lra).
  set (lm := sqrt (/ 2 * q / max_kl)). assert (L : 0 < lm) by (apply sqrt_lt_R0; auto).
  assert (FE : forall i, f i = / lm * s i) by (intros i; unfold f, full_step; fold q; fold lm; field; lra).
  split; [|exists (/ lm); split; auto; apply Rinv_0_lt_compat; auto].
  assert (E : dot d f (mulv d M f) = / lm * / lm * q).
  { unfold q, dot. rewrite <- rsum_map_scal. apply rsum_map_ext. intros i _. rewrite FE. unfold mulv.
    rewrite (rsum_map_ext _ (fun j => M i j * f j) (fun j => / lm * (M i j * s j))) by (intros j _; rewrite FE; ring).
    rewrite rsum_map_scal. ring. }
  assert (SQ : lm * lm = / 2 * q / max_kl) by (apply sqrt_sqrt; lra).
  rewrite E. rewrite <- Rinv_mult, SQ. field. lra.
Qed.

(** The weights after the line search: the first halving of the full step that respects
    the KL bound and does not decrease the objective, else the old weights. *)
Theorem line_search_result : forall d M loss kl max_kl prev theta stepdir n,
  let out := line_search d M loss kl max_kl prev theta stepdir n in
  let cand k : vec := fun i => theta i + full_step d M max_kl stepdir i * (/ 2) ^ k in
  let ok (w : vec) := kl w <= 1.5 * max_kl /\ prev <= loss w in
  (exists k w, (k < n)%nat /\ out = w /\ (forall i, w i = cand k i) /\ ok w /\
      forall j, (j < k)%nat -> exists w', (forall i, w' i = cand j i) /\ ~ ok w') \/
  (out = theta /\ forall j, (j < n)%nat -> exists w', (forall i, w' i = cand j i) /\ ~ ok w').
Proof.
  intros d M loss kl max_kl prev theta stepdir n out cand ok.
  assert (G : forall n m size, size = (/ 2) ^ m ->
    let out := ls_loop loss kl max_kl prev theta (full_step d M max_kl stepdir) n size in
    (exists k w, (k < n)%nat /\ out = w /\ (forall i, w i = cand (m + k)%nat i) /\ ok w /\
      forall j, (j < k)%nat -> exists w', (forall i, w' i = cand (m + j)%nat i) /\ ~ ok w') \/
    (out = theta /\ forall j, (j < n)%nat -> exists w', (forall i, w' i = cand (m + j)%nat i) /\ ~ ok w')).
  { clear n out. induction n as [|n IH]; intros m size HS; cbn [ls_loop]; cbv zeta.
    - right. split; auto. intros; lia.
    - set (w := fun i => theta i + full_step d M max_kl stepdir i * size).
      assert (W : forall i, w i = cand (m + 0)%nat i) by (intros; unfold w, cand; rewrite HS, Nat.add_0_r; reflexivity).
      assert (REC : ~ ok w -> (exists k w0, (k < S n)%nat /\ ls_loop loss kl max_kl prev theta (full_step d M max_kl stepdir) n (size * / 2) = w0 /\ (forall i, w0 i = cand (m + k)%nat i) /\ ok w0 /\
          forall j, (j < k)%nat -> exists w', (forall i, w' i = cand (m + j)%nat i) /\ ~ ok w') \/
        (ls_loop loss kl max_kl prev theta (full_step d M max_kl stepdir) n (size * / 2) = theta /\ forall j, (j < S n)%nat -> exists w', (forall i, w' i = cand (m + j)%nat i) /\ ~ ok w')).
      { intros NO. destruct (IH (S m) (size * / 2)) as [(k & w0 & K & E & WE & OK & FI)|(E & FI)].
        - rewrite HS. simpl. ring.
        - left. exists (S k), w0. split; [lia|]. split; auto. split; [intros i; rewrite WE; f_equal; lia|]. split; auto.
          intros [|j] Hj; [exists w; auto|]. destruct (FI j ltac:(lia)) as (w' & A & B). exists w'. split; auto. intros i. rewrite A. f_equal. lia.
        - right. split; auto. intros [|j] Hj; [exists w; auto|]. destruct (FI j ltac:(lia)) as (w' & A & B). exists w'. split; auto. intros i. rewrite A. f_equal. lia. }
      destruct (Rle_dec (kl w) (max_kl * (3 / 2))) as [K|K]; [destruct (Rle_dec 0 (loss w - prev)) as [I|I]|].
      + left. exists 0%nat, w. split; [lia|]. split; auto. split; auto. split; [split; lra|]. intros; lia.
      + apply REC. intros [_ C]. apply I. lra.
      + apply REC. intros [C _]. apply K. lra. }
  destruct (G n 0%nat 1 ltac:(simpl; ring)) as [H|H]; [left|right]; exact H.
Qed.

(** * Concrete cases *)
Example line_search_demo : forall i,
  line_search 1 (fun _ _ => 2) (fun w => w 0%nat) (fun w => w 0%nat * w 0%nat) 1 0 (fun _ => 0) (fun _ => 1) 3 i = 1.
Proof.
  intros i. unfold line_search, full_step, dot, mulv. cbn [ls_loop seq map rsum].
  replace (/ 2 * (1 * (2 * 1 + 0) + 0) / 1) with 1 by field. rewrite sqrt_1.
  destruct (Rle_dec _ _) as [|C]; [|exfalso; apply C; lra]. destruct (Rle_dec _ _) as [|C]; [|exfalso; apply C; lra]. lra.
Qed.

Print Assumptions cg_stop_residual.
Print Assumptions cg_eigenvector.
Print Assumptions cg_exact_in_n_steps_refuted.
Print Assumptions full_step_kl.
Print Assumptions line_search_result.

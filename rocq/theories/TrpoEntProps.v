(** Theorems C137: the line search of TRPO under a scheduled entropy coefficient. *)
From Coq Require Import List Arith Lia Reals Bool Lra.
From Verif Require Import Common ParamModel ParamSpec ParamProofs ParamProps PpoModel TrpoModel TrpoFitModel Td3NoiseModel Td3NoiseProps TrpoEntModel.
Import ListNotations.
Local Open Scope R_scope.

(** The values read are those of the schedule, one step further for each evaluation. *)
Lemma calls_at : forall s p n k, build s = Some p ->
  exists l, p_calls (at_count p k) (repeat 0%nat n) = Some (l, at_count p (k + n)) /\ length l = n /\
    forall i, (i < n)%nat -> nth i l 0 = at_step s (k + i + 1).
Proof.
  intros s p n. induction n as [|n IH]; intros k B; cbn [repeat p_calls].
  - exists []. rewrite Nat.add_0_r. repeat split. intros i H. lia.
  - destruct (sched_call _ _ B) as [_ C]. destruct (C k) as [C1 _]. rewrite C1. cbn [obind fst snd].
    destruct (IH (S k) B) as (l & L1 & L2 & L3). rewrite L1. cbn [obind fst snd]. eexists. split; [do 2 f_equal; f_equal; lia|].
    split; [simpl; lia|]. intros [|i] H; cbn [nth]; [f_equal; lia|]. rewrite L3 by lia. f_equal. lia.
Qed.
Theorem trpo_coefficient_reads : forall s p k i, build s = Some p -> coeff_read (at_count p k) i = at_step s (k + i + 1).
Proof.
  intros s p k i B. unfold coeff_read. destruct (calls_at s p (S i) k B) as (l & L1 & L2 & L3). rewrite L1. apply L3. lia.
Qed.

Lemma line_step : forall v th n k, (k < n)%nat -> line v th n k - line v th n (S k) = (v - th) / INR n.
Proof.
  intros v th n k H. assert (N : 0 < INR n) by (apply lt_0_INR; lia). unfold line. rewrite (proj2 (Nat.leb_gt _ _)) by auto.
  destruct (Nat.leb n (S k)) eqn:E.
  - apply Nat.leb_le in E. assert (n = S k) by lia. subst n. rewrite S_INR in *. field. lra.
  - rewrite S_INR. field. lra.
Qed.

Section Ent.
Context {X Ac : Type}.
Variable d : nat.
Variable logp : vec -> X -> Ac -> R.
Variable ent : vec -> list X -> R.
Variable kldiv : vec -> X -> vec -> X -> R.
Variable grad : (vec -> R) -> vec -> vec.
Variable hess : (vec -> R) -> vec -> nat -> nat -> R.
Variable nan_ok : bool.
Variables (max_kl damping tol : R) (n_ls n_cg : nat).

Notation policy := (trpo_policy d logp ent kldiv grad hess nan_ok max_kl damping tol n_ls n_cg).
Notation kl := (trpo_kl kldiv).
(** The surrogate objective without the entropy term. *)
Definition gain (rows : list (@prow X Ac)) (w : vec) : R := tmean (map (fun q => ratio logp w q * p_adv q) rows).
Definition matrix (rows : list (@prow X Ac)) (olds : list X) (w0 : vec) := fisher hess damping (kl w0 olds (map p_x rows)) w0.
(** The candidates of the line search for the direction [s]. *)
Definition cand (rows : list (@prow X Ac)) (olds : list X) (w0 s : vec) (i : nat) : vec :=
  fun j => w0 j + full_step d (matrix rows olds w0) max_kl s j * (/ 2) ^ i.

Lemma search_none : forall loss klf prev w0 step n i m,
  (forall k, (k < n)%nat -> loss (i + k)%nat (fun j => w0 j + step j * (/ 2) ^ (m + k)) < prev) ->
  search max_kl loss klf prev w0 step n i ((/ 2) ^ m) = None.
Proof.
  intros loss klf prev w0 step n. induction n as [|n IH]; intros i m H; cbn [search]; auto.
  assert (R : search max_kl loss klf prev w0 step n (S i) ((/ 2) ^ m * / 2) = None).
  { replace ((/ 2) ^ m * / 2) with ((/ 2) ^ S m) by (simpl; ring). apply IH. intros k K. specialize (H (S k) ltac:(lia)).
    replace (S i + k)%nat with (i + S k)%nat by lia. replace (S m + k)%nat with (m + S k)%nat by lia. exact H. }
  destruct (Rle_dec _ _); auto. destruct (Rle_dec _ _) as [A|A]; auto. exfalso. specialize (H 0%nat ltac:(lia)).
  rewrite !Nat.add_0_r in H. cbn beta in *. lra.
Qed.

(** A falling coefficient and a policy of constant entropy (a Gaussian with fixed deviation): the
    full step is inside the trust region and improves the objective, and a fixed coefficient takes
    it.  Under the schedule the candidates are measured with smaller coefficients than the old
    weights, so all are rejected when they gain less than the entropy bonus that was lost. *)
Theorem trpo_entropy_decay_refuted : forall v th n p k H (rows : list (@prow X Ac)) olds w0 s stop,
  build (Lin v th n) = Some p -> th < v -> (S k < n)%nat -> (forall w xs, ent w xs = H) -> 0 < H -> (1 <= n_ls)%nat ->
  let cs := coeff_read (at_count p k) in
  let M := matrix rows olds w0 in
  cg d M tol n_cg (grad (trpo_loss logp ent (cs 0%nat) rows) w0) = Some (s, stop) -> 0 < dot d s (mulv d M s) ->
  kl w0 olds (map p_x rows) (cand rows olds w0 s 0) <= max_kl * (3 / 2) ->
  gain rows w0 <= gain rows (cand rows olds w0 s 0) ->
  (forall i, (i < n_ls)%nat -> gain rows (cand rows olds w0 s i) - gain rows w0 < (v - th) / INR n * H) ->
  policy cs rows olds w0 = Some w0 /\
  policy (fun _ => cs 0%nat) rows olds w0 = Some (cand rows olds w0 s 0).
Proof.
  intros v th n p k H rows olds w0 s stop B HV HK HE HP HL cs M CG DP KL IMP SM.
  assert (CS : forall i, cs i = line v th n (k + i + 1)) by (intros i; apply (trpo_coefficient_reads _ _ k i B)).
  unfold trpo_policy. fold (matrix rows olds w0). fold M. rewrite CG. destruct (Rlt_dec _ _) as [_|Q]; [|contradiction]. split.
  - change 1 with ((/ 2) ^ 0) at 1. rewrite search_none; auto. intros i Hi. specialize (SM i Hi). unfold trpo_loss. rewrite !HE.
    fold (gain rows w0). change (0 + i)%nat with i. fold (cand rows olds w0 s i). fold (gain rows (cand rows olds w0 s i)).
    assert (G : (v - th) / INR n <= cs 0%nat - cs (1 + i)%nat).
    { rewrite !CS. rewrite <- (line_step v th n (k + 0 + 1)) by lia.
      destruct (line_shape v th n (S (k + 0 + 1)) (k + (1 + i) + 1) ltac:(lia) ltac:(lia)) as (_ & _ & _ & S4). specialize (S4 ltac:(lra)). lra. }
    apply (Rmult_le_compat_r H) in G; [|lra].
    change (gain rows (cand rows olds w0 s i) + cs (1 + i)%nat * H < gain rows w0 + cs 0%nat * H). lra.
  - destruct n_ls as [|m]; [lia|]. cbn [search]. change (fun j => w0 j + full_step d M max_kl s j * 1) with (cand rows olds w0 s 0).
    destruct (Rle_dec _ _) as [_|Q]; [|contradiction]. destruct (Rle_dec _ _) as [_|Q]; [reflexivity|]. exfalso. apply Q.
    unfold trpo_loss. rewrite !HE. fold (gain rows w0) (gain rows (cand rows olds w0 s 0)). lra.
Qed.

(** A growing coefficient, the other way round: every candidate is worse, a fixed coefficient keeps
    the weights, and the schedule takes the full step when it loses no more than the bonus gained. *)
Theorem trpo_entropy_growth_refuted : forall v th n p k H (rows : list (@prow X Ac)) olds w0 s stop,
  build (Lin v th n) = Some p -> (S k < n)%nat -> (forall w xs, ent w xs = H) -> (1 <= n_ls)%nat ->
  let cs := coeff_read (at_count p k) in
  let M := matrix rows olds w0 in
  cg d M tol n_cg (grad (trpo_loss logp ent (cs 0%nat) rows) w0) = Some (s, stop) -> 0 < dot d s (mulv d M s) ->
  kl w0 olds (map p_x rows) (cand rows olds w0 s 0) <= max_kl * (3 / 2) ->
  (forall i, (i < n_ls)%nat -> gain rows (cand rows olds w0 s i) < gain rows w0) ->
  gain rows w0 - gain rows (cand rows olds w0 s 0) <= (th - v) / INR n * H ->
  policy cs rows olds w0 = Some (cand rows olds w0 s 0) /\
  policy (fun _ => cs 0%nat) rows olds w0 = Some w0.
Proof.
  intros v th n p k H rows olds w0 s stop B HK HE HL cs M CG DP KL WO LS.
  assert (CS : forall i, cs i = line v th n (k + i + 1)) by (intros i; apply (trpo_coefficient_reads _ _ k i B)).
  unfold trpo_policy. fold (matrix rows olds w0). fold M. rewrite CG. destruct (Rlt_dec _ _) as [_|Q]; [|contradiction]. split.
  - destruct n_ls as [|m]; [lia|]. cbn [search]. change (fun j => w0 j + full_step d M max_kl s j * 1) with (cand rows olds w0 s 0).
    destruct (Rle_dec _ _) as [_|Q]; [|contradiction]. destruct (Rle_dec _ _) as [_|Q]; [reflexivity|]. exfalso. apply Q.
    unfold trpo_loss. rewrite !HE. fold (gain rows w0) (gain rows (cand rows olds w0 s 0)).
    pose proof (line_step v th n (k + 0 + 1) ltac:(lia)) as L. rewrite !CS. replace (k + 1 + 1)%nat with (S (k + 0 + 1)) by lia.
    assert (E : line v th n (S (k + 0 + 1)) = line v th n (k + 0 + 1) + (th - v) / INR n) by (unfold Rdiv in *; lra).
    rewrite E. lra.
  - change 1 with ((/ 2) ^ 0) at 1. rewrite search_none; auto. intros i Hi. specialize (WO i Hi). unfold trpo_loss. rewrite !HE.
    change (gain rows (cand rows olds w0 s i) + cs 0%nat * H < gain rows w0 + cs 0%nat * H). lra.
Qed.
End Ent.

(** One-dimensional Gaussian policy with fixed deviation (normalisation left out), weight 0, two rows
    with actions 1 and -1 and advantages 1 and -1; the gradient of the objective is 1 and the
    Hessian of the divergence is 1.  The coefficient falls from 2 to 0 over 2 steps: the weights stay
    at 0, where a fixed coefficient moves them to 1/10. *)
Definition ex_logp (w : vec) (x : unit) (a : R) : R := - (a - w 0%nat) * (a - w 0%nat) / 2.
Definition ex_kl (w0 : vec) (x0 : unit) (w : vec) (x : unit) : R := (w 0%nat - w0 0%nat) * (w 0%nat - w0 0%nat) / 2.
Definition ex_rows : list (@prow unit R) := [mkP tt 1 1 (- / 2); mkP tt (-1) (-1) (- / 2)].
Definition ex_pol (cs : nat -> R) : option vec :=
  trpo_policy 1 ex_logp (fun _ _ => 1) ex_kl (fun _ _ _ => 1) (fun _ _ _ _ => 1) true (/ 200) 0 (/ 100) 3 1 cs ex_rows [tt; tt] (fun _ => 0).
Example trpo_decay_ex : exists p w, build (Lin 2 0 2) = Some p /\ w 0%nat = 1 / 10 /\
  ex_pol (coeff_read p) = Some (fun _ => 0) /\ ex_pol (fun _ => coeff_read p 0%nat) = Some w.
Proof.
  destruct (linear_init_size 2 0 2 1 ltac:(lia)) as (p & B & _). assert (B' : build (Lin 2 0 2) = Some p) by exact B.
  destruct (sched_call _ _ B') as [E _].
  set (M := matrix ex_kl (fun _ _ _ _ => 1) 0 ex_rows [tt; tt] (fun _ => 0)).
  assert (EM : M 0%nat 0%nat = 1) by (unfold M, matrix, fisher; simpl; ring).
  assert (CG : exists s stop, cg 1 M (/ 100) 1 (fun _ => 1) = Some (s, stop) /\ s 0%nat = 1).
  { unfold cg. cbn [cg_loop]. unfold dot, mulv. cbn [seq map rsum fold_right]. rewrite !EM.
    destruct (Req_EM_T _ 0) as [Q|_]; [exfalso; cbn in Q; lra|].
    repeat match goal with |- context [Req_EM_T ?a 0] => destruct (Req_EM_T a 0) as [?Q|?Q]; [exfalso; cbn in Q; lra|] end.
    destruct (Rlt_dec _ _); eexists; eexists; (split; [reflexivity|]); cbn; field. }
  destruct CG as (s & stop & CG & S1).
  assert (DT : dot 1 s (mulv 1 M s) = 1) by (unfold dot, mulv; simpl; rewrite EM, S1; ring).
  assert (FS : full_step 1 M (/ 200) s 0%nat = / 10).
  { unfold full_step. fold (dot 1 s (mulv 1 M s)). rewrite DT, S1. replace (/ 2 * 1 / / 200) with (10 * 10) by field. rewrite sqrt_square by lra. field. }
  set (c := cand 1 ex_kl (fun _ _ _ _ => 1) (/ 200) 0 ex_rows [tt; tt] (fun _ => 0) s).
  assert (CV : forall i, c i 0%nat = / 10 * (/ 2) ^ i) by (intros i; unfold c, cand; fold M; rewrite FS; ring).
  assert (GV : forall w : vec, gain ex_logp ex_rows w = (exp (w 0%nat - w 0%nat * w 0%nat / 2) - exp (- w 0%nat - w 0%nat * w 0%nat / 2)) / 2).
  { intros w. unfold gain, ex_rows, tmean, ratio, ex_logp. cbn [map p_x p_a p_adv p_old rsum fold_right length INR].
    replace (- (1 - w 0%nat) * (1 - w 0%nat) / 2 - - / 2) with (w 0%nat - w 0%nat * w 0%nat / 2) by field.
    replace (- (-1 - w 0%nat) * (-1 - w 0%nat) / 2 - - / 2) with (- w 0%nat - w 0%nat * w 0%nat / 2) by field. cbn. field. }
  assert (G0 : gain ex_logp ex_rows (fun _ => 0) = 0) by (rewrite GV; replace (0 - 0 * 0 / 2) with 0 by field; replace (- 0 - 0 * 0 / 2) with 0 by field; field).
  assert (RG : forall i, 0 < c i 0%nat <= / 10).
  { intros i. rewrite CV. assert (P : 0 < (/ 2) ^ i <= 1).
    { split; [apply pow_lt; lra|]. induction i as [|i IH]; simpl; [lra|]. assert (0 < (/ 2) ^ i) by (apply pow_lt; lra). lra. }
    lra. }
  assert (BD : forall i, 0 <= gain ex_logp ex_rows (c i) < 1).
  { intros i. rewrite GV. specialize (RG i). set (x := c i 0%nat) in *. split.
    - assert (exp (- x - x * x / 2) < exp (x - x * x / 2)) by (apply exp_increasing; lra). lra.
    - assert (exp (x - x * x / 2) < exp x) by (apply exp_increasing; nra). pose proof (exp_pos (- x - x * x / 2)).
      pose proof (exp_ineq1 (- x) ltac:(lra)) as I. assert (P : exp x * exp (- x) = 1) by (rewrite <- exp_plus; replace (x + - x) with 0 by ring; apply exp_0).
      pose proof (exp_pos x). assert (exp x < 2) by nra. lra. }
  destruct (trpo_entropy_decay_refuted 1 ex_logp (fun _ _ => 1) ex_kl (fun _ _ _ => 1) (fun _ _ _ _ => 1) true (/ 200) 0 (/ 100) 3 1
    2 0 2 p 0 1 ex_rows [tt; tt] (fun _ => 0) s stop B' ltac:(lra) ltac:(lia) ltac:(reflexivity) ltac:(lra) ltac:(lia) CG) as [P1 P2].
  - fold M. rewrite DT. lra.
  - fold c. unfold trpo_kl, ex_rows, tmean, ex_kl. cbn [map combine fst snd p_x rsum fold_right length INR]. rewrite !CV. cbn. lra.
  - fold c. rewrite G0. apply BD.
  - intros i _. fold c. rewrite G0. specialize (BD i). cbn. lra.
  - exists p, (c 0%nat). split; [exact B|]. split; [rewrite CV; simpl; field|]. rewrite <- E in P1, P2. split; [exact P1|exact P2].
Qed.

(** The same policy on two rows with actions 0 and 1 and advantages 1 and 1/100: the gradient at 0 is
    1/200, the full step is again 1/10 and overshoots, as do its halves.  With a coefficient that
    grows from 0 to 2 over 2 steps the weights move to 1/10, with a fixed one they stay. *)
Definition ex_rows' : list (@prow unit R) := [mkP tt 0 1 0; mkP tt 1 (/ 100) (- / 2)].
Definition ex_pol' (cs : nat -> R) : option vec :=
  trpo_policy 1 ex_logp (fun _ _ => 1) ex_kl (fun _ _ _ => / 200) (fun _ _ _ _ => 1) true (/ 200) 0 (/ 100) 3 1 cs ex_rows' [tt; tt] (fun _ => 0).
Example trpo_growth_ex : exists p w, build (Lin 0 2 2) = Some p /\ w 0%nat = 1 / 10 /\
  ex_pol' (coeff_read p) = Some w /\ ex_pol' (fun _ => coeff_read p 0%nat) = Some (fun _ => 0).
Proof.
  destruct (linear_init_size 0 2 2 1 ltac:(lia)) as (p & B & _). assert (B' : build (Lin 0 2 2) = Some p) by exact B.
  destruct (sched_call _ _ B') as [E _].
  set (M := matrix ex_kl (fun _ _ _ _ => 1) 0 ex_rows' [tt; tt] (fun _ => 0)).
  assert (EM : M 0%nat 0%nat = 1) by (unfold M, matrix, fisher; simpl; ring).
  assert (CG : exists s stop, cg 1 M (/ 100) 1 (fun _ => / 200) = Some (s, stop) /\ s 0%nat = / 200).
  { unfold cg. cbn [cg_loop]. unfold dot, mulv. cbn [seq map rsum fold_right]. rewrite !EM.
    repeat match goal with |- context [Req_EM_T ?a 0] => destruct (Req_EM_T a 0) as [?Q|?Q]; [exfalso; cbn in Q; lra|] end.
    destruct (Rlt_dec _ _); eexists; eexists; (split; [reflexivity|]); cbn; field. }
  destruct CG as (s & stop & CG & S1).
  assert (DT : dot 1 s (mulv 1 M s) = / 40000) by (unfold dot, mulv; simpl; rewrite EM, S1; field).
  assert (FS : full_step 1 M (/ 200) s 0%nat = / 10).
  { unfold full_step. fold (dot 1 s (mulv 1 M s)). rewrite DT, S1. replace (/ 2 * / 40000 / / 200) with (/ 20 * / 20) by field. rewrite sqrt_square by lra. field. }
  set (c := cand 1 ex_kl (fun _ _ _ _ => 1) (/ 200) 0 ex_rows' [tt; tt] (fun _ => 0) s).
  assert (CV : forall i, c i 0%nat = / 10 * (/ 2) ^ i) by (intros i; unfold c, cand; fold M; rewrite FS; ring).
  assert (GV : forall w : vec, gain ex_logp ex_rows' w = (exp (- (w 0%nat * w 0%nat / 2)) + / 100 * exp (w 0%nat - w 0%nat * w 0%nat / 2)) / 2).
  { intros w. unfold gain, ex_rows', tmean, ratio, ex_logp. cbn [map p_x p_a p_adv p_old rsum fold_right length INR].
    replace (- (0 - w 0%nat) * (0 - w 0%nat) / 2 - 0) with (- (w 0%nat * w 0%nat / 2)) by field.
    replace (- (1 - w 0%nat) * (1 - w 0%nat) / 2 - - / 2) with (w 0%nat - w 0%nat * w 0%nat / 2) by field. cbn. field. }
  assert (G0 : gain ex_logp ex_rows' (fun _ => 0) = 101 / 200).
  { rewrite GV. replace (- (0 * 0 / 2)) with 0 by field. replace (0 - 0 * 0 / 2) with 0 by field. rewrite exp_0. field. }
  assert (UP : forall y, y < 1 -> y <> 0 -> exp y * (1 - y) < 1).
  { intros y Hy Ny. pose proof (exp_ineq1 (- y) ltac:(lra)) as I. assert (P : exp y * exp (- y) = 1) by (rewrite <- exp_plus; replace (y + - y) with 0 by ring; apply exp_0).
    pose proof (exp_pos y). nra. }
  assert (W : forall x, x = / 10 \/ x = / 20 \/ x = / 40 -> exp (- (x * x / 2)) + / 100 * exp (x - x * x / 2) < 101 / 100).
  { intros x [->|[->| ->]].
    - pose proof (UP (- (/ 10 * / 10 / 2)) ltac:(lra) ltac:(lra)). pose proof (UP (/ 10 - / 10 * / 10 / 2) ltac:(lra) ltac:(lra)). lra.
    - pose proof (UP (- (/ 20 * / 20 / 2)) ltac:(lra) ltac:(lra)). pose proof (UP (/ 20 - / 20 * / 20 / 2) ltac:(lra) ltac:(lra)). lra.
    - pose proof (UP (- (/ 40 * / 40 / 2)) ltac:(lra) ltac:(lra)). pose proof (UP (/ 40 - / 40 * / 40 / 2) ltac:(lra) ltac:(lra)). lra. }
  destruct (trpo_entropy_growth_refuted 1 ex_logp (fun _ _ => 1) ex_kl (fun _ _ _ => / 200) (fun _ _ _ _ => 1) true (/ 200) 0 (/ 100) 3 1
    0 2 2 p 0 1 ex_rows' [tt; tt] (fun _ => 0) s stop B' ltac:(lia) ltac:(reflexivity) ltac:(lia) CG) as [P1 P2].
  - fold M. rewrite DT. lra.
  - fold c. unfold trpo_kl, ex_rows', tmean, ex_kl. cbn [map combine fst snd p_x rsum fold_right length INR]. rewrite !CV. cbn. lra.
  - intros i Hi. fold c. rewrite G0, GV.
    assert (C3 : c i 0%nat = / 10 \/ c i 0%nat = / 20 \/ c i 0%nat = / 40).
    { rewrite CV. destruct i as [|[|[|i]]]; [left|right; left|right; right|lia]; simpl; field. }
    specialize (W _ C3). lra.
  - fold c. rewrite G0, GV. pose proof (exp_pos (- (c 0%nat 0%nat * c 0%nat 0%nat / 2))). pose proof (exp_pos (c 0%nat 0%nat - c 0%nat 0%nat * c 0%nat 0%nat / 2)). cbn. lra.
  - exists p, (c 0%nat). split; [exact B|]. split; [rewrite CV; simpl; field|]. rewrite <- E in P1, P2. split; [exact P1|exact P2].
Qed.

Print Assumptions trpo_coefficient_reads.
Print Assumptions trpo_entropy_decay_refuted.
Print Assumptions trpo_entropy_growth_refuted.

(** Theorems C38, C39, C61. *)
From Coq Require Import List Arith ZArith Lia Reals Bool Lra Psatz Permutation.
From Verif Require Import Common DqnModel DqnSpec DqnProofs UtilProofs.
Import ListNotations.

(** * C38 *)

(** The projected distribution is the triangular-kernel projection of the clipped
    targets: it keeps the mass, the expected target, and the sign. *)
Theorem categorical_projection : forall n vmin vmax eps reward gamma (absorbing : bool) p,
  2 <= n -> (vmin < vmax)%R -> (0 < eps <= (vmax - vmin) / INR (n - 1))%R -> length p = n ->
  let g := if absorbing then 0%R else gamma in
  let target i := clamp vmin vmax (reward + g * atom n vmin vmax i) in
  exists m, project n vmin vmax eps reward gamma absorbing p = Some m /\ length m = n /\
    (forall k, k < n -> nth k m 0%R = sum n (fun i => nth i p 0 * tri ((vmax - vmin) / INR (n - 1)) (target i) (atom n vmin vmax k))%R) /\
    sum n (fun k => nth k m 0%R) = sum n (fun i => nth i p 0%R) /\
    sum n (fun k => nth k m 0 * atom n vmin vmax k)%R = sum n (fun i => nth i p 0 * target i)%R /\
    ((forall i, i < n -> (0 <= nth i p 0)%R) -> forall k, k < n -> (0 <= nth k m 0)%R).
Proof.
  intros n vmin vmax eps reward gamma absorbing p n2 vlt He L g target.
  assert (DE : ((vmax - vmin) / INR (n - 1) = delta n vmin vmax)%R) by (unfold delta; rewrite minus_INR by lia; reflexivity).
  rewrite DE in *. unfold project. rewrite (atoms_spec n vmin vmax n2 vlt eps He).
  assert (G : (gamma * (1 - (if absorbing then 1 else 0)) = g)%R) by (unfold g; destruct absorbing; ring). rewrite G.
  destruct (project_loop_spec n vmin vmax n2 vlt reward g (combine (map (atom n vmin vmax) (seq 0 n)) p) (repeat 0%R n) (repeat_length _ _)) as (m & E & LM & A & B & C).
  exists m. split; auto. split; auto.
  assert (ZR : forall f : nat -> R -> R, (forall k, f k 0%R = 0%R) -> sum n (fun k => f k (nth k (repeat 0%R n) 0%R)) = 0%R).
  { intros f Hf. unfold sum. transitivity (rsum (map (fun _ : nat => 0%R) (seq 0 n))); [|rewrite rsum_map_const; ring].
    apply rsum_map_ext. intros k Hk. rewrite nth_repeat. apply Hf. }
  rewrite (ZR (fun _ x => x) ltac:(reflexivity)) in B. rewrite (ZR (fun k x => INR k * x)%R ltac:(intros; cbv beta; ring)) in C.
  assert (CB : forall f : R * R -> R, rsum (map f (combine (map (atom n vmin vmax) (seq 0 n)) p)) = sum n (fun i => f (atom n vmin vmax i, nth i p 0%R))).
  { intros f. unfold sum.
    assert (X : combine (map (atom n vmin vmax) (seq 0 n)) p = map (fun i => (atom n vmin vmax i, nth i p 0%R)) (seq 0 n)).
    { apply nth_ext with (0%R, 0%R) (0%R, 0%R).
      - rewrite combine_length, !map_length, seq_length. lia.
      - intros i Hi. rewrite combine_length, map_length, seq_length in Hi.
        rewrite combine_nth by (rewrite map_length, seq_length; lia).
        rewrite (map_nth_in _ _ _ _ _ (0%R, 0%R) 0) by (rewrite seq_length; lia).
        rewrite (map_nth_in _ _ _ _ _ 0%R 0) by (rewrite seq_length; lia). rewrite seq_nth by lia. reflexivity. }
    rewrite X, map_map. reflexivity. }
  assert (TG : forall i, clip (reward + g * atom n vmin vmax i) vmin vmax = target i) by (intros; apply clip_clamp; lra).
  pose proof (delta_pos n vmin vmax n2 vlt) as D.
  assert (PW : forall k, k < n -> nth k m 0%R = sum n (fun i => nth i p 0 * tri (delta n vmin vmax) (target i) (atom n vmin vmax k))%R).
  { intros k Hk. rewrite A by auto. rewrite nth_repeat, CB. unfold sum. rewrite Rplus_0_l. apply rsum_map_ext. intros i Hi. cbn [fst snd].
    unfold bof. rewrite TG, hat_tri; auto. }
  split; [exact PW|]. split; [|split].
  - rewrite B, CB. cbn [snd]. ring.
  - assert (X : (sum n (fun k => nth k m 0 * atom n vmin vmax k) = vmin * sum n (fun k => nth k m 0) + delta n vmin vmax * sum n (fun k => INR k * nth k m 0))%R).
    { unfold sum. rewrite <- !rsum_map_scal, <- rsum_map_plus. apply rsum_map_ext. intros k _. rewrite <- atom_eq by auto. ring. }
    rewrite X, B, C, !CB. cbn [fst snd]. unfold sum. rewrite !Rplus_0_l, <- !rsum_map_scal, <- rsum_map_plus. apply rsum_map_ext. intros i _.
    unfold bof. rewrite TG. field. lra.
  - intros P k Hk. rewrite PW by auto. unfold sum. apply rsum_nonneg. intros x Hx. apply in_map_iff in Hx. destruct Hx as (i & <- & Hi).
    apply in_seq in Hi. apply Rmult_le_pos; [apply P; lia|]. unfold tri. apply Rmax_l.
Qed.

(** A terminal transition puts the whole mass around the clipped reward. *)
Theorem categorical_projection_absorbing : forall n vmin vmax eps reward gamma p k,
  2 <= n -> (vmin < vmax)%R -> (0 < eps <= (vmax - vmin) / INR (n - 1))%R -> length p = n -> sum n (fun i => nth i p 0%R) = 1%R -> k < n ->
  clamp vmin vmax reward = atom n vmin vmax k ->
  exists m, project n vmin vmax eps reward gamma true p = Some m /\ nth k m 0%R = 1%R /\ forall j, j < n -> j <> k -> nth j m 0%R = 0%R.
Proof.
  intros n vmin vmax eps reward gamma p k n2 vlt He L S1 Hk AT.
  destruct (categorical_projection n vmin vmax eps reward gamma true p n2 vlt He L) as (m & E & LM & PW & _). cbv zeta in PW.
  exists m. split; auto.
  assert (D : (0 < (vmax - vmin) / INR (n - 1))%R).
  { apply Rdiv_lt_0_compat; [lra|]. apply lt_0_INR. lia. }
  assert (V : forall j, j < n -> nth j m 0%R = tri ((vmax - vmin) / INR (n - 1)) (atom n vmin vmax k) (atom n vmin vmax j)).
  { intros j Hj. rewrite PW by auto. unfold sum. rewrite (rsum_map_ext _ _ (fun i => tri ((vmax - vmin) / INR (n - 1)) (atom n vmin vmax k) (atom n vmin vmax j) * nth i p 0)%R).
    - rewrite rsum_map_scal. change (rsum (map (fun i => nth i p 0%R) (seq 0 n))) with (sum n (fun i => nth i p 0%R)). rewrite S1. ring.
    - intros i _. rewrite Rmult_0_l, Rplus_0_r, AT. ring. }
  split.
  - rewrite V by auto. unfold tri. replace (atom n vmin vmax k - atom n vmin vmax k)%R with 0%R by ring. rewrite Rabs_R0. unfold Rdiv. rewrite Rmult_0_l. rewrite Rmax_right; lra.
  - intros j Hj N. rewrite V by auto. unfold tri. apply Rmax_left. unfold atom. set (d := ((vmax - vmin) / INR (n - 1))%R) in *. replace (vmin + INR k * d - (vmin + INR j * d))%R with ((INR k - INR j) * d)%R by ring.
    rewrite Rabs_mult, (Rabs_pos_eq d) by lra. unfold Rdiv. rewrite Rmult_assoc, Rinv_r, Rmult_1_r by lra.
    assert (1 <= Rabs (INR k - INR j))%R; [|lra]. rewrite !INR_IZR_INZ, <- minus_IZR, <- abs_IZR. apply IZR_le. lia.
Qed.

(** * C39 *)

(** After k fits the target is the network as of the last multiple of the frequency. *)
Theorem dqn_target_schedule : forall W freq (w0 : W) ws, 0 < freq ->
  dqn_run W freq w0 ws = (snapshot w0 ws (freq * (length ws / freq)), length ws).
Proof.
  intros W freq w0 ws HF. unfold dqn_run. induction ws as [|x ws IH] using rev_ind.
  - simpl. rewrite Nat.div_0_l, Nat.mul_0_r by lia. reflexivity.
  - rewrite fold_left_snoc, IH, app_length. cbn [length]. unfold dqn_fit. cbn [fst snd].
    pose proof (div_succ freq (length ws) HF) as D. destruct (Nat.eqb _ 0).
    + destruct D as [-> E]. rewrite E, snapshot_last. reflexivity.
    + rewrite D. rewrite snapshot_app; [reflexivity|]. pose proof (Nat.mul_div_le (length ws) freq). lia.
Qed.

(** The distributional agents count only the fits with an initialised memory. *)
Theorem guarded_target_schedule : forall W freq (w0 : W) xs, 0 < freq ->
  let fitted := map snd (filter fst xs) in
  guarded_run W freq w0 xs = (snapshot w0 fitted (freq * (length fitted / freq)), length fitted).
Proof.
  intros W freq w0 xs HF fitted. rewrite <- (dqn_target_schedule W freq w0 fitted HF). unfold guarded_run, dqn_run, fitted.
  generalize (w0, 0). induction xs as [|[[|] w] xs IH]; intros st; simpl; auto.
Qed.

Lemma mod_window : forall a K, 0 < K -> Permutation (map (fun j => j mod K) (seq a K)) (seq 0 K).
Proof.
  intros a K HK. apply NoDup_Permutation_bis.
  - apply (NoDup_nth _ 0). rewrite map_length, seq_length. intros i j Hi Hj E.
    rewrite !(map_nth_in _ _ _ _ _ 0 0) in E by (rewrite seq_length; auto). rewrite !seq_nth in E by auto.
    pose proof (Nat.div_mod (a + i) K ltac:(lia)) as D1. pose proof (Nat.div_mod (a + j) K ltac:(lia)) as D2.
    rewrite E in D1. set (q1 := (a + i) / K) in *. set (q2 := (a + j) / K) in *. clearbody q1 q2.
    destruct (Nat.lt_trichotomy q1 q2) as [C|[C|C]]; [exfalso| |exfalso].
    + assert (K * (q1 + 1) <= K * q2) by (apply Nat.mul_le_mono_l; lia). lia.
    + subst. lia.
    + assert (K * (q2 + 1) <= K * q1) by (apply Nat.mul_le_mono_l; lia). lia.
  - rewrite map_length, !seq_length. lia.
  - intros x Hx. apply in_map_iff in Hx. destruct Hx as (j & <- & _). apply in_seq. pose proof (Nat.mod_upper_bound j K ltac:(lia)). lia.
Qed.

(** AveragedDQN averages the most recent snapshots taken at the update times. *)
Theorem averaged_targets_recent : forall W K freq (w0 : W) ws, 0 < freq -> 0 < K ->
  let u := length ws / freq in
  let f := Nat.min K (u + 1) in
  Permutation (avg_used W (avg_run W K freq w0 ws)) (map (fun j => snapshot w0 ws (freq * j)) (seq (u + 1 - f) f)).
Proof.
  intros W K freq w0 ws HF HK u f.
  assert (INV : exists models, avg_run W K freq w0 ws = (models, length ws, f) /\ length models = K /\
     forall j, j <= u -> u < j + K -> nth (j mod K) models w0 = snapshot w0 ws (freq * j)).
  { subst f u. unfold avg_run. induction ws as [|x ws IH] using rev_ind.
    - exists (repeat w0 K). cbn [fold_left length]. rewrite Nat.div_0_l by lia. cbn [Nat.add]. split; [rewrite Nat.min_r by lia; reflexivity|].
      split; [apply repeat_length|]. intros j Hj _. replace j with 0 by lia. rewrite Nat.mul_0_r. apply nth_repeat.
    - destruct IH as (models & E & L & INV). rewrite fold_left_snoc, E, app_length. cbn [length]. unfold avg_fit.
      pose proof (div_succ freq (length ws) HF) as D. pose proof (Nat.mul_div_le (length ws) freq ltac:(lia)) as DL. destruct (Nat.eqb _ 0).
      + destruct D as [-> E']. set (u := length ws / freq) in *. eexists. split; [f_equal|split; [rewrite setnth_length; exact L|]].
        * destruct (Nat.ltb_spec (Nat.min K (u + 1)) K); lia.
        * intros j Hj HK'. destruct (Nat.eq_dec j (S u)) as [->|N].
          -- rewrite nth_setnth_eq by (rewrite L; apply Nat.mod_upper_bound; lia). rewrite E', snapshot_last. reflexivity.
          -- rewrite nth_setnth_neq.
             ++ rewrite INV by lia. rewrite snapshot_app; auto. nia.
             ++ intros C. pose proof (Nat.div_mod (S u) K ltac:(lia)) as D1. pose proof (Nat.div_mod j K ltac:(lia)) as D2.
                rewrite C in D1. set (q1 := S u / K) in *. set (q2 := j / K) in *. clearbody q1 q2.
                assert (q2 < q1) by nia. assert (K * (q2 + 1) <= K * q1) by (apply Nat.mul_le_mono_l; lia). lia.
      + rewrite D. exists models. split; auto. split; auto. intros j Hj HK'. rewrite INV by lia. rewrite snapshot_app; auto. nia. }
  destruct INV as (models & E & L & INV). rewrite E. unfold avg_used.
  destruct (Nat.le_gt_cases (u + 1) K) as [C|C].
  - assert (EF : f = u + 1) by (unfold f; lia). rewrite EF, Nat.sub_diag.
    replace (firstn (u + 1) models) with (map (fun j => snapshot w0 ws (freq * j)) (seq 0 (u + 1))); [apply Permutation_refl|].
    apply nth_ext with w0 w0; [rewrite map_length, seq_length, firstn_length; lia|]. intros i Hi. rewrite map_length, seq_length in Hi.
    rewrite nth_firstn by auto. rewrite (map_nth_in _ _ _ _ _ w0 0) by (rewrite seq_length; auto). rewrite seq_nth by auto. cbn [Nat.add].
    rewrite <- INV by lia. rewrite Nat.mod_small by lia. reflexivity.
  - assert (EF : f = K) by (unfold f; lia). rewrite EF. rewrite firstn_all2 by lia.
    rewrite (map_ext_in _ (fun j => nth (j mod K) models w0)) by (intros j Hj; apply in_seq in Hj; rewrite INV by lia; reflexivity).
    rewrite <- (map_map (fun j => j mod K) (fun i => nth i models w0)).
    apply Permutation_trans with (map (fun i => nth i models w0) (seq 0 K)).
    + replace models with (map (fun i => nth i models w0) (seq 0 K)) at 1; [apply Permutation_refl|].
      apply nth_ext with w0 w0; [rewrite map_length, seq_length; lia|]. intros i Hi. rewrite map_length, seq_length in Hi.
      rewrite (map_nth_in _ _ _ _ _ w0 0) by (rewrite seq_length; auto). rewrite seq_nth by auto. reflexivity.
    + apply Permutation_map, Permutation_sym, mod_window. auto.
Qed.

Lemma soft_update_length : forall tau o t, length o = length t -> length (soft_update tau o t) = length t.
Proof. intros. unfold soft_update. rewrite map_length, combine_length. lia. Qed.
Lemma soft_update_nth : forall tau o t i, length o = length t -> i < length t -> nth i (soft_update tau o t) 0%R = (tau * nth i o 0 + (1 - tau) * nth i t 0)%R.
Proof.
  intros tau o t i L H. unfold soft_update. rewrite (map_nth_in _ _ _ _ _ 0%R (0%R, 0%R)) by (rewrite combine_length; lia).
  rewrite combine_nth by auto. reflexivity.
Qed.

(** The target after a sequence of soft updates is a weighted average of the online
    weights seen and the initial target; the coefficients sum to one. *)
Theorem soft_update_closed_form : forall us t i, (forall u, In u us -> length (snd u) = length t) -> i < length t ->
  let taus := map fst us in
  length (soft_run us t) = length t /\
  nth i (soft_run us t) 0%R =
    (decay taus * nth i t 0 + sum (length us) (fun j => nth j taus 0 * decay (skipn (S j) taus) * nth i (snd (nth j us (0%R, []))) 0))%R /\
  (decay taus + sum (length us) (fun j => nth j taus 0 * decay (skipn (S j) taus)) = 1)%R.
Proof.
  intros us t i HL Hi taus. unfold taus. clear taus. revert t HL Hi. induction us as [|[tau o] us IH]; intros t HL Hi.
  - unfold sum. simpl. split; auto. split; ring.
  - cbn [soft_run fold_left fst snd map length]. fold (soft_run us (soft_update tau o t)).
    assert (LO : length o = length t) by (apply (HL (tau, o)); simpl; auto).
    pose proof (soft_update_length tau o t LO) as LT.
    destruct (IH (soft_update tau o t)) as (A & B & C).
    + intros u Hu. rewrite LT. apply HL. simpl; auto.
    + rewrite LT; auto.
    + split; [rewrite A; auto|]. unfold sum in *. rewrite <- cons_seq, <- seq_shift. cbn [map rsum]. rewrite !map_map.
      change (decay (tau :: map fst us)) with ((1 - tau) * decay (map fst us))%R.
      change (skipn 1 (tau :: map fst us)) with (map fst us).
      change (nth 0 (tau :: map fst us) 0%R) with tau. change (snd (nth 0 ((tau, o) :: us) (0%R, []))) with o.
      split.
      * rewrite B, soft_update_nth by auto.
        match goal with |- context [rsum (map ?f (seq 0 (length us)))] => set (S1 := rsum (map f (seq 0 (length us)))) end.
        match goal with |- _ = (_ + (_ + rsum (map ?f (seq 0 (length us)))))%R => change (rsum (map f (seq 0 (length us)))) with S1 end. ring.
      * match goal with |- (_ + (_ + rsum (map ?f (seq 0 (length us)))) = 1)%R => change (rsum (map f (seq 0 (length us)))) with (rsum (map (fun j => (nth j (map fst us) 0 * decay (skipn (S j) (map fst us)))%R) (seq 0 (length us)))) end.
        lra.
Qed.

Theorem soft_update_hull : forall us t i lo hi, (forall u, In u us -> length (snd u) = length t /\ (0 <= fst u <= 1)%R /\ (lo <= nth i (snd u) 0 <= hi)%R) ->
  i < length t -> (lo <= nth i t 0 <= hi)%R -> (lo <= nth i (soft_run us t) 0 <= hi)%R.
Proof.
  induction us as [|[tau o] us IH]; intros t i lo hi H Hi HT; auto. cbn [soft_run fold_left fst snd]. fold (soft_run us (soft_update tau o t)).
  destruct (H (tau, o) (or_introl eq_refl)) as (LO & T & B). cbn [fst snd] in *. pose proof (soft_update_length tau o t LO) as LT. apply IH.
  - intros u Hu. rewrite LT. apply H. simpl; auto.
  - lia.
  - rewrite soft_update_nth by auto. split; nra.
Qed.

(** * C61: bootstrapped targets *)
Theorem dqn_target : forall qs absorbing i d, length qs = length absorbing -> i < length qs -> (forall q, In q qs -> q <> []) ->
  let y := nth i (dqn_next_q qs absorbing) d in
  (nth i absorbing false = true -> y = 0%R) /\ (nth i absorbing false = false -> is_max (nth i qs []) y).
Proof.
  intros qs absorbing i d L Hi NE y. unfold y, dqn_next_q. clear y. set (mask := existsb (fun b => b) absorbing).
  assert (NI : nth i qs [] <> []) by (apply NE, nth_In; auto).
  destruct mask eqn:E.
  - rewrite map_map. rewrite (map_nth_in _ _ _ _ _ d ([], false)) by (rewrite combine_length; lia). rewrite combine_nth by auto. cbn [fst snd]. split; intros ->.
    + apply rowmax_zero.
    + rewrite map_one. apply rowmax_spec; auto.
  - rewrite (map_nth_in _ _ _ _ _ d []) by auto. split; [|intros _; apply rowmax_spec; auto].
    intros A. exfalso. unfold mask in E. assert (X : existsb (fun b => b) absorbing = true); [|congruence].
    apply existsb_exists. exists true. split; auto. rewrite <- A. apply nth_In. lia.
Qed.

(** The Double DQN target is the target network's value of an action that maximises the
    online network; it never exceeds the DQN target. *)
Theorem double_dqn_target : forall online target absorbing i d, length online = length absorbing -> length target = length absorbing -> i < length absorbing ->
  nth i online [] <> [] -> length (nth i online []) = length (nth i target []) ->
  let y := nth i (double_next_q online target absorbing) d in
  (nth i absorbing false = true -> y = 0%R) /\
  (nth i absorbing false = false -> exists a, a < length (nth i online []) /\ is_max (nth i online []) (nth a (nth i online []) 0%R) /\
     y = nth a (nth i target []) 0%R /\ (forall x, is_max (nth i target []) x -> (y <= x)%R)).
Proof.
  intros online target absorbing i d L1 L2 Hi NE LE y. unfold y, double_next_q. clear y.
  set (dq := map (fun ot => nth (argmax (fst ot)) (snd ot) 0%R) (combine online target)).
  assert (LD : length dq = length absorbing) by (unfold dq; rewrite map_length, combine_length; lia).
  assert (ND : forall d, nth i dq d = nth (argmax (nth i online [])) (nth i target []) 0%R).
  { intros d0. unfold dq. rewrite (map_nth_in _ _ _ _ _ d0 ([], [])) by (rewrite combine_length; lia). rewrite combine_nth by lia. reflexivity. }
  destruct (argmax_spec _ NE) as [A1 A2].
  assert (VAL : forall y, y = nth (argmax (nth i online [])) (nth i target []) 0%R -> exists a, a < length (nth i online []) /\ is_max (nth i online []) (nth a (nth i online []) 0%R) /\
     y = nth a (nth i target []) 0%R /\ (forall x, is_max (nth i target []) x -> (y <= x)%R)).
  { intros y ->. exists (argmax (nth i online [])). split; auto. split; auto. split; auto. intros x [_ M]. apply M. apply nth_In. lia. }
  destruct (existsb (fun b => b) absorbing) eqn:E.
  - rewrite (map_nth_in _ _ _ _ _ d (0%R, false)) by (rewrite combine_length; lia). rewrite combine_nth by lia. cbn [fst snd]. split; intros ->.
    + unfold flag. ring.
    + apply VAL. rewrite ND. unfold flag. ring.
  - split; [|intros _; apply VAL, ND]. intros A. exfalso. assert (X : existsb (fun b => b) absorbing = true); [|congruence].
    apply existsb_exists. exists true. split; auto. rewrite <- A. apply nth_In. lia.
Qed.

(** Averaged DQN: maximum of the mean; Maxmin: maximum of the minima. *)
Theorem averaged_dqn_target : forall na rows absorbing, 0 < na -> rows <> [] ->
  (absorbing = true -> averaged_next_q na rows absorbing = 0%R) /\
  (absorbing = false -> is_max (map (fun a => (sum (length rows) (fun m => nth a (nth m rows []) 0) / INR (length rows))%R) (seq 0 na)) (averaged_next_q na rows absorbing)).
Proof.
  intros na rows absorbing Ha HR. unfold averaged_next_q. split; intros ->; [apply rowmax_zero|]. rewrite map_one.
  assert (E : col_mean rows na = map (fun a => (sum (length rows) (fun m => nth a (nth m rows []) 0) / INR (length rows))%R) (seq 0 na)).
  { unfold col_mean. apply map_ext. intros a. f_equal. unfold sum.
    replace rows with (map (fun m => nth m rows []) (seq 0 (length rows))) at 1.
    - rewrite map_map. reflexivity.
    - apply nth_ext with [] []; [rewrite map_length, seq_length; auto|]. intros i Hi. rewrite map_length, seq_length in Hi.
      rewrite (map_nth_in _ _ _ _ _ [] 0) by (rewrite seq_length; auto). rewrite seq_nth by auto. reflexivity. }
  rewrite <- E. apply rowmax_spec. unfold col_mean. destruct na; [lia|discriminate].
Qed.

Theorem maxmin_dqn_target : forall na rows absorbing, 0 < na -> rows <> [] ->
  (absorbing = true -> maxmin_next_q na rows absorbing = 0%R) /\
  (absorbing = false -> exists a mins, a < na /\ maxmin_next_q na rows absorbing = mins a /\
     (forall b, b < na -> is_min (map (fun r => nth b r 0%R) rows) (mins b) /\ (mins b <= mins a)%R) /\
     (forall r, In r rows -> r <> [] -> length r = na -> forall x, is_max r x -> (maxmin_next_q na rows absorbing <= x)%R)).
Proof.
  intros na rows absorbing Ha HR. unfold maxmin_next_q. split; intros ->; [apply rowmax_zero|]. rewrite map_one.
  assert (NE : col_min rows na <> []) by (unfold col_min; destruct na; [lia|discriminate]).
  destruct (rowmax_spec _ NE) as [I M]. unfold col_min in I. apply in_map_iff in I. destruct I as (a & E & Ha'). fold (col_min rows na) in E.
  apply in_seq in Ha'. exists a, (fun b => listmin (map (fun r => nth b r 0%R) rows)). split; [lia|]. split; [symmetry; exact E|].
  assert (MIN : forall b, is_min (map (fun r => nth b r 0%R) rows) (listmin (map (fun r => nth b r 0%R) rows))).
  { intros b. apply listmin_spec. destruct rows; [congruence|discriminate]. }
  split.
  - intros b Hb. split; auto. rewrite E. apply M. unfold col_min. apply (in_map (fun b => listmin (map (fun r => nth b r 0%R) rows))). apply in_seq. lia.
  - intros r Hr _ Lr x [_ MX]. rewrite <- E. destruct (MIN a) as [_ Q]. eapply Rle_trans; [apply Q; apply (in_map (fun r => nth a r 0%R)); exact Hr|].
    apply MX. apply nth_In. lia.
Qed.

(** TD3: the smoothed action stays in the action space and within noise_clip of the
    target action when that lies in the space; the target is pessimistic. *)
Theorem td3_target : forall q1 q2 a noise noise_clip low high absorbing, (0 <= noise_clip)%R ->
  (absorbing = true -> td3_next_q q1 q2 a noise noise_clip low high absorbing = 0%R) /\
  (absorbing = false -> exists a', (length a = length noise -> length a = length low -> length a = length high -> length a' = length a /\
      forall i, i < length a -> (nth i low 0 <= nth i high 0)%R -> (nth i low 0 <= nth i a' 0 <= nth i high 0)%R /\
        ((nth i low 0 <= nth i a 0 <= nth i high 0)%R -> (Rabs (nth i a' 0 - nth i a 0) <= noise_clip)%R)) /\
     is_min [q1 a'; q2 a'] (td3_next_q q1 q2 a noise noise_clip low high absorbing)).
Proof.
  intros q1 q2 a noise c low high absorbing Hc. unfold td3_next_q.
  set (a' := map _ _). split; intros ->; [unfold flag; ring|]. exists a'. split.
  - intros L1 L2 L3. split; [unfold a'; rewrite map_length, !combine_length; lia|]. intros i Hi LH.
    assert (E : nth i a' 0%R = td3_action (nth i a 0%R) (nth i noise 0%R) c (nth i low 0%R) (nth i high 0%R)).
    { unfold a'. rewrite (map_nth_in _ _ _ _ _ 0%R ((0%R, 0%R), (0%R, 0%R))) by (rewrite !combine_length; lia).
      rewrite combine_nth by (rewrite !combine_length; lia). rewrite !combine_nth by lia. reflexivity. }
    rewrite E. unfold td3_action. split; [apply clip_bounds; auto|]. intros B.
    pose proof (clip_bounds (nth i noise 0%R) (- c) c ltac:(lra)) as N. set (nn := clip (nth i noise 0%R) (- c) c) in *.
    rewrite clip_clamp by auto. unfold clamp. destruct (Rlt_dec _ _); [|destruct (Rlt_dec _ _)]; unfold Rabs; destruct (Rcase_abs _); lra.
  - replace (Rmin (q1 a') (q2 a') * (1 - flag false))%R with (Rmin (q1 a') (q2 a')) by (unfold flag; ring). split.
    + unfold Rmin. destruct (Rle_dec _ _); simpl; auto.
    + intros y [<-|[<-|[]]]; [apply Rmin_l|apply Rmin_r].
Qed.

Lemma tanh_bounds : forall x, (-1 < tanh x < 1)%R.
Proof.
  intros x. unfold tanh, sinh, cosh. pose proof (exp_pos x). pose proof (exp_pos (- x)).
  assert (C : (0 < (exp x + exp (- x)) / 2)%R) by lra. split.
  - apply Rmult_lt_reg_r with ((exp x + exp (- x)) / 2)%R; auto. unfold Rdiv at 2. rewrite Rmult_assoc, Rinv_l by lra. lra.
  - apply Rmult_lt_reg_r with ((exp x + exp (- x)) / 2)%R; auto. unfold Rdiv at 1. rewrite Rmult_assoc, Rinv_l by lra. lra.
Qed.

(** SAC: every sampled action is strictly inside the action space; the target of a
    terminal transition ignores the entropy bonus as well. *)
Theorem sac_action_bounds : forall raw lo hi, (lo < hi)%R -> (lo < sac_action raw lo hi < hi)%R.
Proof. intros raw lo hi H. unfold sac_action. pose proof (tanh_bounds raw). nra. Qed.
Theorem sac_target : forall q1 q2 alpha lp absorbing reward gamma,
  (absorbing = true -> td_target reward gamma (sac_next_q q1 q2 alpha lp absorbing) = reward) /\
  (absorbing = false -> exists x, is_min [q1; q2] x /\ td_target reward gamma (sac_next_q q1 q2 alpha lp absorbing) = (reward + gamma * (x - alpha * lp))%R).
Proof.
  intros. unfold td_target, sac_next_q. split; intros ->; unfold flag; [ring|]. exists (Rmin q1 q2). split; [|ring]. split.
  - unfold Rmin. destruct (Rle_dec _ _); simpl; auto.
  - intros y [<-|[<-|[]]]; [apply Rmin_l|apply Rmin_r].
Qed.

(** * Concrete cases *)
Example schedule_demo : dqn_run nat 3 0 [1; 2; 3; 4; 5; 6; 7] = (6, 7).
Proof. reflexivity. Qed.
Example averaged_demo : avg_used nat (avg_run nat 3 2 0 [1; 2; 3; 4; 5; 6; 7; 8; 9]) = [6; 8; 4].
Proof. reflexivity. Qed.
Example averaged_demo_short : avg_used nat (avg_run nat 3 2 0 [1; 2; 3]) = [0; 2].
Proof. reflexivity. Qed.
Example tri_demo : tri 1 (1 / 4) 0 = (3 / 4)%R /\ tri 1 (1 / 4) 1 = (1 / 4)%R.
Proof. unfold tri. split; [rewrite Rabs_pos_eq by lra|rewrite Rabs_left1 by lra]; rewrite Rmax_right; lra. Qed.

Example projection_demo : exists m, project 3 (-1) 1 (1 / 1000) (1 / 2) 1 false [1 / 4; 1 / 2; 1 / 4]%R = Some m /\ nth 2 m 0%R = (1 / 2)%R.
Proof.
  destruct (categorical_projection 3 (-1) 1 (1 / 1000) (1 / 2) 1 false [1 / 4; 1 / 2; 1 / 4]%R) as (m & E & _ & P & _); [lia|lra|simpl; lra|reflexivity|].
  exists m. split; auto. rewrite P by lia. unfold sum. cbn [seq map rsum nth].
  assert (T : forall i, atom 3 (-1) 1 i = (-1 + INR i)%R) by (intros; unfold atom; simpl; field).
  rewrite !T. unfold clamp. cbn [INR]. replace ((1 - -1) / INR (3 - 1))%R with 1%R by (simpl; field).
  repeat match goal with |- context [Rlt_dec ?a ?b] => destruct (Rlt_dec a b); try lra end.
  unfold tri.
  unfold Rmax, Rabs; repeat match goal with |- context [Rcase_abs ?a] => destruct (Rcase_abs a); try lra end;
    repeat match goal with |- context [Rle_dec ?a ?b] => destruct (Rle_dec a b); try lra end.
Qed.

Print Assumptions categorical_projection.
Print Assumptions categorical_projection_absorbing.
Print Assumptions dqn_target_schedule.
Print Assumptions guarded_target_schedule.
Print Assumptions averaged_targets_recent.
Print Assumptions soft_update_closed_form.
Print Assumptions soft_update_hull.
Print Assumptions dqn_target.
Print Assumptions double_dqn_target.
Print Assumptions averaged_dqn_target.
Print Assumptions maxmin_dqn_target.
Print Assumptions td3_target.
Print Assumptions sac_action_bounds.
Print Assumptions sac_target.

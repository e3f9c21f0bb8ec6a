(** C122: LSPI on a table or a tiling is policy iteration on the empirical decision process. *)
From Coq Require Import List Arith Lia Reals Lra Bool FunctionalExtensionality.
From Verif Require Import Common FeatModel FeatProofs FeatProps TdModel DqnModel DqnSpec DqnProofs ApproxModel BatchModel BatchProps Mat EnacSpec EnacProofs EnacPinv EnacProps DpProofs FqiLinModel FqiLinSpec FqiLinProofs LspiTabSpec LspiTabProofs.
Import ListNotations.
Local Open Scope R_scope.

Section Bridge.
Context {X : Type}.
Variables (p nA : nat) (cell : X -> nat) (gamma : R) (D : list (bsample X)) (phi : X -> list R) (solve : mat -> vec -> vec).
Hypothesis HA : (0 < nA)%nat.
Hypothesis HG : 0 <= gamma < 1.
Hypothesis OH : one_hot_list p cell phi.
Hypothesis COV : covers p nA cell D.
Hypothesis SOL : solves (p * nA) solve.

Definition qv (w : vec) (c a : nat) : R := w (a * p + c)%nat.
Definition step' := lspi_step phi p nA gamma solve D.
Definition nxt := lspi_next phi p nA D.

Lemma phi_len' : forall x, length (phi x) = p.
Proof. intros x. rewrite (proj2 (OH x)), map_length, seq_length. reflexivity. Qed.
Lemma cell_lt : forall x, (cell x < p)%nat.
Proof. intros x. apply (OH x). Qed.
Lemma phi_nth : forall x k, (k < p)%nat -> nth k (phi x) 0 = if Nat.eqb k (cell x) then 1 else 0.
Proof.
  intros x k Hk. rewrite (proj2 (OH x)). rewrite (nth_indep _ 0 ((fun j => if Nat.eqb j (cell x) then 1 else 0) 0%nat)) by (rewrite map_length, seq_length; exact Hk).
  rewrite (map_nth (fun j => if Nat.eqb j (cell x) then 1 else 0)), seq_nth by exact Hk. reflexivity.
Qed.
Lemma q_row : forall w x, lspi_q phi p nA w x = map (qv w (cell x)) (seq 0 nA).
Proof.
  intros w x. unfold lspi_q, lin_row. rewrite map_map. apply map_ext. intros a.
  pose proof (dot_rows (phi x) (fun k => w (a * p + k)%nat)) as DR. rewrite phi_len' in DR. rewrite DR.
  change (sm p (fun k => nth k (phi x) 0 * w (a * p + k)%nat) = qv w (cell x) a). rewrite (sm_single p (cell x)).
  - rewrite phi_nth, Nat.eqb_refl by apply cell_lt. unfold qv. ring.
  - apply cell_lt.
  - intros i Hi N. rewrite phi_nth by exact Hi. apply Nat.eqb_neq in N. rewrite N. ring.
Qed.
Lemma qw_tab : forall w x a, (a < nA)%nat -> qw phi p nA w x a = qv w (cell x) a.
Proof.
  intros w x a Ha. unfold qw. rewrite q_row. rewrite (nth_indep _ 0 (qv w (cell x) 0%nat)) by (rewrite map_length, seq_length; exact Ha).
  rewrite map_nth, seq_nth by exact Ha. reflexivity.
Qed.
Lemma dim_eq : lspi_dim p nA = (p * nA)%nat.
Proof. unfold lspi_dim. apply Nat.mul_comm. Qed.
Lemma idx_lt : forall c a, (c < p)%nat -> (a < nA)%nat -> (a * p + c < lspi_dim p nA)%nat.
Proof. intros. unfold lspi_dim. nia. Qed.
Lemma idx_inj : forall c a c' a', (c < p)%nat -> (c' < p)%nat -> (a * p + c = a' * p + c')%nat -> c = c' /\ a = a'.
Proof.
  intros c a c' a' Hc Hc' E. assert (a = a').
  { destruct (Nat.lt_trichotomy a a') as [L|[L|L]]; [exfalso; nia|exact L|exfalso; nia]. }
  subst. split; [lia|reflexivity].
Qed.
Lemma idx_cover : forall j, (j < lspi_dim p nA)%nat -> exists c a, (c < p)%nat /\ (a < nA)%nat /\ j = (a * p + c)%nat.
Proof.
  intros j Hj. unfold lspi_dim in Hj. assert (p <> 0)%nat by (intros Z; rewrite Z, Nat.mul_0_r in Hj; lia). exists (j mod p)%nat, (j / p)%nat.
  split; [apply Nat.mod_upper_bound; lia|]. split; [apply Nat.div_lt_upper_bound; lia|]. rewrite (Nat.mul_comm _ p). apply Nat.div_mod. assumption.
Qed.
Lemma phi_sa : forall x a c b, (a < nA)%nat -> (c < p)%nat -> (b < nA)%nat ->
  lspi_phi phi nA x a (b * p + c)%nat = if andb (Nat.eqb (cell x) c) (Nat.eqb a b) then 1 else 0.
Proof.
  intros x a c b Ha Hc Hb. set (w := fun k => if Nat.eqb k (b * p + c) then 1 else 0 : R).
  pose proof (qw_features phi p nA phi_len' w x a Ha) as F. rewrite qw_tab in F by exact Ha.
  rewrite (sm_single _ (b * p + c)%nat) in F; [|apply idx_lt; assumption|].
  - unfold w in F at 2. rewrite Nat.eqb_refl, Rmult_1_r in F. rewrite <- F. unfold qv, w.
    destruct (Nat.eqb_spec (a * p + cell x) (b * p + c)) as [E|N].
    + apply idx_inj in E as [E1 E2]; [|apply cell_lt|exact Hc]. rewrite E1, E2, !Nat.eqb_refl. reflexivity.
    + destruct (Nat.eqb_spec (cell x) c) as [E1|]; [|reflexivity]. destruct (Nat.eqb_spec a b) as [E2|]; [|reflexivity]. exfalso. apply N. rewrite E1, E2. reflexivity.
  - intros i Hi N. unfold w. apply Nat.eqb_neq in N. rewrite N. ring.
Qed.

Lemma nxt_lt : forall w x, (nxt w x < nA)%nat.
Proof. intros w x. apply next_lt. exact HA. Qed.

Lemma rsum_here : forall f c a, rsum (map (fun x : bsample X => (if andb (Nat.eqb (cell (b_s x)) c) (Nat.eqb (b_a x) a) then 1 else 0) * f x) D) = rsum (map f (here cell D c a)).
Proof.
  intros f c a. unfold here. generalize D. intros l0. induction l0 as [|x l IH]; [reflexivity|]. cbn [map rsum filter]. rewrite IH. destruct (andb _ _); cbn [map rsum]; ring.
Qed.
(** The system of one step, for the pair [(c, a)] *)
Lemma system : forall w v c a, (c < p)%nat -> (a < nA)%nat ->
  sm (lspi_dim p nA) (fun k => lspi_A phi p nA gamma D w (a * p + c)%nat k * v k) - lspi_b phi nA D (a * p + c)%nat
  = INR (length (here cell D c a)) * (qv v c a - ev cell gamma D (nxt w) (qv v) c a).
Proof.
  intros w v c a Hc Ha. rewrite (lspi_system phi p nA gamma phi_len') by (first [exact HA|apply COV]).
  rewrite (rsum_map_ext _ _ (fun x => (if andb (Nat.eqb (cell (b_s x)) c) (Nat.eqb (b_a x) a) then 1 else 0) * (qv v (cell (b_s x)) (b_a x) - (b_r x + gamma * qv v (cell (b_s' x)) (nxt w x))))).
  2: { intros x I. rewrite phi_sa by (first [assumption|apply COV; exact I]). rewrite !qw_tab by (first [apply nxt_lt|apply COV; exact I]). reflexivity. }
  rewrite rsum_here. unfold ev, look, mean. rewrite map_length.
  rewrite (rsum_map_ext _ _ (fun x => qv v c a - (b_r x + gamma * qv v (cell (b_s' x)) (nxt w x)))).
  2: { intros x I. apply filter_In in I as [_ I]. apply andb_true_iff in I as [I1 I2]. apply Nat.eqb_eq in I1, I2. rewrite I1, I2. reflexivity. }
  rewrite rsum_eq_sub, rsum_map_const. set (n := INR (length (here cell D c a))).
  assert (n <> 0). { apply not_0_INR. intros E. apply length_zero_iff_nil in E. revert E. apply (here_ne p nA cell D COV); assumption. }
  field. assumption.
Qed.
Lemma len_ne : forall c a, (c < p)%nat -> (a < nA)%nat -> INR (length (here cell D c a)) <> 0.
Proof. intros c a Hc Ha. apply not_0_INR. intros E. apply length_zero_iff_nil in E. revert E. apply (here_ne p nA cell D COV); assumption. Qed.

Lemma A_regular : forall w, regular (p * nA) (lspi_A phi p nA gamma D w).
Proof.
  intros w v H. rewrite <- dim_eq in *.
  assert (E : forall c a, (c < p)%nat -> (a < nA)%nat -> qv v c a - (ev cell gamma D (nxt w) (qv v) c a - ev cell gamma D (nxt w) (qv (fun _ => 0)) c a) = 0).
  { intros c a Hc Ha. pose proof (system w v c a Hc Ha) as S1. pose proof (system w (fun _ => 0) c a Hc Ha) as S2.
    rewrite (H _ (idx_lt c a Hc Ha)) in S1. rewrite (sm_zero _ (fun k => lspi_A phi p nA gamma D w (a * p + c)%nat k * 0)) in S2 by (intros; ring).
    pose proof (len_ne c a Hc Ha) as N. apply Rmult_eq_reg_l with (INR (length (here cell D c a))); [|exact N]. unfold qv in S2 at 1. lra. }
  (** the difference of two evaluations is a contraction with the fixed point 0 *)
  set (G := fun Q : nat -> nat -> R => fun c a => ev cell gamma D (nxt w) Q c a - ev cell gamma D (nxt w) (qv (fun _ => 0)) c a).
  assert (H1 : forall U V d, 0 <= d -> below p nA U V d -> below p nA (G U) (G V) (gamma * d)).
  { intros U V d Hd B c a Hc Ha. unfold G. pose proof (ev_H1 p nA cell gamma D HG cell_lt COV (nxt w) (fun x _ => nxt_lt w x) U V d Hd B c a Hc Ha). lra. }
  assert (F1 : fixed p nA G (qv v)) by (intros c a Hc Ha; specialize (E c a Hc Ha); unfold G; lra).
  assert (F2 : fixed p nA G (qv (fun _ => 0))) by (intros c a Hc Ha; unfold G; unfold qv at 1; ring).
  intros k Hk. destruct (idx_cover k Hk) as (c & a & Hc & Ha & ->).
  exact (fixed_unique p nA gamma G HA HG H1 _ _ F2 F1 c a Hc Ha).
Qed.

(** One step evaluates the greedy policy of the weights before *)
Lemma step_fixed : forall w, fixed p nA (ev cell gamma D (nxt w)) (qv (step' w)).
Proof.
  intros w c a Hc Ha. pose proof (system w (step' w) c a Hc Ha) as S1.
  pose proof (SOL (lspi_A phi p nA gamma D w) (lspi_b phi nA D) (A_regular w) (a * p + c)%nat) as S2. rewrite <- dim_eq in S2. specialize (S2 (idx_lt c a Hc Ha)).
  change (solve (lspi_A phi p nA gamma D w) (lspi_b phi nA D)) with (step' w) in S2. rewrite S2 in S1. rewrite Rminus_diag_eq in S1 by reflexivity.
  symmetry in S1. apply Rmult_integral in S1 as [Z|Z]; [destruct (len_ne c a Hc Ha Z)|lra].
Qed.
Lemma step_greedy : forall w, greedy nA cell D (qv w) (nxt w).
Proof.
  intros w x I. split; [apply nxt_lt|]. unfold nxt, lspi_next. rewrite q_row. split; intros AB; rewrite AB.
  - replace (existsb b_abs D) with true by (symmetry; apply existsb_exists; eauto).
    destruct (map (qv w (cell (b_s' x))) (seq 0 nA)) as [|y q]; [reflexivity|]. cbn [map argmax].
    assert (GG : forall l v b i, v = 0 -> argmaxl b v i (map (fun v => v * (1 - flag true)) l) = b).
    { clear. induction l; intros v b i E; cbn [map argmaxl]; auto. destruct (Rlt_dec v (a * (1 - flag true))) as [C|C]; [|auto]. unfold flag in C. exfalso. lra. }
    apply GG. unfold flag. ring.
  - set (l := map (qv w (cell (b_s' x))) (seq 0 nA)). replace (if existsb b_abs D then map (fun v => v * (1 - flag false)) l else l) with l by (destruct (existsb b_abs D); rewrite ?map_one; reflexivity).
    pose proof (seq_ne nA HA (qv w (cell (b_s' x)))) as NE. fold l in NE. destruct (argmax_spec l NE) as [L M].
    rewrite (max_uniq _ _ _ (rowmax_spec l NE) M). unfold l at 3.
    assert (L2 : (argmax l < nA)%nat) by (unfold l in L at 2; rewrite map_length, seq_length in L; exact L).
    rewrite (nth_indep _ 0 (qv w (cell (b_s' x)) 0%nat)) by (rewrite map_length, seq_length; exact L2). rewrite map_nth, seq_nth by exact L2. reflexivity.
Qed.
Lemma step_selects : forall w, selects nA D (nxt w).
Proof. intros w. eapply greedy_selects. apply step_greedy. Qed.

Lemma norm_coord : forall v e, 0 <= e -> vnorm p nA v <= e -> forall c a, (c < p)%nat -> (a < nA)%nat -> Rabs (qv v c a) <= e.
Proof.
  intros v e He H c a Hc Ha. unfold qv. eapply Rle_trans; [|exact H]. rewrite <- sqrt_Rsqr_abs. unfold vnorm. apply sqrt_le_1_alt.
  replace (Rsqr (v (a * p + c)%nat)) with (v (a * p + c)%nat ^ 2) by (unfold Rsqr; ring).
  apply (rsum_in_le (map (fun k => v k ^ 2) (seq 0 (lspi_dim p nA)))).
  - intros y I. apply in_map_iff in I as (k & <- & _). apply pow2_ge_0.
  - apply (in_map (fun k => v k ^ 2)). apply in_seq. pose proof (idx_lt c a Hc Ha). lia.
Qed.
Lemma coord_norm : forall v e, 0 <= e -> (forall c a, (c < p)%nat -> (a < nA)%nat -> Rabs (qv v c a) <= e) -> vnorm p nA v <= sqrt (INR (p * nA)) * e.
Proof.
  intros v e He H. unfold vnorm. rewrite <- (sqrt_pow2 e He) at 1. rewrite <- sqrt_mult by (first [apply pos_INR|apply pow2_ge_0]). apply sqrt_le_1_alt.
  rewrite <- dim_eq. eapply Rle_trans; [apply (sm_le _ _ (fun _ => e ^ 2))|].
  - intros k Hk. destruct (idx_cover k Hk) as (c & a & Hc & Ha & ->). specialize (H c a Hc Ha). unfold qv in H.
    rewrite <- (pow2_abs (v (a * p + c)%nat)). apply pow_incr. split; [apply Rabs_pos|exact H].
  - right. unfold sm. rewrite rsum_map_const, seq_length. reflexivity.
Qed.

Fixpoint iter' (k : nat) (w : vec) : vec := match k with O => w | S j => step' (iter' j w) end.
Lemma iter_front : forall k w, iter' (S k) w = iter' k (step' w).
Proof. induction k as [|k IH]; intros w; [reflexivity|]. cbn [iter']. rewrite <- IH. reflexivity. Qed.

Variable Qs : nat -> nat -> R.
Hypothesis FIX : fixed p nA (opt nA cell gamma D) Qs.
Variable K : R.
Hypothesis HK : 0 <= K.
Hypothesis Hr : forall x, In x D -> Rabs (b_r x) + gamma * K <= K.

Lemma iter_close : forall k w, below p nA (qv (iter' (S k) w)) Qs 0 /\ below p nA Qs (qv (iter' (S k) w)) (gamma ^ k * (2 * K)) /\
  below p nA (qv (iter' (S k) w)) (qv (iter' (S (S k)) w)) 0.
Proof.
  intros k w.
  assert (UP : forall k, below p nA (qv (iter' (S k) w)) Qs 0).
  { intros j. apply (pi_below p nA cell gamma D HA HG cell_lt COV Qs FIX _ (nxt (iter' j w))); [apply step_selects|apply step_fixed]. }
  assert (ST : forall k, below p nA (qv (iter' (S k) w)) (qv (iter' (S (S k)) w)) 0 /\ forall d, 0 <= d -> below p nA Qs (qv (iter' (S k) w)) d -> below p nA Qs (qv (iter' (S (S k)) w)) (gamma * d)).
  { intros j. apply (pi_step p nA cell gamma D HA HG cell_lt COV Qs FIX _ (nxt (iter' j w)) _ (nxt (iter' (S j) w))); [apply step_selects|apply step_fixed|apply step_greedy|apply step_fixed]. }
  split; [apply UP|]. split; [|apply ST]. induction k as [|k IH].
  - intros c a Hc Ha. pose proof (opt_bound p nA cell gamma D HA HG cell_lt COV Qs FIX K HK Hr c a Hc Ha) as B1.
    pose proof (ev_bound p nA cell gamma D HA HG cell_lt COV K HK Hr (nxt (iter' 0 w)) _ (step_selects _) (step_fixed _) c a Hc Ha) as B2.
    cbn [iter' pow] in *. apply Rabs_le_inv in B1. apply Rabs_le_inv in B2. lra.
  - cbn [pow]. rewrite Rmult_assoc. apply ST; [|exact IH]. apply Rmult_le_pos; [apply pow_le; lra|lra].
Qed.

Lemma loop_stop : forall fuel eps w w' wo, lspi_loop phi p nA gamma solve fuel eps D w = Some (w', wo) -> w' = step' wo /\ vnorm p nA (vsub w' wo) <= eps.
Proof.
  induction fuel as [|f IH]; intros eps w w' wo HL; [discriminate|]. cbn [lspi_loop] in HL. destruct (Rlt_dec eps _) as [|N]; [eapply IH; eauto|].
  apply (f_equal (fun o => match o with Some q => q | None => (w, w) end)) in HL. apply pair_equal_spec in HL as [<- <-]. split; [reflexivity|lra].
Qed.
Lemma loop_more : forall fuel eps w r, lspi_loop phi p nA gamma solve fuel eps D w = Some r -> forall f, (fuel <= f)%nat -> lspi_loop phi p nA gamma solve f eps D w = Some r.
Proof.
  induction fuel as [|n IH]; intros eps w r HL f Hf; [discriminate|]. destruct f as [|f]; [lia|]. cbn [lspi_loop] in *. destruct (Rlt_dec eps _); [apply IH; [exact HL|lia]|exact HL].
Qed.
Lemma loop_ends : forall k eps w, vnorm p nA (vsub (iter' (S k) w) (iter' k w)) <= eps -> exists r, lspi_loop phi p nA gamma solve (S k) eps D w = Some r.
Proof.
  induction k as [|k IH]; intros eps w H.
  - cbn [lspi_loop]. change (lspi_step phi p nA gamma solve D w) with (iter' 1 w). destruct (Rlt_dec eps _) as [C|_]; [|eauto]. cbn [iter'] in *. exfalso. lra.
  - rewrite (iter_front (S k) w), (iter_front k w) in H. destruct (IH eps (step' w) H) as (r & E). change (exists r, (if Rlt_dec eps (vnorm p nA (vsub (step' w) w)) then lspi_loop phi p nA gamma solve (S k) eps D (step' w) else Some (step' w, w)) = Some r).
    destruct (Rlt_dec eps _); eauto.
Qed.
End Bridge.

(** Each pass of the loop evaluates exactly the policy that is greedy for the weights before; from the
    second on the values increase, and they approach the optimal ones geometrically *)
Theorem lspi_table_policy_iteration : forall (X : Type) p nA cell gamma (D : list (bsample X)) phi solve K,
  (0 < nA)%nat -> 0 <= gamma < 1 -> one_hot_list p cell phi -> covers p nA cell D -> solves (p * nA) solve ->
  0 <= K -> (forall x, In x D -> Rabs (b_r x) + gamma * K <= K) ->
  exists Qs, lspi_optimal p nA cell gamma D Qs /\
    (forall Q', lspi_optimal p nA cell gamma D Q' -> forall c a, (c < p)%nat -> (a < nA)%nat -> Q' c a = Qs c a) /\
    (forall c a, (c < p)%nat -> (a < nA)%nat -> Rabs (Qs c a) <= K) /\
    forall (w : nat -> vec), (forall k, w (S k) = lspi_step phi p nA gamma solve D (w k)) ->
    forall k x a, (a < nA)%nat ->
      qw phi p nA (w (S k)) x a <= qw phi p nA (w (S (S k))) x a <= Qs (cell x) a /\
      Qs (cell x) a - qw phi p nA (w (S k)) x a <= gamma ^ k * (2 * K).
Proof.
  intros X p nA cell gamma D phi solve K HA HG OH COV SOL HK Hr. pose proof (cell_lt p cell phi OH) as HC.
  destruct (fixed_exists p nA gamma (opt nA cell gamma D) HA HG (opt_H1 p nA cell gamma D HA HG HC COV)) as (Qs & FIX). exists Qs.
  split; [apply optimal_fixed; assumption|]. split; [|split].
  - intros Q' H' c a Hc Ha. apply optimal_fixed in H'; [|exact HA]. exact (fixed_unique p nA gamma _ HA HG (opt_H1 p nA cell gamma D HA HG HC COV) Qs Q' FIX H' c a Hc Ha).
  - apply (opt_bound p nA cell gamma D HA HG HC COV Qs FIX K HK Hr).
  - intros w HW k x a Ha.
    assert (E : forall k, w k = iter' p nA gamma D phi solve k (w 0%nat)) by (intros j; induction j as [|j IH]; [reflexivity|]; rewrite HW, IH; reflexivity).
    rewrite !(qw_tab p nA cell phi OH) by exact Ha. rewrite (E (S k)), (E (S (S k))).
    destruct (iter_close p nA cell gamma D phi solve HA HG OH COV SOL Qs FIX K HK Hr k (w 0%nat)) as (A & B & C).
    destruct (iter_close p nA cell gamma D phi solve HA HG OH COV SOL Qs FIX K HK Hr (S k) (w 0%nat)) as (A' & _ & _).
    pose proof (A _ _ (HC x) Ha). pose proof (B _ _ (HC x) Ha). pose proof (C _ _ (HC x) Ha). pose proof (A' _ _ (HC x) Ha). lra.
Qed.

(** The loop ends, and what it returns is optimal up to the threshold *)
Theorem lspi_table_terminates : forall (X : Type) p nA cell gamma (D : list (bsample X)) phi solve eps w0,
  (0 < nA)%nat -> 0 <= gamma < 1 -> one_hot_list p cell phi -> covers p nA cell D -> solves (p * nA) solve -> 0 < eps ->
  exists N w wo, (forall fuel, (N <= fuel)%nat -> lspi_loop phi p nA gamma solve fuel eps D w0 = Some (w, wo)) /\
    forall Qs, lspi_optimal p nA cell gamma D Qs ->
      (forall x a, (a < nA)%nat -> Rabs (qw phi p nA w x a - Qs (cell x) a) <= 2 * gamma * eps / (1 - gamma)) /\
      forall x a, (a < nA)%nat -> is_max (lspi_q phi p nA w x) (qw phi p nA w x a) ->
        forall b, (b < nA)%nat -> Qs (cell x) b - 4 * gamma * eps / (1 - gamma) <= Qs (cell x) a.
Proof.
  intros X p nA cell gamma D phi solve eps w0 HA HG OH COV SOL He. pose proof (cell_lt p cell phi OH) as HC.
  assert (BND : exists K, 0 <= K /\ forall x, In x D -> Rabs (b_r x) + gamma * K <= K).
  { assert (M : exists M, 0 <= M /\ forall x, In x D -> Rabs (b_r x) <= M).
    { clear. induction D as [|x l (M & HM & H)]; [exists 0; split; [lra|intros x []]|]. exists (Rmax M (Rabs (b_r x))).
      split; [eapply Rle_trans; [exact HM|apply Rmax_l]|]. intros y [<-|I]; [apply Rmax_r|eapply Rle_trans; [apply H; exact I|apply Rmax_l]]. }
    destruct M as (M & HM & H). exists (M / (1 - gamma)). assert (0 <= / (1 - gamma)) by (apply Rlt_le, Rinv_0_lt_compat; lra).
    split; [apply Rmult_le_pos; assumption|]. intros x I. specialize (H x I). assert (E : M / (1 - gamma) = M + gamma * (M / (1 - gamma))) by (field; lra). lra. }
  destruct BND as (K & HK & Hr).
  destruct (fixed_exists p nA gamma (opt nA cell gamma D) HA HG (opt_H1 p nA cell gamma D HA HG HC COV)) as (Q0 & FIX).
  assert (SMALL : exists k, vnorm p nA (vsub (iter' p nA gamma D phi solve (S (S k)) w0) (iter' p nA gamma D phi solve (S k) w0)) <= eps).
  { set (C := sqrt (INR (p * nA)) * (2 * K) + 1). assert (PC : 0 < C) by (pose proof (sqrt_pos (INR (p * nA))); unfold C; nra).
    destruct (pow_lt_1_zero gamma ltac:(rewrite Rabs_right; lra) (eps / C) ltac:(apply Rdiv_lt_0_compat; assumption)) as (k & Hk). exists k.
    specialize (Hk k (le_n k)). rewrite Rabs_right in Hk by (apply Rle_ge, pow_le; lra).
    assert (P : 0 <= gamma ^ k) by (apply pow_le; lra).
    eapply Rle_trans; [eapply coord_norm with (e := gamma ^ k * (2 * K)); try eassumption|].
    - apply Rmult_le_pos; lra.
    - intros c a Hc Ha. destruct (iter_close p nA cell gamma D phi solve HA HG OH COV SOL Q0 FIX K HK Hr k w0) as (A & B & C0).
      destruct (iter_close p nA cell gamma D phi solve HA HG OH COV SOL Q0 FIX K HK Hr (S k) w0) as (A' & _ & _).
      pose proof (A _ _ Hc Ha). pose proof (B _ _ Hc Ha). pose proof (C0 _ _ Hc Ha). pose proof (A' _ _ Hc Ha).
      change (Rabs (qv p (iter' p nA gamma D phi solve (S (S k)) w0) c a - qv p (iter' p nA gamma D phi solve (S k) w0) c a) <= gamma ^ k * (2 * K)).
      apply Rabs_le. lra.
    - assert (Z : gamma ^ k * C <= eps).
      { apply Rlt_le. apply Rmult_lt_reg_r with (/ C); [apply Rinv_0_lt_compat; exact PC|]. rewrite Rmult_assoc, Rinv_r, Rmult_1_r by lra. exact Hk. }
      unfold C in Z. nra. }
  destruct SMALL as (k & Hk). destruct (loop_ends p nA gamma D phi solve (S k) eps w0 Hk) as ([w wo] & E). exists (S (S k)), w, wo.
  split; [eapply loop_more; [exact HA|exact E]|]. intros Qs HQ. apply optimal_fixed in HQ; [|exact HA].
  destruct (loop_stop p nA gamma D phi solve _ _ _ _ _ E) as [EW EN].
  assert (CL : forall x a, (a < nA)%nat -> Rabs (qw phi p nA w x a - Qs (cell x) a) <= 2 * gamma * eps / (1 - gamma)).
  { intros x a Ha. rewrite (qw_tab p nA cell phi OH) by exact Ha.
    apply (pi_stop p nA cell gamma D HA HG HC COV Qs HQ (qv p wo) (qv p w) (nxt p nA D phi wo)); auto; [lra|apply step_greedy; assumption| |].
    - rewrite EW. apply step_fixed; assumption.
    - intros c b Hc Hb. change (Rabs (qv p (vsub w wo) c b) <= eps). apply (norm_coord p nA HA _ eps); auto. lra. }
  split; [exact CL|]. intros x a Ha [_ M] b Hb. pose proof (CL x a Ha) as A1. pose proof (CL x b Hb) as A2. apply BatchProps.Rabs_le_inv in A1. apply BatchProps.Rabs_le_inv in A2.
  assert (I : qw phi p nA w x b <= qw phi p nA w x a). { apply M. unfold qw. apply nth_In. rewrite lspi_q_len. exact Hb. }
  unfold Rdiv in *. nra.
Qed.

(** Without absorbing samples the optimal values of LSPI and of FQI are the same *)
Theorem lspi_fqi_agree : forall (X : Type) p nA cell gamma (D : list (bsample X)) w Q, (0 < nA)%nat -> covers p nA cell D -> (forall x, In x D -> b_abs x = false) ->
  (lspi_optimal p nA cell gamma D Q <-> empirical p nA cell gamma D w Q).
Proof.
  intros X p nA cell gamma D w Q HA COV NA.
  assert (BK : forall c a ys, Forall2 (lspi_backup nA cell gamma Q) (here cell D c a) ys <-> Forall2 (backup nA cell gamma Q) (here cell D c a) ys).
  { intros c a ys. assert (N : forall x, In x (here cell D c a) -> b_abs x = false) by (intros x I; apply filter_In in I as [I _]; auto).
    revert ys. induction (here cell D c a) as [|x h IH]; intros ys; split; intros F; inversion F; subst; constructor.
    - assert (AB := N x (or_introl eq_refl)). destruct H1 as [_ B]. split; [rewrite AB; discriminate|exact B].
    - apply IH; [intros z Iz; apply N; right; exact Iz|assumption].
    - assert (AB := N x (or_introl eq_refl)). destruct H1 as [_ B]. split; [rewrite AB; discriminate|exact B].
    - apply IH; [intros z Iz; apply N; right; exact Iz|assumption]. }
  split; intros H c a Hc Ha.
  - destruct (H c a Hc Ha) as (ys & F & E). split; [|split].
    + intros _. exists ys. split; [apply BK; exact F|exact E].
    + intros Z. exfalso. revert Z. apply (here_ne p nA cell D COV); assumption.
    + intros Z. exfalso. destruct (proj2 COV c a Hc Ha) as (x & I & _ & A). exact (Z x I A).
  - destruct (H c a Hc Ha) as (F & _ & _). destruct (F (here_ne p nA cell D COV c a Hc Ha)) as (ys & F' & E). exists ys. split; [apply BK; exact F'|exact E].
Qed.

(** ** numpy.linalg.solve exists: the pseudo-inverse solves the regular systems *)
Theorem pinv_solves : forall d pinv, (forall A, penrose d d A (pinv A)) -> solves d (fun A b => mv d (pinv A) b).
Proof.
  intros d pinv HP A b REG. destruct (HP A) as (H1 & _ & H3 & _). set (P := pinv A) in *.
  assert (PA : forall i j, (i < d)%nat -> (j < d)%nat -> mm d P A i j = eye i j).
  { intros i j Hi Hj. apply Rminus_diag_uniq. apply (REG (fun i => mm d P A i j - eye i j)); [|exact Hi]. intros k Hk.
    rewrite (sm_ext d _ (fun l => A k l * mm d P A l j - A k l * eye l j)) by (intros; ring). rewrite sm_minus.
    assert (E1 : sm d (fun l => A k l * mm d P A l j) = A k j).
    { rewrite <- (H1 k j Hk Hj). unfold mm. rewrite (sm_ext d _ (fun l => sm d (fun i0 => A k l * (P l i0 * A i0 j)))) by (intros; rewrite sm_scal; reflexivity).
      rewrite sm_swap. apply sm_ext. intros i0 _. rewrite <- sm_scal_r. apply sm_ext. intros. ring. }
    assert (E2 : sm d (fun l => A k l * eye l j) = A k j).
    { rewrite (sm_single d j); [unfold eye; rewrite Nat.eqb_refl; ring|exact Hj|]. intros i0 _ N. unfold eye. apply Nat.eqb_neq in N. rewrite N. ring. }
    rewrite E1, E2. ring. }
  (** I - AP is symmetric and idempotent with trace 0 *)
  set (M := fun i j => eye i j - mm d A P i j).
  assert (TR : sm d (fun i => M i i) = 0).
  { unfold M. rewrite sm_minus. assert (T : sm d (fun i => mm d A P i i) = sm d (fun i => mm d P A i i)).
    { unfold mm. rewrite sm_swap. apply sm_ext. intros. apply sm_ext. intros. ring. }
    rewrite T. rewrite (sm_ext d (fun i => mm d P A i i) (fun i => eye i i)) by (intros; apply PA; assumption). ring. }
  assert (ID : forall i j, (i < d)%nat -> (j < d)%nat -> mm d (mm d A P) (mm d A P) i j = mm d A P i j).
  { intros i j Hi Hj. unfold mm at 4. rewrite (sm_ext d (fun l => A i l * P l j) (fun l => mm d (mm d A P) A i l * P l j)) by (intros; rewrite H1 by assumption; reflexivity).
    unfold mm. rewrite (sm_ext d (fun l => sm d (fun l0 => A i l0 * P l0 l) * sm d (fun l0 => A l l0 * P l0 j)) (fun l => sm d (fun l0 => sm d (fun k => A i k * P k l) * A l l0 * P l0 j)))
      by (intros; rewrite <- sm_scal; apply sm_ext; intros; ring).
    rewrite sm_swap. apply sm_ext. intros l0 _. rewrite <- sm_scal_r. reflexivity. }
  assert (SQ : sm d (fun i => sm d (fun j => M i j ^ 2)) = 0).
  { rewrite <- TR. apply sm_ext. intros i Hi. unfold M.
    rewrite (sm_ext d _ (fun j => (eye i j * eye i j - 2 * (eye i j * mm d A P i j)) + mm d A P i j * mm d A P j i)) by (intros j Hj; rewrite (H3 j i Hj Hi); ring).
    rewrite sm_plus, sm_minus, sm_scal. change (sm d (fun j => mm d A P i j * mm d A P j i)) with (mm d (mm d A P) (mm d A P) i i). rewrite ID by assumption.
    assert (S1 : forall f : nat -> R, sm d (fun j => eye i j * f j) = f i).
    { intros f. rewrite (sm_single d i); [unfold eye; rewrite Nat.eqb_refl; ring|exact Hi|]. intros k _ N. unfold eye. apply not_eq_sym in N. apply Nat.eqb_neq in N. rewrite N. ring. }
    rewrite (S1 (fun j => eye i j)), (S1 (fun j => mm d A P i j)). ring. }
  assert (MZ : forall i j, (i < d)%nat -> (j < d)%nat -> M i j = 0).
  { intros i j Hi Hj. apply (sm_sq_zero d (fun j => M i j)); [|exact Hj].
    assert (NN : forall n f, (forall k, (k < n)%nat -> 0 <= f k) -> sm n f = 0 -> forall k, (k < n)%nat -> f k = 0).
    { clear. intros n f H Z k Hk. apply Rle_antisym; [|apply H; exact Hk]. rewrite <- Z. unfold sm. apply rsum_in_le.
      - intros y I. apply in_map_iff in I as (k0 & <- & I). apply in_seq in I. apply H. lia.
      - apply in_map, in_seq. lia. }
    apply (NN d (fun i => sm d (fun j => M i j ^ 2))); [|exact SQ|exact Hi]. intros. apply sm_nonneg. intros. apply pow2_ge_0. }
  intros j Hj. change (mv d A (mv d P b) j = b j). rewrite <- mv_mm.
  unfold mv. rewrite (sm_ext d _ (fun k => eye j k * b k)).
  - rewrite (sm_single d j); [unfold eye; rewrite Nat.eqb_refl; ring|exact Hj|]. intros k _ N. unfold eye. apply not_eq_sym in N. apply Nat.eqb_neq in N. rewrite N. ring.
  - intros k Hk. pose proof (MZ j k Hj Hk) as Z. unfold M in Z. replace (mm d A P j k) with (eye j k) by lra. reflexivity.
Qed.

(** ** An action that was never tried *)
(** One state, two actions; the only sample takes action 0 and costs 1 *)
Definition one_try : list (bsample unit) := [{| b_s := tt; b_a := 0%nat; b_r := -1; b_s' := tt; b_abs := false |}].
Definition unit_hot : one_hot_list 1 (fun _ : unit => 0%nat) (fun _ => [1]) := fun _ => conj Nat.lt_0_1 eq_refl.

Lemma pinv_row : forall (P A : mat) (b : vec) al be, penrose 2 2 A P -> A 0%nat 0%nat = al -> A 0%nat 1%nat = be -> A 1%nat 0%nat = 0 -> A 1%nat 1%nat = 0 -> b 1%nat = 0 ->
  0 < al * al + be * be -> mv 2 P b 0%nat = al * b 0%nat / (al * al + be * be) /\ mv 2 P b 1%nat = be * b 0%nat / (al * al + be * be).
Proof.
  intros P A b al be HP A0 A1 A2 A3 B1 POS. set (x := mv 2 P b). set (n := al * al + be * be) in *.
  set (y := fun k : nat => match k with O => al * b 0%nat / n | _ => be * b 0%nat / n end).
  assert (EY : err 2 2 A b y = 0).
  { unfold err, mv, sm. cbn [seq map rsum]. unfold y. rewrite A0, A1, A2, A3, B1. unfold n. field. fold n. lra. }
  pose proof (ls_min 2 2 A P b HP y) as L1. fold x in L1.
  assert (EX0 : 0 <= err 2 2 A b x) by (unfold err; apply sm_nonneg; intros; apply pow2_ge_0).
  assert (EX : err 2 2 A b x = 0) by lra.
  pose proof (ls_least 2 2 A P b HP y) as L2. fold x in L2. specialize (L2 ltac:(lra)).
  assert (R0 : al * x 0%nat + be * x 1%nat = b 0%nat).
  { unfold err, mv, sm in EX. cbn [seq map rsum] in EX. rewrite A0, A1, A2, A3, B1 in EX.
    assert (Z : (b 0%nat - (al * x 0%nat + be * x 1%nat)) ^ 2 = 0) by (ring_simplify in EX; ring_simplify; lra).
    assert (b 0%nat - (al * x 0%nat + be * x 1%nat) = 0) by (destruct (Req_dec (b 0%nat - (al * x 0%nat + be * x 1%nat)) 0) as [|N]; [assumption|]; exfalso; apply (pow_nonzero _ 2 N); exact Z). lra. }
  unfold dot, sm in L2. cbn [seq map rsum] in L2. unfold y in L2.
  set (t := be * x 0%nat - al * x 1%nat).
  assert (X0 : x 0%nat = (al * b 0%nat + be * t) / n) by (rewrite <- R0; unfold t, n; field; fold n; lra).
  assert (X1 : x 1%nat = (be * b 0%nat - al * t) / n) by (rewrite <- R0; unfold t, n; field; fold n; lra).
  assert (T : t * t <= 0).
  { rewrite X0, X1 in L2. assert (I : 0 < / n) by (apply Rinv_0_lt_compat; exact POS).
    replace ((al * b 0%nat + be * t) / n * ((al * b 0%nat + be * t) / n) + ((be * b 0%nat - al * t) / n * ((be * b 0%nat - al * t) / n) + 0)) with ((b 0%nat * b 0%nat + t * t) / n) in L2 by (unfold n; field; fold n; lra).
    replace (al * b 0%nat / n * (al * b 0%nat / n) + (be * b 0%nat / n * (be * b 0%nat / n) + 0)) with ((b 0%nat * b 0%nat) / n) in L2 by (unfold n; field; fold n; lra).
    unfold Rdiv in L2. apply Rmult_le_reg_r in L2; [lra|exact I]. }
  assert (T0 : t = 0) by (destruct (Req_dec t 0) as [|N]; [assumption|]; exfalso; destruct (Rdichotomy _ _ N); nra).
  rewrite T0 in X0, X1. split; [rewrite X0|rewrite X1]; f_equal; ring.
Qed.

(** LSPI gives the untried action a positive value and makes it the greedy one, though every reward
    in the data is negative; the tried action, worth -10 if repeated, gets -100/181 *)
Theorem lspi_untried_refuted : forall solve pinv, (forall A, penrose 2 2 A (pinv A)) -> (forall A b, ~ regular 2 A -> solve A b = mv 2 (pinv A) b) ->
  exists w wo, lspi_loop (fun _ => [1]) 1 2 (9 / 10) solve 3 (1 / 100) one_try (fun _ => 0) = Some (w, wo) /\
    qw (fun _ => [1]) 1 2 w tt 0 = - (100 / 181) /\ qw (fun _ => [1]) 1 2 w tt 1 = 90 / 181.
Proof.
  intros solve pinv HP HS.
  assert (PH : forall a k, (a < 2)%nat -> (k < 2)%nat -> lspi_phi (fun _ : unit => [1]) 2 tt a k = if Nat.eqb a k then 1 else 0).
  { intros a k Ha Hk. destruct a as [|[|]]; [| |lia]; (destruct k as [|[|]]; [| |lia]); reflexivity. }
  assert (STEP : forall w a, lspi_next (fun _ => [1]) 1 2 one_try w (hd {| b_s := tt; b_a := 0%nat; b_r := -1; b_s' := tt; b_abs := false |} one_try) = a -> (a < 2)%nat ->
    let w' := lspi_step (fun _ => [1]) 1 2 (9 / 10) solve one_try w in
    w' 0%nat = (if Nat.eqb a 0 then -10 else - (100 / 181)) /\ w' 1%nat = (if Nat.eqb a 0 then 0 else 90 / 181)).
  { intros w a HN Ha. cbv zeta. unfold lspi_step. set (A := lspi_A (fun _ => [1]) 1 2 (9 / 10) one_try w). set (b := lspi_b (fun _ => [1]) 2 one_try).
    assert (EA : forall j k, (j < 2)%nat -> (k < 2)%nat -> A j k = (if Nat.eqb 0 j then 1 else 0) * ((if Nat.eqb 0 k then 1 else 0) - 9 / 10 * (if Nat.eqb a k then 1 else 0))).
    { intros j k Hj Hk. unfold A, lspi_A, one_try. cbn [map rsum b_s b_a b_s']. cbn [hd one_try] in HN. fold one_try. rewrite HN, !PH by lia. ring. }
    assert (EB0 : b 0%nat = -1) by (unfold b, lspi_b, one_try; cbn [map rsum b_s b_a b_r]; rewrite PH by lia; cbn [Nat.eqb]; ring).
    assert (EB1 : b 1%nat = 0) by (unfold b, lspi_b, one_try; cbn [map rsum b_s b_a b_r]; rewrite PH by lia; cbn [Nat.eqb]; ring).
    assert (A00 := EA 0%nat 0%nat ltac:(lia) ltac:(lia)). assert (A01 := EA 0%nat 1%nat ltac:(lia) ltac:(lia)).
    assert (A10 := EA 1%nat 0%nat ltac:(lia) ltac:(lia)). assert (A11 := EA 1%nat 1%nat ltac:(lia) ltac:(lia)).
    assert (SING : ~ regular 2 A).
    { intros REG. pose proof (REG (fun k => match k with O => 9 / 10 * (if Nat.eqb a 1 then 1 else 0) | _ => 1 - 9 / 10 * (if Nat.eqb a 0 then 1 else 0) end)) as Z.
      assert (Q : forall j, (j < 2)%nat -> sm 2 (fun k => A j k * match k with O => 9 / 10 * (if Nat.eqb a 1 then 1 else 0) | _ => 1 - 9 / 10 * (if Nat.eqb a 0 then 1 else 0) end) = 0).
      { intros j Hj. unfold sm. cbn [seq map rsum]. rewrite !EA by lia. destruct a as [|[|]]; [| |lia]; cbn [Nat.eqb]; ring. }
      specialize (Z Q 1%nat ltac:(lia)). cbn beta iota in Z. destruct a as [|[|]]; [| |lia]; cbn [Nat.eqb] in Z; lra. }
    rewrite (HS A b SING). destruct (pinv_row (pinv A) A b _ _ (HP A) A00 A01) as [E0 E1]; try (rewrite ?A10, ?A11; cbn [Nat.eqb]; ring); try exact EB1.
    - destruct a as [|[|]]; [| |lia]; cbn [Nat.eqb]; lra.
    - rewrite E0, E1, EB0. destruct a as [|[|]]; [| |lia]; cbn [Nat.eqb]; split; field. }
  assert (NEXT : forall w x, lspi_next (fun _ => [1]) 1 2 one_try w x = if Rlt_dec (w 0%nat) (w 1%nat) then 1%nat else 0%nat).
  { intros w x. unfold lspi_next. cbn [existsb one_try b_abs orb]. rewrite (q_row 1 2 (fun _ : unit => 0%nat) (fun _ => [1]) unit_hot). reflexivity. }
  set (st := lspi_step (fun _ => [1]) 1 2 (9 / 10) solve one_try) in *.
  destruct (STEP (fun _ => 0) 0%nat) as [U0 U1]; [rewrite NEXT; destruct (Rlt_dec 0 0); [lra|reflexivity]|lia|]. fold (st (fun _ => 0)) in U0, U1. cbn [Nat.eqb] in U0, U1.
  set (w1 := st (fun _ => 0)) in *.
  destruct (STEP w1 1%nat) as [V0 V1]; [rewrite NEXT, U0, U1; destruct (Rlt_dec (-10) 0); [reflexivity|lra]|lia|]. cbn [Nat.eqb] in V0, V1.
  set (w2 := st w1) in *.
  destruct (STEP w2 1%nat) as [W0 W1]; [rewrite NEXT, V0, V1; destruct (Rlt_dec (- (100 / 181)) (90 / 181)); [reflexivity|lra]|lia|]. cbn [Nat.eqb] in W0, W1.
  set (w3 := st w2) in *.
  assert (NORM : forall v k, (k < 2)%nat -> Rabs (v k) <= vnorm 1 2 v).
  { intros v k Hk. rewrite <- sqrt_Rsqr_abs. unfold vnorm. apply sqrt_le_1_alt. unfold lspi_dim, sm. cbn [Nat.mul Nat.add seq map rsum].
    pose proof (pow2_ge_0 (v 0%nat)). pose proof (pow2_ge_0 (v 1%nat)). unfold Rsqr. destruct k as [|[|]]; [| |lia]; lra. }
  exists w3, w2. split; [|split].
  - assert (L : forall f w, lspi_loop (fun _ => [1]) 1 2 (9 / 10) solve (S f) (1 / 100) one_try w
      = if Rlt_dec (1 / 100) (vnorm 1 2 (vsub (st w) w)) then lspi_loop (fun _ => [1]) 1 2 (9 / 10) solve f (1 / 100) one_try (st w) else Some (st w, w)) by reflexivity.
    rewrite L. fold w1. destruct (Rlt_dec (1 / 100) (vnorm 1 2 (vsub w1 (fun _ => 0)))) as [_|C].
    2: { exfalso. apply C. eapply Rlt_le_trans; [|apply (NORM _ 0%nat ltac:(lia))]. unfold vsub. rewrite U0, Rabs_left by lra. lra. }
    rewrite L. fold w2. destruct (Rlt_dec (1 / 100) (vnorm 1 2 (vsub w2 w1))) as [_|C].
    2: { exfalso. apply C. eapply Rlt_le_trans; [|apply (NORM _ 0%nat ltac:(lia))]. unfold vsub. rewrite U0, V0, Rabs_right by lra. lra. }
    rewrite L. fold w3. destruct (Rlt_dec (1 / 100) (vnorm 1 2 (vsub w3 w2))) as [C|_]; [|reflexivity].
    exfalso. assert (Z : vnorm 1 2 (vsub w3 w2) = 0); [|lra]. unfold vnorm, lspi_dim, sm, vsub. cbn [Nat.mul Nat.add seq map rsum]. rewrite V0, V1, W0, W1.
    transitivity (sqrt 0); [f_equal; ring|apply sqrt_0].
  - rewrite (qw_tab 1 2 (fun _ : unit => 0%nat) (fun _ => [1]) unit_hot) by lia. exact W0.
  - rewrite (qw_tab 1 2 (fun _ : unit => 0%nat) (fun _ => [1]) unit_hot) by lia. exact W1.
Qed.

(** ** A case *)
(** Two states, the actions stay (0) and move (1); staying in the second state earns 1 *)
Definition moves : list (bsample nat) :=
  [{| b_s := 0%nat; b_a := 0%nat; b_r := 0; b_s' := 0%nat; b_abs := false |};
   {| b_s := 0%nat; b_a := 1%nat; b_r := 0; b_s' := 1%nat; b_abs := false |};
   {| b_s := 1%nat; b_a := 0%nat; b_r := 1; b_s' := 1%nat; b_abs := false |};
   {| b_s := 1%nat; b_a := 1%nat; b_r := 0; b_s' := 0%nat; b_abs := false |}].
Definition st2 (x : nat) : nat := if Nat.eqb x 0 then 0%nat else 1%nat.
Definition moves_Q (c a : nat) : R := match c, a with O, O => 1 / 2 | O, _ => 1 | _, O => 2 | _, _ => 1 / 2 end.

Example lspi_table_ex : covers 2 2 st2 moves /\ lspi_optimal 2 2 st2 (1 / 2) moves moves_Q /\
  exists N solve w wo, solves 4 solve /\
  let phi := fun x => map (fun j => if Nat.eqb j (st2 x) then 1 else 0) (seq 0 2) in
  lspi_loop phi 2 2 (1 / 2) solve N (1 / 100) moves (fun _ => 0) = Some (w, wo) /\
  Rabs (qw phi 2 2 w 0%nat 1 - 1) <= 1 / 50 /\ qw phi 2 2 w 0%nat 0 < qw phi 2 2 w 0%nat 1.
Proof.
  pose (z0 := {| b_s := 0%nat; b_a := 0%nat; b_r := 0; b_s' := 0%nat; b_abs := true |}).
  assert (COV : covers 2 2 st2 moves).
  { split; [intros x I; unfold moves in I; cbn [In] in I; destruct I as [<-|[<-|[<-|[<-|[]]]]]; cbn [b_a]; lia|]. intros c a Hc Ha. unfold moves.
    assert (P : forall k, (k < 4)%nat -> In (nth k moves z0) moves) by (intros k Hk; apply nth_In; exact Hk). unfold moves in P.
    destruct c as [|[|]]; [| |lia]; (destruct a as [|[|]]; [| |lia]).
    - eexists. split; [exact (P 0%nat ltac:(lia))|split; reflexivity].
    - eexists. split; [exact (P 1%nat ltac:(lia))|split; reflexivity].
    - eexists. split; [exact (P 2%nat ltac:(lia))|split; reflexivity].
    - eexists. split; [exact (P 3%nat ltac:(lia))|split; reflexivity]. }
  assert (M0 : is_max (map (moves_Q 0) (seq 0 2)) 1) by (cbn [seq map moves_Q]; split; [right; left; reflexivity|intros y [<-|[<-|[]]]; lra]).
  assert (M1 : is_max (map (moves_Q 1) (seq 0 2)) 2) by (cbn [seq map moves_Q]; split; [left; reflexivity|intros y [<-|[<-|[]]]; lra]).
  assert (OPT : lspi_optimal 2 2 st2 (1 / 2) moves moves_Q).
  { intros c a Hc Ha. exists [moves_Q c a]. split; [|unfold mean; cbn [rsum length INR]; field].
    destruct c as [|[|]]; [| |lia]; (destruct a as [|[|]]; [| |lia]).
    - change (here st2 moves 0 0) with [nth 0 moves z0]. apply Forall2_cons; [|apply Forall2_nil]. split; [intros E; discriminate E|]. intros _. exists 1. split; [exact M0|cbn [nth moves b_r moves_Q]; lra].
    - change (here st2 moves 0 1) with [nth 1 moves z0]. apply Forall2_cons; [|apply Forall2_nil]. split; [intros E; discriminate E|]. intros _. exists 2. split; [exact M1|cbn [nth moves b_r moves_Q]; lra].
    - change (here st2 moves 1 0) with [nth 2 moves z0]. apply Forall2_cons; [|apply Forall2_nil]. split; [intros E; discriminate E|]. intros _. exists 2. split; [exact M1|cbn [nth moves b_r moves_Q]; lra].
    - change (here st2 moves 1 1) with [nth 3 moves z0]. apply Forall2_cons; [|apply Forall2_nil]. split; [intros E; discriminate E|]. intros _. exists 1. split; [exact M0|cbn [nth moves b_r moves_Q]; lra]. }
  split; [exact COV|]. split; [exact OPT|]. destruct pinv_exists as (pinv & HP).
  set (solve := fun A b => mv 4 (pinv 4%nat 4%nat A) b). assert (SOL : solves 4 solve) by (apply pinv_solves; intros; apply HP).
  set (phi := fun x => map (fun j => if Nat.eqb j (st2 x) then 1 else 0) (seq 0 2)).
  assert (OH : one_hot_list 2 st2 phi) by (intros x; split; [unfold st2; destruct (Nat.eqb x 0); lia|reflexivity]).
  destruct (lspi_table_terminates nat 2 2 st2 (1 / 2) moves phi solve (1 / 100) (fun _ => 0) ltac:(lia) ltac:(lra) OH COV SOL ltac:(lra)) as (N & w & wo & E & B).
  destruct (B moves_Q OPT) as [C _]. exists N, solve, w, wo. split; [exact SOL|]. cbv zeta. fold phi. split; [apply E; lia|].
  pose proof (C 0%nat 1%nat ltac:(lia)) as C1. pose proof (C 0%nat 0%nat ltac:(lia)) as C0. change (moves_Q (st2 0) 1) with 1 in C1. change (moves_Q (st2 0) 0) with (1 / 2) in C0.
  split; [eapply Rle_trans; [exact C1|lra]|]. apply BatchProps.Rabs_le_inv in C1. apply BatchProps.Rabs_le_inv in C0. lra.
Qed.

Print Assumptions lspi_table_policy_iteration.
Print Assumptions lspi_table_terminates.
Print Assumptions lspi_fqi_agree.
Print Assumptions pinv_solves.
Print Assumptions lspi_untried_refuted.

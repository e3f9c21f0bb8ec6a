(** Theorems about PPO, A2C, ePPO and the agent preprocessors (C68, C69). *)
From Coq Require Import List Arith Lia Reals Lra Bool Permutation.
From Verif Require Import Common AdvModel UtilModel UtilProps PpoModel.
Import ListNotations.
Open Scope R_scope.

(** * The clipped objective *)

(** The objective of a sample never exceeds the unclipped one, agrees with it while the
    probability ratio is within eps of one, and can never promise more than eps times
    the size of the advantage over keeping the old policy. *)
Theorem ppo_surrogate : forall eps adv r, 0 <= eps ->
  surr eps adv r <= r * adv /\
  surr eps adv r <= adv + eps * Rabs adv /\
  (1 - eps <= r <= 1 + eps -> surr eps adv r = r * adv) /\
  (0 <= adv -> surr eps adv r = Rmin r (1 + eps) * adv) /\
  (adv <= 0 -> surr eps adv r = Rmax r (1 - eps) * adv).
Proof.
  intros eps adv r He. unfold surr, clamp.
  assert (Rabs adv = adv \/ Rabs adv = - adv) as HA by (unfold Rabs; destruct (Rcase_abs adv); auto).
  assert (- Rabs adv <= adv <= Rabs adv) as HB by (unfold Rabs; destruct (Rcase_abs adv); lra).
  assert (0 <= eps * (Rabs adv - adv)) by (apply Rmult_le_pos; lra).
  assert (0 <= eps * (Rabs adv + adv)) by (apply Rmult_le_pos; lra).
  assert (P : (0 <= adv -> Rmin (r * adv) (Rmin (Rmax r (1 - eps)) (1 + eps) * adv) = Rmin r (1 + eps) * adv)).
  { intros H1. destruct (Rle_dec r (1 - eps)) as [C|C]; [|destruct (Rle_dec r (1 + eps)) as [D|D]].
    - rewrite (Rmax_right r), (Rmin_left (1 - eps)), (Rmin_left r) by lra. apply Rmin_left. apply Rmult_le_compat_r; lra.
    - rewrite (Rmax_left r), (Rmin_left r) by lra. apply Rmin_left. lra.
    - rewrite (Rmax_left r), (Rmin_right r) by lra. apply Rmin_right. apply Rmult_le_compat_r; lra. }
  assert (Q : (adv <= 0 -> Rmin (r * adv) (Rmin (Rmax r (1 - eps)) (1 + eps) * adv) = Rmax r (1 - eps) * adv)).
  { intros H1. destruct (Rle_dec r (1 - eps)) as [C|C]; [|destruct (Rle_dec r (1 + eps)) as [D|D]].
    - rewrite (Rmax_right r), (Rmin_left (1 - eps)) by lra. apply Rmin_right. rewrite (Rmult_comm (1 - eps)), (Rmult_comm r). apply Rmult_le_compat_neg_l; lra.
    - rewrite (Rmax_left r), (Rmin_left r) by lra. apply Rmin_left. lra.
    - rewrite (Rmax_left r), (Rmin_right r) by lra. apply Rmin_left. rewrite (Rmult_comm (1 + eps)), (Rmult_comm r). apply Rmult_le_compat_neg_l; lra. }
  split; [apply Rmin_l|]. split.
  - destruct (Rle_dec 0 adv) as [C|C].
    + rewrite P by auto. rewrite (Rabs_pos_eq adv) by auto.
      assert (M : Rmin r (1 + eps) <= 1 + eps) by apply Rmin_r.
      apply (Rmult_le_compat_r adv) in M; lra.
    + rewrite Q by lra. rewrite (Rabs_left1 adv) by lra.
      assert (M : 1 - eps <= Rmax r (1 - eps)) by apply Rmax_r.
      apply (Rmult_le_compat_neg_l adv) in M; lra.
  - split; [|split]; auto.
    intros [H1 H2]. rewrite (Rmax_left r), (Rmin_left r) by lra. apply Rmin_left. lra.
Qed.

Example ppo_surrogate_demo : surr (1 / 5) 3 2 = 18 / 5 /\ surr (1 / 5) (-3) 2 = -6 /\ surr (1 / 5) (-3) (1 / 2) = - (12 / 5).
Proof.
  repeat split.
  - destruct (ppo_surrogate (1/5) 3 2 ltac:(lra)) as (_ & _ & _ & P & _). rewrite P by lra. rewrite Rmin_right by lra. lra.
  - destruct (ppo_surrogate (1/5) (-3) 2 ltac:(lra)) as (_ & _ & _ & _ & P). rewrite P by lra. rewrite Rmax_left by lra. lra.
  - destruct (ppo_surrogate (1/5) (-3) (1/2) ltac:(lra)) as (_ & _ & _ & _ & P). rewrite P by lra. rewrite Rmax_right by lra. lra.
Qed.

(** whether a sample has already left the trust interval in the direction its
    advantage asks for *)
Definition stopped (eps adv r : R) : Prop := (0 < adv /\ 1 + eps < r) \/ (adv < 0 /\ r < 1 - eps).

Lemma stopped_dec : forall eps adv r, {stopped eps adv r} + {~ stopped eps adv r}.
Proof.
  intros. unfold stopped.
  destruct (Rlt_dec 0 adv), (Rlt_dec (1 + eps) r), (Rlt_dec adv 0), (Rlt_dec r (1 - eps)); auto; right; intros [[? ?]|[? ?]]; lra.
Qed.

Lemma lim_local : forall f g x l d, 0 < d -> (forall z, x - d < z < x + d -> f z = g z) ->
  derivable_pt_lim f x l -> derivable_pt_lim g x l.
Proof.
  intros f g x l d Hd E D e He. destruct (D e He) as [del Hdel].
  assert (HM : 0 < Rmin del d) by (apply Rmin_pos; [apply cond_pos|auto]).
  exists (mkposreal _ HM). intros h Hh Hb. simpl in Hb.
  assert (Rabs h < del) by (eapply Rlt_le_trans; [apply Hb|apply Rmin_l]).
  assert (Rabs h < d) by (eapply Rlt_le_trans; [apply Hb|apply Rmin_r]).
  assert (- d < h < d) by (apply Rabs_def2 in H0; lra).
  rewrite <- !E by lra. apply Hdel; auto.
Qed.

Lemma surr_deriv : forall eps adv r, 0 <= eps -> r <> 1 - eps -> r <> 1 + eps ->
  derivable_pt_lim (surr eps adv) r (if stopped_dec eps adv r then 0 else adv).
Proof.
  intros eps adv r He H1 H2.
  assert (Hlin : derivable_pt_lim (fun z => z * adv) r adv).
  { pose proof (derivable_pt_lim_mult (fun z => z) (fun _ => adv) r 1 0 (derivable_pt_lim_id r) (derivable_pt_lim_const adv r)) as L.
    cbv beta in L. replace (1 * adv + r * 0) with adv in L by ring. exact L. }
  set (d := Rmin (Rabs (r - (1 - eps))) (Rabs (r - (1 + eps)))).
  assert (Hd : 0 < d) by (apply Rmin_pos; apply Rabs_pos_lt; lra).
  assert (Dl : d <= Rabs (r - (1 - eps))) by apply Rmin_l.
  assert (Dr : d <= Rabs (r - (1 + eps))) by apply Rmin_r.
  assert (S : forall z, r - d < z < r + d -> (r < 1 - eps -> z < 1 - eps) /\ (1 - eps < r -> 1 - eps < z) /\ (r < 1 + eps -> z < 1 + eps) /\ (1 + eps < r -> 1 + eps < z)).
  { intros z Hz. unfold Rabs in Dl, Dr. destruct (Rcase_abs (r - (1 - eps))), (Rcase_abs (r - (1 + eps))); repeat split; intros; lra. }
  destruct (stopped_dec eps adv r) as [[[A B]|[A B]]|N].
  - apply (lim_local (fun _ => (1 + eps) * adv) _ _ _ d Hd); [|apply derivable_pt_lim_const].
    intros z Hz. destruct (ppo_surrogate eps adv z He) as (_ & _ & _ & P & _). rewrite P by lra.
    rewrite Rmin_right; auto. destruct (S z Hz) as (_ & _ & _ & S'). specialize (S' B). lra.
  - apply (lim_local (fun _ => (1 - eps) * adv) _ _ _ d Hd); [|apply derivable_pt_lim_const].
    intros z Hz. destruct (ppo_surrogate eps adv z He) as (_ & _ & _ & _ & P). rewrite P by lra.
    rewrite Rmax_right; auto. destruct (S z Hz) as (S' & _). specialize (S' B). lra.
  - apply (lim_local (fun z => z * adv) _ _ _ d Hd); [|auto].
    intros z Hz. destruct (ppo_surrogate eps adv z He) as (_ & _ & _ & P & Q). destruct (S z Hz) as (S1 & S2 & S3 & S4).
    destruct (Rtotal_order adv 0) as [C|[C|C]].
    + rewrite Q by lra. rewrite Rmax_left; auto.
      assert (1 - eps < r) by (apply Rnot_le_lt; intro X; apply N; right; lra). specialize (S2 H). lra.
    + subst. rewrite P by lra. lra.
    + rewrite P by lra. rewrite Rmin_left; auto.
      assert (r < 1 + eps) by (apply Rnot_le_lt; intro X; apply N; left; lra). specialize (S3 H). lra.
Qed.

Lemma lim_rsum : forall A (f : A -> R -> R) (df : A -> R) l t,
  (forall q, In q l -> derivable_pt_lim (f q) t (df q)) ->
  derivable_pt_lim (fun z => rsum (map (fun q => f q z) l)) t (rsum (map df l)).
Proof.
  induction l as [|a l IH]; intros t H; simpl.
  - apply derivable_pt_lim_const.
  - apply (derivable_pt_lim_plus (f a) (fun z => rsum (map (fun q => f q z) l))).
    + apply H. left; auto.
    + apply IH. intros; apply H; right; auto.
Qed.

Lemma lim_tmean : forall A (f : A -> R -> R) (df : A -> R) l t,
  (forall q, In q l -> derivable_pt_lim (f q) t (df q)) ->
  derivable_pt_lim (fun z => tmean (map (fun q => f q z) l)) t (tmean (map df l)).
Proof.
  intros A f df l t H. unfold tmean. rewrite map_length.
  replace (rsum (map df l) / INR (length l)) with (/ INR (length l) * rsum (map df l)) by (unfold Rdiv; ring).
  apply (lim_local (fun z => / INR (length l) * rsum (map (fun q => f q z) l)) _ _ _ 1); [lra| |].
  - intros. rewrite map_length. unfold Rdiv. ring.
  - apply derivable_pt_lim_scal. apply lim_rsum; auto.
Qed.

Section Grad.
Context {W X Ac : Type}.
Variables (logp : W -> X -> Ac -> R) (ent : W -> list X -> R).

Lemma ratio_deriv : forall (g : R -> W) t q d,
  derivable_pt_lim (fun z => logp (g z) (p_x q) (p_a q)) t d ->
  derivable_pt_lim (fun z => ratio logp (g z) q) t (ratio logp (g t) q * d).
Proof.
  intros g t q d D. unfold ratio.
  assert (D' : derivable_pt_lim (fun z => logp (g z) (p_x q) (p_a q) - p_old q) t (d - 0))
    by (apply (derivable_pt_lim_minus (fun z => logp (g z) (p_x q) (p_a q)) (fun _ => p_old q)); [auto|apply derivable_pt_lim_const]).
  rewrite Rminus_0_r in D'.
  apply (derivable_pt_lim_comp (fun z => logp (g z) (p_x q) (p_a q) - p_old q) exp); [auto|apply derivable_pt_lim_exp].
Qed.

(** The gradient of the loss, along any differentiable path of weights: the samples
    that already moved beyond the trust interval in the direction of their advantage
    contribute nothing, each other sample contributes ratio * advantage * score. *)
Theorem ppo_loss_gradient : forall (g : R -> W) t eps c (b : list (@prow X Ac)) (score : prow -> R) dent,
  0 <= eps ->
  (forall q, In q b -> derivable_pt_lim (fun z => logp (g z) (p_x q) (p_a q)) t (score q)) ->
  derivable_pt_lim (fun z => ent (g z) (map p_x b)) t dent ->
  (forall q, In q b -> ratio logp (g t) q <> 1 - eps /\ ratio logp (g t) q <> 1 + eps) ->
  derivable_pt_lim (fun z => ppo_loss logp ent eps c b (g z)) t
    (- tmean (map (fun q => if stopped_dec eps (p_adv q) (ratio logp (g t) q) then 0
                            else ratio logp (g t) q * p_adv q * score q) b) - c * dent).
Proof.
  intros g t eps c b score dent He Hs Hd Hk. unfold ppo_loss.
  apply (derivable_pt_lim_minus (fun z => - tmean (map (fun q => surr eps (p_adv q) (ratio logp (g z) q)) b)) (fun z => c * ent (g z) (map p_x b))).
  - apply (derivable_pt_lim_opp (fun z => tmean (map (fun q => surr eps (p_adv q) (ratio logp (g z) q)) b))).
    apply (lim_tmean _ (fun q z => surr eps (p_adv q) (ratio logp (g z) q))).
    intros q Hq. destruct (Hk q Hq) as [K1 K2].
    pose proof (surr_deriv eps (p_adv q) _ He K1 K2) as DS.
    pose proof (derivable_pt_lim_comp (fun z => ratio logp (g z) q) (surr eps (p_adv q)) t _ _ (ratio_deriv g t q _ (Hs q Hq)) DS) as DC.
    unfold comp in DC.
    match goal with |- derivable_pt_lim _ _ ?l => match type of DC with derivable_pt_lim _ _ ?l' => replace l with l' end end; auto.
    destruct (stopped_dec eps (p_adv q) (ratio logp (g t) q)); ring.
  - apply (derivable_pt_lim_scal (fun z => ent (g z) (map p_x b))). auto.
Qed.
End Grad.

(** A batch of two samples and a Gaussian policy with mean [w * x]: both hypotheses hold
    and only one of the samples still pushes the weight. *)
Example ppo_loss_gradient_demo :
  let logp := fun (w x a : R) => - (a - w * x) * (a - w * x) / 2 in
  let b := [mkP 1 0 1 (- 2); mkP 2 3 (-1) (-1 / 2)] in
  derivable_pt_lim (ppo_loss logp (fun _ _ => 0) (1 / 5) 0 b) 1
    (- tmean [0; 1 * -1 * 2] - 0 * 0).
Proof.
  intros logp b.
  assert (R1 : ratio logp 1 (mkP 1 0 1 (- 2)) = exp (3 / 2)) by (unfold ratio, logp; simpl; f_equal; lra).
  assert (R2 : ratio logp 1 (mkP 2 3 (-1) (- 1 / 2)) = 1) by (transitivity (exp 0); [unfold ratio, logp; simpl; f_equal; lra|apply exp_0]).
  assert (G1 : 1 + 3 / 2 < exp (3 / 2)) by (apply exp_ineq1; lra).
  pose proof (ppo_loss_gradient logp (fun _ _ => 0) (fun z => z) 1 (1 / 5) 0 b
                (fun q => (p_a q - 1 * p_x q) * p_x q) 0) as T.
  replace [0; 1 * -1 * 2] with
    (map (fun q => if stopped_dec (1/5) (p_adv q) (ratio logp 1 q) then 0 else ratio logp 1 q * p_adv q * ((p_a q - 1 * p_x q) * p_x q)) b).
  - apply T; [lra| | |].
    + intros q Hq. unfold logp.
      assert (D : derivable_pt_lim (fun z => (- / 2) * ((p_a q - z * p_x q) * (p_a q - z * p_x q))) 1
                 (- / 2 * ((0 - (1 * p_x q + 1 * 0)) * (p_a q - 1 * p_x q) + (p_a q - 1 * p_x q) * (0 - (1 * p_x q + 1 * 0))))).
      { apply derivable_pt_lim_scal.
        assert (L : derivable_pt_lim (fun z => p_a q - z * p_x q) 1 (0 - (1 * p_x q + 1 * 0))).
        { apply (derivable_pt_lim_minus (fun _ => p_a q) (fun z => z * p_x q)); [apply derivable_pt_lim_const|].
          apply (derivable_pt_lim_mult (fun z => z) (fun _ => p_x q)); [apply derivable_pt_lim_id|apply derivable_pt_lim_const]. }
        apply (derivable_pt_lim_mult (fun z => p_a q - z * p_x q) (fun z => p_a q - z * p_x q)); auto. }
      eapply (lim_local _ _ _ _ 1); [lra| |].
      2: { match type of D with derivable_pt_lim _ _ ?l => replace ((p_a q - 1 * p_x q) * p_x q) with l by field end. apply D. }
      intros z _. simpl. field.
    + apply derivable_pt_lim_const.
    + intros q [<-|[<-|[]]]; rewrite ?R1, ?R2; lra.
  - unfold b. cbn [map p_adv p_a p_x]. f_equal; [|f_equal].
    + destruct (stopped_dec _ _ _) as [_|N]; auto. exfalso. apply N. rewrite R1. left. lra.
    + destruct (stopped_dec _ _ _) as [[S|S]|N]; [rewrite R2 in S; lra..|]. rewrite R2. lra.
Qed.

(** * Advantage normalisation *)

Lemma rsum_scale : forall c l, rsum (map (fun x => c * x) l) = c * rsum l.
Proof. induction l; simpl; [lra|rewrite IHl; lra]. Qed.

Lemma rsum_center : forall m l, rsum (map (fun x => x - m) l) = rsum l - INR (length l) * m.
Proof.
  induction l as [|a l IH]; [simpl; lra|].
  cbn [map rsum]. rewrite IH. change (length (a :: l)) with (S (length l)). rewrite S_INR. lra.
Qed.

(** The normalised advantages have mean zero and (unbiased) deviation s / (s + 1e-8),
    they are in the same order as the raw ones and unaffected by a common shift of the
    raw ones; they exist exactly when there are two or more samples. *)
Theorem advantage_normalised : forall l,
  (normalise l = None <-> (length l < 2)%nat) /\
  forall l', normalise l = Some l' ->
    length l' = length l /\ rsum l' = 0 /\
    (exists s, 0 <= s /\ s * s * (INR (length l) - 1) = rsum (map (fun x => (x - tmean l) * (x - tmean l)) l) /\
       rsum (map (fun x => x * x) l') = (INR (length l) - 1) * ((s / (s + / 10 ^ 8)) * (s / (s + / 10 ^ 8)))) /\
    (forall i j, (i < length l)%nat -> (j < length l)%nat -> nth i l 0 < nth j l 0 -> nth i l' 0 < nth j l' 0) /\
    (forall k, normalise (map (fun x => x + k) l) = Some l').
Proof.
  intros l. split.
  { unfold normalise, tstd. destruct (Nat.ltb (length l) 2) eqn:E.
    - apply Nat.ltb_lt in E. tauto.
    - apply Nat.ltb_ge in E. split; [discriminate|lia]. }
  assert (He : 0 < / 10 ^ 8) by (apply Rinv_0_lt_compat; lra).
  unfold normalise. remember (/ 10 ^ 8) as e8 eqn:E8. clear E8.
  intros l' H. destruct (tstd l) as [s|] eqn:Es; [|discriminate].
  inversion H; subst l'; clear H. unfold tstd in Es.
  destruct (Nat.ltb (length l) 2) eqn:E; [discriminate|]. apply Nat.ltb_ge in E.
  inversion Es as [Hs]. clear Es.
  assert (HN : 2 <= INR (length l)) by (replace 2 with (INR 2) by (simpl; lra); apply le_INR; lia).
  set (V := rsum (map (fun x => (x - tmean l) * (x - tmean l)) l)) in *.
  assert (HV : 0 <= V).
  { unfold V. apply rsum_nonneg. intros y Hy. apply in_map_iff in Hy. destruct Hy as (x & <- & _). apply Rle_0_sqr. }
  assert (HVn : 0 <= V / (INR (length l) - 1)) by (apply Rmult_le_pos; [auto|apply Rlt_le, Rinv_0_lt_compat; lra]).
  assert (H0 : 0 <= s) by (rewrite <- Hs; apply sqrt_pos).
  assert (Hss : s * s = V / (INR (length l) - 1)) by (rewrite <- Hs; apply sqrt_sqrt; auto).
  rewrite Hs. set (D := s + e8). assert (HD : 0 < D) by (unfold D; lra).
  assert (HM : rsum (map (fun x => x - tmean l) l) = 0).
  { rewrite rsum_center. unfold tmean. field. lra. }
  split; [apply map_length|]. split.
  { transitivity (/ D * rsum (map (fun x => x - tmean l) l)); [|rewrite HM; lra].
    rewrite <- rsum_scale, map_map. f_equal. apply map_ext. intros. unfold Rdiv. ring. }
  split.
  { exists s. split; auto. split; [rewrite Hss; field; lra|]. rewrite map_map.
    transitivity ((/ D * / D) * V).
    - unfold V. rewrite <- rsum_scale, map_map. f_equal. apply map_ext. intros. field. lra.
    - replace V with (s * s * (INR (length l) - 1)) by (rewrite Hss; field; lra). change (s + e8) with D. field. lra. }
  split.
  { intros i j Hi Hj L.
    rewrite (nth_indep _ 0 ((0 - tmean l) / D)) by (rewrite map_length; auto).
    rewrite (nth_indep (map _ l) 0 ((0 - tmean l) / D)) by (rewrite map_length; auto).
    rewrite !(map_nth (fun x => (x - tmean l) / D)).
    apply Rmult_lt_compat_r; [apply Rinv_0_lt_compat; auto|lra]. }
  intros k. unfold tstd. rewrite map_length.
  replace (Nat.ltb (length l) 2) with false by (symmetry; apply Nat.ltb_ge; auto).
  assert (HT : tmean (map (fun x => x + k) l) = tmean l + k).
  { unfold tmean. rewrite map_length.
    replace (rsum (map (fun x => x + k) l)) with (rsum l + INR (length l) * k).
    - field. lra.
    - transitivity (rsum (map (fun x => x - - k) l)); [rewrite rsum_center; ring|]. f_equal. apply map_ext. intros; ring. }
  rewrite HT. rewrite (map_map (fun x => x + k) (fun x => (x - (tmean l + k)) * (x - (tmean l + k)))).
  replace (map (fun x => (x + k - (tmean l + k)) * (x + k - (tmean l + k))) l) with (map (fun x => (x - tmean l) * (x - tmean l)) l)
    by (apply map_ext; intros; ring).
  fold V. rewrite Hs, map_map. fold D. f_equal. apply map_ext. intros. f_equal. ring.
Qed.

Example advantage_normalised_demo : exists l', normalise [1; 3] = Some l' /\ length l' = 2%nat.
Proof. eexists. split; [reflexivity|reflexivity]. Qed.

(** * The update *)

Lemma mc_length : forall gamma l q adv, compute_advantage_mc gamma l = Some (q, adv) -> length adv = length l.
Proof.
  intros gamma l q adv M. assert (LM : forall a l', length (mc_q gamma a l') = length l') by (induction l'; simpl; auto).
  unfold compute_advantage_mc in M. destruct l as [|x [|y l]]; [discriminate..|].
  set (ll := x :: y :: l) in *. assert (EA : adv = snd (q, adv)) by reflexivity. rewrite EA.
  assert (EM : Some (q, adv) = Some (mc_q gamma (g_vn (last ll x)) ll, map (fun p => fst p - g_v (snd p)) (combine (mc_q gamma (g_vn (last ll x)) ll) ll))) by (symmetry; exact M).
  assert (EM' : (q, adv) = (mc_q gamma (g_vn (last ll x)) ll, map (fun p => fst p - g_v (snd p)) (combine (mc_q gamma (g_vn (last ll x)) ll) ll))) by congruence.
  rewrite EM'. cbn [snd]. rewrite map_length, combine_length, LM. apply Nat.min_id.
Qed.

Section Upd.
Context {W X Ac Pp Cr : Type}.
Variables (logp : W -> X -> Ac -> R) (ent : W -> list X -> R) (opt : W -> (W -> R) -> W).
Variables (call : Pp -> X -> X) (pupd : Pp -> list X -> Pp) (val : Cr -> X -> R) (cfit : Cr -> list X -> list R -> Cr).

(** Each epoch goes through every row exactly once, in minibatches of at most the batch
    size, and there is one optimizer step per minibatch. *)
Theorem ppo_epochs : forall (d : @prow X Ac) bs perms rows, (1 <= bs)%nat ->
  (forall perm, In perm perms -> Permutation perm (seq 0 (length rows))) ->
  exists ep, epoch_batches d bs perms rows = concat ep /\ length ep = length perms /\
    (forall bl, In bl ep -> Permutation (concat bl) rows /\ length bl = minibatch_number (length rows) bs /\
                           (forall b, In b bl -> (1 <= length b <= bs)%nat)) /\
    length (epoch_batches d bs perms rows) = (length perms * minibatch_number (length rows) bs)%nat.
Proof.
  intros d bs perms rows Hb HP.
  exists (map (fun perm => row_batches d bs perm rows) perms).
  assert (EE : epoch_batches d bs perms rows = concat (map (fun perm => row_batches d bs perm rows) perms))
    by (unfold epoch_batches; apply flat_map_concat_map).
  assert (B : forall perm, In perm perms -> Permutation (concat (row_batches d bs perm rows)) rows /\
             length (row_batches d bs perm rows) = minibatch_number (length rows) bs /\
             (forall b, In b (row_batches d bs perm rows) -> (1 <= length b <= bs)%nat)).
  { intros perm Hp. unfold row_batches.
    destruct (minibatches_partition _ d bs perm [rows] (length rows) Hb) as (idxs & EM & CC & N1 & N2 & LI & PP); auto.
    { discriminate. }
    { intros a [<-|[]]; auto. }
    assert (LN : length idxs = minibatch_number (length rows) bs).
    { apply (f_equal (@length _)) in EM. rewrite map_length in EM. rewrite <- EM. unfold minibatches. rewrite map_length, seq_length. reflexivity. }
    split; [apply (PP 0%nat rows); reflexivity|]. split; [rewrite EM, !map_length; auto|].
    intros b Hin. rewrite EM, map_map in Hin. apply in_map_iff in Hin. destruct Hin as (idx & <- & Hin).
    cbn [map nth]. rewrite map_length. apply (In_nth _ _ []) in Hin. destruct Hin as (i & Hi & <-).
    rewrite LI by auto. destruct (Nat.eqb (S i) (length idxs)) eqn:E; [|lia]. apply Nat.eqb_eq in E. nia. }
  split; auto. split; [apply map_length|]. split.
  - intros bl Hin. apply in_map_iff in Hin. destruct Hin as (perm & <- & Hp). apply B; auto.
  - rewrite EE. clear EE. induction perms as [|p perms IH]; [reflexivity|].
    cbn [map concat]. rewrite app_length, IH; [|intros; apply HP; right; auto|intros; apply B; right; auto].
    destruct (B p) as (_ & -> & _); [left; auto|]. simpl. reflexivity.
Qed.

Lemma fit_rows_inv : forall gamma lam (ag : @agent W Pp Cr) (ds : list (@trans X Ac)) ps' vt rows,
  fit_rows logp call pupd val gamma lam ag ds = Some (ps', vt, rows) ->
  ps' = upd_all call pupd (a_ps ag) (map t_s ds) /\
  exists adv', normalise (snd (compute_gae gamma lam (gae_rows call val (a_cr ag) ps' ds))) = Some adv' /\
    length adv' = length ds /\
    rows = map (fun p => mkP (prep_all call ps' (t_s (fst p))) (t_a (fst p)) (snd p)
                          (logp (a_w ag) (prep_all call (a_ps ag) (t_s (fst p))) (t_a (fst p)))) (combine ds adv').
Proof.
  intros gamma lam ag ds ps' vt rows H. unfold fit_rows in H. unfold compute_gae in *.
  match type of H with obind (normalise ?a) _ = _ => destruct (normalise a) as [adv'|] eqn:E; [|discriminate] end.
  cbn [obind] in H. inversion H; subst ps' rows. split; auto. exists adv'. split; [exact E|]. split; auto.
  apply advantage_normalised in E. destruct E as [E _]. rewrite E.
  assert (LG : forall l, length (gae gamma lam l) = length l) by (induction l; simpl; auto).
  rewrite LG. unfold gae_rows. apply map_length.
Qed.

(** The rows handed to the policy update: one per transition, with its action and its
    advantage computed from the critic before it is fitted. The probability ratio
    compares the current policy with the probability of the action under the weights
    and the preprocessors that were in force when the action was drawn. *)
Theorem ppo_fit_rows : forall gamma lam (ag : @agent W Pp Cr) (ds : list (@trans X Ac)) ps' vt rows,
  fit_rows logp call pupd val gamma lam ag ds = Some (ps', vt, rows) ->
  length rows = length ds /\
  (exists adv', normalise (snd (compute_gae gamma lam (gae_rows call val (a_cr ag) ps' ds))) = Some adv' /\ map p_adv rows = adv') /\
  forall i t q w, nth_error ds i = Some t -> nth_error rows i = Some q ->
    p_a q = t_a t /\
    ratio logp w q = exp (logp w (prep_all call ps' (t_s t)) (t_a t)) / exp (logp (a_w ag) (acting_state call ag (t_s t)) (t_a t)).
Proof.
  intros gamma lam ag ds ps' vt rows H. apply fit_rows_inv in H. destruct H as (Hp & adv' & N & L & R).
  split; [rewrite R, map_length, combine_length; lia|]. split.
  - exists adv'. split; auto. rewrite R, map_map. cbn [p_adv]. clear R N Hp. revert adv' L.
    induction ds as [|t ds IH]; destruct adv' as [|a adv']; simpl; intros L; try discriminate; auto. f_equal. apply IH. lia.
  - intros i t q w Hi Hq. rewrite R, nth_error_map in Hq.
    destruct (nth_error (combine ds adv') i) as [[t' a]|] eqn:E; [|discriminate].
    assert (t' = t).
    { clear - Hi E. revert adv' ds Hi E. induction i; intros adv' ds Hi E; destruct ds as [|x ds], adv' as [|y adv']; simpl in *; try discriminate.
      - congruence.
      - eapply (IHi adv'); eauto. }
    subst t'. cbn [option_map] in Hq. inversion Hq; subst q. cbn [fst snd p_a]. split; auto.
    unfold ratio. cbn [p_x p_a p_old]. unfold acting_state. unfold Rminus. rewrite exp_plus, exp_Ropp. reflexivity.
Qed.

(** The first step of an update is a plain policy-gradient step: if the preprocessors
    did not change on these states (in particular if there are none) every ratio starts
    at one and the gradient of the loss of any minibatch is
    - mean(advantage * score) - coefficient * entropy gradient. *)
Theorem ppo_first_step : forall gamma lam (ag : @agent W Pp Cr) (ds : list (@trans X Ac)) ps' vt rows,
  fit_rows logp call pupd val gamma lam ag ds = Some (ps', vt, rows) ->
  (forall t, In t ds -> prep_all call ps' (t_s t) = acting_state call ag (t_s t)) ->
  forall b eps c, incl b rows -> 0 < eps ->
  (forall q, In q b -> ratio logp (a_w ag) q = 1) /\
  forall (g : R -> W) t0 (score : prow -> R) dent, g t0 = a_w ag ->
    (forall q, In q b -> derivable_pt_lim (fun z => logp (g z) (p_x q) (p_a q)) t0 (score q)) ->
    derivable_pt_lim (fun z => ent (g z) (map p_x b)) t0 dent ->
    derivable_pt_lim (fun z => ppo_loss logp ent eps c b (g z)) t0
      (- tmean (map (fun q => p_adv q * score q) b) - c * dent).
Proof.
  intros gamma lam ag ds ps' vt rows H HU b eps c HB He.
  pose proof (ppo_fit_rows _ _ _ _ _ _ _ H) as (L & _ & PR).
  assert (R1 : forall q, In q b -> ratio logp (a_w ag) q = 1).
  { intros q Hq. apply HB, In_nth_error in Hq. destruct Hq as (i & Hi).
    destruct (nth_error ds i) as [t|] eqn:E.
    - destruct (PR i t q (a_w ag) E Hi) as [_ ->]. rewrite HU by (apply nth_error_In in E; auto).
      apply Rinv_r. apply Rgt_not_eq, exp_pos.
    - apply nth_error_None in E. assert (i < length rows)%nat by (apply nth_error_Some; congruence). lia. }
  split; auto. intros g t0 score dent Hg Hs Hd.
  pose proof (ppo_loss_gradient logp ent g t0 eps c b score dent (Rlt_le _ _ He) Hs Hd) as T.
  rewrite Hg in T.
  assert (K : forall q, In q b -> ratio logp (a_w ag) q <> 1 - eps /\ ratio logp (a_w ag) q <> 1 + eps)
    by (intros q Hq; rewrite (R1 q Hq); split; lra).
  specialize (T K).
  match goal with |- derivable_pt_lim _ _ (- ?a - _) => match type of T with derivable_pt_lim _ _ (- ?b - _) => replace a with b end end; auto.
  f_equal. apply map_ext_in. intros q Hq. rewrite (R1 q Hq).
  destruct (stopped_dec _ _ _) as [[S|S]|_]; lra.
Qed.

(** A fit on a dataset with a single transition produces NaN advantages. *)
Theorem ppo_single_transition_refuted : forall gamma lam eps cs bs d perms (ag : @agent W Pp Cr) (t : @trans X Ac),
  ppo_fit logp ent opt call pupd val cfit gamma lam eps cs bs d perms ag [t] = None.
Proof. reflexivity. Qed.

(** with two or more transitions it never does *)
Theorem ppo_fit_defined : forall gamma lam eps cs bs d perms (ag : @agent W Pp Cr) (ds : list (@trans X Ac)),
  (2 <= length ds)%nat ->
  ppo_fit logp ent opt call pupd val cfit gamma lam eps cs bs d perms ag ds <> None.
Proof.
  intros gamma lam eps cs bs d perms ag ds H E. unfold ppo_fit, fit_rows in E. unfold compute_gae in E.
  match type of E with obind (obind (normalise ?a) _) _ = _ => destruct (normalise a) as [adv'|] eqn:N end; [discriminate E|].
  apply (proj1 (advantage_normalised _)) in N.
  assert (LG : forall l, length (gae gamma lam l) = length l) by (induction l; simpl; auto).
  rewrite LG in N. unfold gae_rows in N. rewrite map_length in N. lia.
Qed.

(** Preprocessing is transparent to the update: apart from the old log-probabilities, a fit is
    the fit of an agent without preprocessors on the dataset whose states and next states
    were processed by the updated preprocessors; the critic is the same in both. *)
Definition prepped (ps : list Pp) (t : @trans X Ac) : trans :=
  {| t_s := prep_all call ps (t_s t); t_a := t_a t; t_r := t_r t; t_ns := prep_all call ps (t_ns t);
     t_abs := t_abs t; t_last := t_last t |}.
Theorem ppo_fit_preprocessed : forall gamma lam eps cs bs d perms (ag ag' : @agent W Pp Cr) (ds : list (@trans X Ac)),
  ppo_fit logp ent opt call pupd val cfit gamma lam eps cs bs d perms ag ds = Some ag' ->
  a_ps ag' = upd_all call pupd (a_ps ag) (map t_s ds) /\
  exists ag2 vt rows rows2,
  ppo_fit logp ent opt call pupd val cfit gamma lam eps cs bs d perms {| a_w := a_w ag; a_ps := []; a_cr := a_cr ag |} (map (prepped (a_ps ag')) ds) = Some ag2 /\
  a_cr ag' = a_cr ag2 /\
  fit_rows logp call pupd val gamma lam ag ds = Some (a_ps ag', vt, rows) /\
  fit_rows logp call pupd val gamma lam {| a_w := a_w ag; a_ps := []; a_cr := a_cr ag |} (map (prepped (a_ps ag')) ds) = Some ([], vt, rows2) /\
  map (fun q => (p_x q, p_a q, p_adv q)) rows = map (fun q => (p_x q, p_a q, p_adv q)) rows2.
Proof.
  intros gamma lam eps cs bs d perms ag ag' ds E. unfold ppo_fit in E.
  destruct (fit_rows logp call pupd val gamma lam ag ds) as [[[ps' vt] rows]|] eqn:F; [|discriminate]. cbn [obind] in E. inversion E; subst ag'; clear E.
  cbn [a_ps a_cr]. pose proof F as F0. unfold fit_rows in F.
  destruct (compute_gae gamma lam (gae_rows call val (a_cr ag) (upd_all call pupd (a_ps ag) (map t_s ds)) ds)) as [vt0 adv] eqn:G.
  destruct (normalise adv) as [adv'|] eqn:N; [|discriminate]. cbn [obind] in F. inversion F; subst ps' vt0; clear F.
  set (ps' := upd_all call pupd (a_ps ag) (map t_s ds)) in *.
  split; [reflexivity|].
  assert (F2 : exists rows2, fit_rows logp call pupd val gamma lam {| a_w := a_w ag; a_ps := []; a_cr := a_cr ag |} (map (prepped ps') ds) = Some ([], vt, rows2) /\
     rows2 = map (fun p => mkP (t_s (fst p)) (t_a (fst p)) (snd p) (logp (a_w ag) (t_s (fst p)) (t_a (fst p)))) (combine (map (prepped ps') ds) adv')).
  { eexists. split; [|reflexivity]. unfold fit_rows. cbn [a_w a_ps a_cr upd_all].
    replace (gae_rows call val (a_cr ag) [] (map (prepped ps') ds)) with (gae_rows call val (a_cr ag) ps' ds)
      by (unfold gae_rows; rewrite map_map; reflexivity).
    rewrite G, N. reflexivity. }
  destruct F2 as (rows2 & F2 & R2). eexists _, vt, rows, rows2. split; [|split; [|split; [congruence|split; [exact F2|]]]].
  - unfold ppo_fit. rewrite F2. reflexivity.
  - cbn [a_cr]. rewrite map_map. reflexivity.
  - match goal with H : map _ (combine ds _) = rows |- _ => rewrite <- H end. rewrite R2, !map_map. cbn [p_x p_a p_adv].
    assert (L : forall (l : list (@trans X Ac)) (a : list R), combine (map (prepped ps') l) a = map (fun p => (prepped ps' (fst p), snd p)) (combine l a)).
    { intros l. induction l as [|t0 l IH]; intros [|a1 a]; simpl; auto. f_equal. auto. }
    rewrite L, map_map. reflexivity.
Qed.

(** * Agent preprocessors (C69) *)

(** Updating the chain: preprocessor i sees the batch as processed by the updated
    preprocessors before it. *)
Theorem agent_preprocessors_update : forall ps (xs : list X), 
  length (upd_all call pupd ps xs) = length ps /\
  forall i p, nth_error ps i = Some p ->
    nth_error (upd_all call pupd ps xs) i =
      Some (pupd p (map (prep_all call (firstn i (upd_all call pupd ps xs))) xs)).
Proof.
  assert (C : forall p rest xs, upd_all call pupd (p :: rest) xs = pupd p xs :: upd_all call pupd rest (map (call (pupd p xs)) xs))
    by (intros p rest xs; destruct rest; reflexivity).
  induction ps as [|p ps IH]; intros xs.
  - split; auto. intros [|i] p H; discriminate.
  - rewrite C. destruct (IH (map (call (pupd p xs)) xs)) as [L N]. split; [simpl; rewrite L; auto|].
    intros [|i] q H.
    + inversion H; subst. simpl. f_equal. f_equal. symmetry. rewrite map_ext with (g := fun x => x); [apply map_id|]. reflexivity.
    + simpl in H. cbn [nth_error firstn]. rewrite (N _ _ H). f_equal. f_equal. rewrite map_map. reflexivity.
Qed.

(** A2C without agent preprocessors: the gradient of its loss is the policy gradient. *)
Theorem a2c_gradient : forall (g : R -> W) t c (b : list (X * Ac * R)) (score : X * Ac * R -> R) dent,
  (forall q, In q b -> derivable_pt_lim (fun z => logp (g z) (fst (fst q)) (snd (fst q))) t (score q)) ->
  derivable_pt_lim (fun z => ent (g z) (map (fun q => fst (fst q)) b)) t dent ->
  derivable_pt_lim (fun z => a2c_loss logp ent c b (g z)) t
    (- tmean (map (fun q => snd q * score q) b) - c * dent).
Proof.
  intros g t c b score dent Hs Hd. unfold a2c_loss.
  replace (- tmean (map (fun q => snd q * score q) b) - c * dent) with (- tmean (map (fun q => snd q * score q) b) + c * - dent) by ring.
  apply (derivable_pt_lim_plus (fun z => - tmean (map (fun q => logp (g z) (fst (fst q)) (snd (fst q)) * snd q) b)) (fun z => c * - ent (g z) (map (fun q => fst (fst q)) b))).
  - apply (derivable_pt_lim_opp (fun z => tmean (map (fun q => logp (g z) (fst (fst q)) (snd (fst q)) * snd q) b))).
    apply (lim_tmean _ (fun q z => logp (g z) (fst (fst q)) (snd (fst q)) * snd q)).
    intros q Hq. replace (snd q * score q) with (score q * snd q + logp (g t) (fst (fst q)) (snd (fst q)) * 0) by ring.
    apply (derivable_pt_lim_mult (fun z => logp (g z) (fst (fst q)) (snd (fst q))) (fun _ => snd q)); [auto|apply derivable_pt_lim_const].
  - apply (derivable_pt_lim_scal (fun z => - ent (g z) (map (fun q => fst (fst q)) b))).
    apply (derivable_pt_lim_opp (fun z => ent (g z) (map (fun q => fst (fst q)) b))). auto.
Qed.

(** The states A2C computes its gradient on are those its policy acts on when there is
    no agent preprocessor. *)
Theorem a2c_states : forall gamma (ag : @agent W Pp Cr) (ds : list (@trans X Ac)) b v,
  a2c_batch val gamma ag ds = Some (b, v) -> a_ps ag = [] ->
  map (fun q => fst q) b = map (fun t => (acting_state call ag (t_s t), t_a t)) ds.
Proof.
  intros gamma ag ds b v H E. unfold a2c_batch in H.
  match type of H with obind ?a _ = _ => destruct a as [[q adv]|] eqn:M; [|discriminate] end.
  cbn [obind] in H. inversion H; subst b v. cbn [snd].
  assert (L : length adv = length ds).
  { apply mc_length in M. rewrite M. apply map_length. }
  rewrite map_map. unfold acting_state. rewrite E. cbn [fst snd prep_all fold_left].
  clear - L. revert adv L. induction ds as [|t ds IH]; destruct adv as [|a adv]; simpl; intros L; try discriminate; auto.
  f_equal. apply IH. lia.
Qed.
End Upd.

(** With an agent preprocessor A2C acts on the preprocessed states but computes its
    gradient on the raw ones. *)
Theorem a2c_preprocessor_refuted : exists (ag : @agent R R R) (ds : list (@trans R R)) b v,
  a_ps ag <> [] /\
  a2c_batch (fun _ _ => 0) 0 ag ds = Some (b, v) /\
  forall q, In q b -> forall t, In t ds -> t_s t = fst (fst q) -> fst (fst q) <> acting_state (fun p x => x - p) ag (t_s t).
Proof.
  exists {| a_w := 0; a_ps := [1]; a_cr := 0 |},
    [{| t_s := 2; t_a := 0; t_r := 1; t_ns := 3; t_abs := false; t_last := false |};
     {| t_s := 3; t_a := 0; t_r := 1; t_ns := 4; t_abs := false; t_last := true |}].
  eexists. eexists. split; [discriminate|]. split; [reflexivity|].
  intros q Hq t Ht E. unfold acting_state. cbn. rewrite E. lra.
Qed.

(** With a running standardisation the statistics move before the first step, so the
    probability ratio of the very first minibatch is not one. *)
Theorem ppo_first_ratio_refuted :
  let call := fun p x => std_call 10 p x in
  let pupd := fun p xs => rs_update (/ 10 ^ 32) p xs in
  let logp := fun (w x a : R) => - ((a - w * x) * (a - w * x)) / 2 in
  exists (ag : @agent R rstd R) (ds : list (@trans R R)) ps' vt rows,
    fit_rows logp call pupd (fun _ _ => 0) 1 1 ag ds = Some (ps', vt, rows) /\
    length rows = 2%nat /\ forall q, In q rows -> ratio logp (a_w ag) q <> 1.
Proof.
  intros call pupd logp.
  pose (t := {| t_s := 3; t_a := 0; t_r := 1; t_ns := 3; t_abs := false; t_last := true |}).
  pose (ag := {| a_w := 1; a_ps := [rs_init]; a_cr := 0 |}).
  destruct (fit_rows logp call pupd (fun _ _ => 0) 1 1 ag [t; t]) as [[[ps' vt] rows]|] eqn:E.
  2: { exfalso. unfold fit_rows in E. unfold compute_gae in E.
       match type of E with obind (normalise ?a) _ = _ => destruct (normalise a) as [adv'|] eqn:N end; [discriminate E|].
       apply (proj1 (advantage_normalised _)) in N. cbn in N. lia. }
  exists ag, [t; t], ps', vt, rows. split; auto.
  pose proof (ppo_fit_rows _ _ _ _ _ _ _ _ _ _ _ E) as (L & _ & P). split; [rewrite L; reflexivity|].
  intros q Hq HR. apply In_nth_error in Hq. destruct Hq as (i & Hi).
  assert (Ht : nth_error [t; t] i = Some t).
  { assert (i < 2)%nat by (rewrite <- (eq_refl : length [t; t] = 2%nat), <- L; apply nth_error_Some; congruence).
    destruct i as [|[|i]]; auto; lia. }
  destruct (P i t q (a_w ag) Ht Hi) as [_ HQ]. rewrite HR in HQ.
  apply (fit_rows_inv) in E. destruct E as [Ep _].
  assert (SQ : sqrt (4 / 3) * sqrt (4 / 3) = 4 / 3) by (apply sqrt_sqrt; lra).
  assert (SP : 0 < sqrt (4 / 3)) by (apply sqrt_lt_R0; lra).
  assert (S1 : 1 < sqrt (4 / 3)) by nra.
  assert (T32 : 0 < / 10 ^ 32 < 2 / 3).
  { split; [apply Rinv_0_lt_compat; lra|]. apply Rlt_trans with (/ 2); [apply Rinv_lt_contravar; lra|lra]. }
  assert (Eu : rs_update (/ 10 ^ 32) rs_init [3; 3] = {| rs_n := 3; rs_m := 2; rs_s := 4 |}).
  { unfold rs_update, bmean, rs_init. remember (/ 10 ^ 32) as e32 eqn:X32. clear X32. cbn [rs_n rs_m rs_s length rsum plus].
    replace (INR 2 / INR 3) with (2 / 3) by (simpl; field). rewrite Rmax_left by lra. simpl INR. f_equal; field. }
  assert (Enew : prep_all call ps' (t_s t) = (3 - 2) / sqrt (4 / 3)).
  { rewrite Ep. unfold ag, t. cbn [a_ps map t_s upd_all]. unfold pupd at 1. rewrite Eu. cbn [prep_all fold_left]. unfold call, std_call, rs_std, rs_var, clip. cbn [rs_n rs_m rs_s].
    replace (4 / INR 3) with (4 / 3) by (simpl; field).
    assert (0 < (3 - 2) / sqrt (4 / 3) < 1).
    { split; [apply Rmult_lt_0_compat; [lra|apply Rinv_0_lt_compat; auto]|].
      apply (Rmult_lt_reg_r (sqrt (4 / 3))); auto. unfold Rdiv. rewrite Rmult_assoc, Rinv_l by lra. lra. }
    rewrite Rmax_left by lra. apply Rmin_left. lra. }
  assert (Eold : acting_state call ag (t_s t) = 3).
  { unfold acting_state, ag, t. cbn [a_ps t_s prep_all fold_left]. unfold call, std_call, rs_std, rs_var, clip, rs_init. cbn [rs_n rs_m rs_s].
    replace (1 / INR 1) with 1 by (simpl; field). rewrite sqrt_1. rewrite Rmax_left by lra. rewrite Rmin_left by lra. lra. }
  rewrite Enew, Eold in HQ. unfold logp in HQ. cbn [t_a t a_w ag] in HQ.
  assert (HI : (3 - 2) / sqrt (4 / 3) * ((3 - 2) / sqrt (4 / 3)) = 3 / 4).
  { replace ((3 - 2) / sqrt (4 / 3) * ((3 - 2) / sqrt (4 / 3))) with (/ (sqrt (4 / 3) * sqrt (4 / 3))) by (field; lra). rewrite SQ. lra. }
  set (u := (3 - 2) / sqrt (4 / 3)) in *.
  replace (- ((0 - 1 * u) * (0 - 1 * u)) / 2) with (- (3 / 8)) in HQ by (transitivity (- (u * u) / 2); [rewrite HI; field|field]).
  unfold Rdiv in HQ at 1. rewrite <- exp_Ropp, <- exp_plus in HQ. pose proof (eq_trans exp_0 HQ) as HZ. apply exp_inv in HZ. lra.
Qed.

(** * ePPO *)
Section EppoT.
Context {W Th Cx : Type}.
Variables (logpdf : W -> Th -> option Cx -> R).

(** Every row pairs a parameter vector with its normalised return, and before the first
    step all ratios are one, if the density of the parameters without a context is
    their density in their context (in particular for a distribution without context). *)
Theorem eppo_rows_start : forall contextual w theta ctx J rows,
  length theta = length ctx -> length theta = length J ->
  (contextual = true -> forall i th c, nth_error theta i = Some th -> nth_error ctx i = Some c -> logpdf w th c = logpdf w th None) ->
  eppo_rows logpdf contextual w theta ctx J = Some rows ->
  length rows = length theta /\ map p_a rows = theta /\ normalise J = Some (map p_adv rows) /\
  forall q, In q rows -> ratio (fun w c t => logpdf w t c) w q = 1.
Proof.
  intros contextual w theta ctx J rows L1 L2 HC H. unfold eppo_rows in H.
  destruct (normalise J) as [J'|] eqn:N; [|discriminate]. cbn [obind] in H. inversion H; subst rows; clear H.
  pose proof (proj2 (advantage_normalised J) J' N) as (LJ & _).
  split; [rewrite map_length, !combine_length; lia|].
  assert (E : map (@p_a (option Cx) Th) (map (fun p => mkP (row_ctx contextual (snd (fst p))) (fst (fst p)) (snd p) (logpdf w (fst (fst p)) None)) (combine (combine theta ctx) J')) = theta /\
          map (@p_adv (option Cx) Th) (map (fun p => mkP (row_ctx contextual (snd (fst p))) (fst (fst p)) (snd p) (logpdf w (fst (fst p)) None)) (combine (combine theta ctx) J')) = J').
  { rewrite !map_map. cbn [p_a p_adv]. assert (LL : length theta = length J') by lia. clear - L1 LL.
    revert ctx J' L1 LL. induction theta as [|x theta IH]; destruct ctx as [|y ctx], J' as [|z J']; simpl; intros; try discriminate; auto.
    destruct (IH ctx J') as [A B]; try lia. split; f_equal; auto. }
  destruct E as [E1 E2]. split; auto. split; [f_equal; auto|].
  intros q Hq. apply in_map_iff in Hq. destruct Hq as ([[th c] j] & <- & Hin). unfold ratio. cbn [p_x p_a p_old fst snd].
  apply in_combine_l in Hin. apply In_nth_error in Hin. destruct Hin as (i & Hi).
  assert (Hc : nth_error theta i = Some th /\ nth_error ctx i = Some c).
  { clear - Hi. revert theta ctx Hi. induction i; destruct theta, ctx; simpl; intros; try discriminate; auto. inversion Hi; auto. }
  destruct Hc as [H1 H2]. unfold row_ctx. destruct contextual.
  - rewrite (HC eq_refl i th c H1 H2), Rminus_diag_eq by auto. apply exp_0.
  - rewrite Rminus_diag_eq by auto. apply exp_0.
Qed.
End EppoT.

(** With a contextual distribution the old densities are those of a missing context, so
    the ratios do not start at one. *)
Theorem eppo_context_refuted :
  let logpdf := fun (w th : R) (c : option R) => - ((th - w * match c with Some x => x | None => 0 end) * (th - w * match c with Some x => x | None => 0 end)) / 2 in
  exists rows, eppo_rows logpdf true 1 [1; 2] [Some 1; Some 2] [0; 1] = Some rows /\ length rows = 2%nat /\
    forall q, In q rows -> ratio (fun w c t => logpdf w t c) 1 q <> 1.
Proof.
  intros logpdf. unfold eppo_rows.
  destruct (normalise [0; 1]) as [J'|] eqn:N.
  2: { apply (proj1 (advantage_normalised _)) in N. simpl in N. lia. }
  pose proof (proj2 (advantage_normalised _) J' N) as (LJ & _).
  cbn [obind]. eexists. split; [reflexivity|]. destruct J' as [|a [|b [|]]]; try discriminate. split; [reflexivity|].
  assert (EX : forall x, x <> 0 -> exp x <> 1) by (intros x Hx E; apply Hx, exp_inv; rewrite E, exp_0; auto).
  intros q [<-|[<-|[]]]; unfold ratio, logpdf, row_ctx; cbn; apply EX; lra.
Qed.

(** * Concrete cases *)

(** three rows, two epochs, batches of two: four steps *)
Example ppo_epochs_demo : forall (o : R),
  map (map (@p_a nat nat)) (epoch_batches (mkP 0 0 o o)%nat 2 [[2; 0; 1]; [1; 2; 0]]%nat [mkP 7 10 o o; mkP 8 11 o o; mkP 9 12 o o]%nat)
  = [[12; 10]; [11]; [11; 12]; [10]]%nat.
Proof. reflexivity. Qed.

(** two transitions and no preprocessor: the hypotheses of ppo_first_step hold *)
Example ppo_first_step_demo :
  let logp := fun (w x a : R) => - ((a - w * x) * (a - w * x)) / 2 in
  let ag := {| a_w := 1; a_ps := @nil R; a_cr := 0 |} in
  let ds := [{| t_s := 2; t_a := 1; t_r := 1; t_ns := 3; t_abs := false; t_last := false |};
             {| t_s := 3; t_a := 4; t_r := 5; t_ns := 4; t_abs := true; t_last := true |}] in
  exists ps' vt rows,
    fit_rows logp (fun p x => x - p) (fun p _ => p) (fun _ x => x) (9 / 10) (1 / 2) ag ds = Some (ps', vt, rows) /\
    length rows = 2%nat /\ map p_x rows = [2; 3] /\ forall q, In q rows -> ratio logp 1 q = 1.
Proof.
  intros logp ag ds.
  destruct (fit_rows logp (fun p x => x - p) (fun p _ => p) (fun _ x => x) (9 / 10) (1 / 2) ag ds) as [[[ps' vt] rows]|] eqn:E.
  2: { exfalso. unfold fit_rows in E. unfold compute_gae in E.
       match type of E with obind (normalise ?a) _ = _ => destruct (normalise a) as [adv'|] eqn:N end; [discriminate E|].
       apply (proj1 (advantage_normalised _)) in N. cbn in N. lia. }
  exists ps', vt, rows. split; auto.
  pose proof (fit_rows_inv _ _ _ _ _ _ _ _ _ _ _ E) as (Ep & adv' & _ & L & HR). cbn in Ep.
  split; [rewrite HR, map_length, combine_length, L; reflexivity|]. split.
  - rewrite HR, Ep. destruct adv' as [|a [|b [|]]]; try discriminate. reflexivity.
  - pose proof (ppo_first_step logp (fun _ _ => 0) _ _ _ _ _ _ _ _ _ _ E) as P.
    destruct (P ltac:(intros t _; rewrite Ep; reflexivity) rows 1 0 (incl_refl _) Rlt_0_1) as [Q _]. exact Q.
Qed.

(** two preprocessors: the second is updated with the outputs of the updated first one *)
Example agent_preprocessors_update_demo :
  upd_all (fun p x => x + p)%nat (fun p xs => p + length xs + hd 0 xs)%nat [1; 10]%nat [5; 6; 7]%nat = [9; 27]%nat.
Proof. reflexivity. Qed.

(** a shift by the number of samples seen: the critic is fitted on 2 + 2 and 3 + 2 *)
Example ppo_fit_preprocessed_demo :
  let ds := [{| t_s := 2; t_a := 1; t_r := 1; t_ns := 3; t_abs := false; t_last := false |};
             {| t_s := 3; t_a := 4; t_r := 5; t_ns := 4; t_abs := true; t_last := true |}] in
  forall opt d, exists ag', ppo_fit (fun (w x a : R) => w * x) (fun _ _ => 0) opt (fun p x => x + p) (fun p xs => p + INR (length xs))
      (fun _ _ => 0) (fun _ xs _ => hd 0 xs) 1 1 (fun _ => 1) (fun _ => 0) 2 d [] {| a_w := 1; a_ps := [0]; a_cr := 0 |} ds = Some ag' /\
    a_ps ag' = [2] /\ a_cr ag' = 4.
Proof.
  intros ds opt d.
  match goal with |- exists ag', ?e = _ /\ _ => destruct e as [ag'|] eqn:E end.
  - exists ag'. split; auto. unfold ppo_fit, fit_rows, compute_gae in E.
    match type of E with obind (obind ?x _) _ = _ => destruct x as [adv'|]; [|discriminate] end. cbn [obind] in E. inversion E.
    cbn. split; [f_equal|]; lra.
  - exfalso. revert E. apply ppo_fit_defined. cbn. lia.
Qed.

Example a2c_states_demo :
  let ds := [{| t_s := 2; t_a := 1; t_r := 1; t_ns := 3; t_abs := false; t_last := false |};
             {| t_s := 3; t_a := 4; t_r := 5; t_ns := 4; t_abs := true; t_last := true |}] in
  exists b v, a2c_batch (fun _ x => x) (9 / 10) {| a_w := 1; a_ps := @nil R; a_cr := 0 |} ds = Some (b, v) /\
    map fst b = [(2, 1); (3, 4)].
Proof. intros ds. eexists. eexists. split; reflexivity. Qed.

(** one sample, advantage 2, linear log-probability: gradient -2 * x - c *)
Example a2c_gradient_demo :
  derivable_pt_lim (a2c_loss (fun w x (a : R) => w * x) (fun w _ => w) 3 [(5, 0, 2)]) 7 (- tmean [2 * 5] - 3 * 1).
Proof.
  apply (a2c_gradient (fun w x (a : R) => w * x) (fun w _ => w) (fun z => z) 7 3 [(5, 0, 2)] (fun _ => 5) 1).
  - intros q [<-|[]]. cbn [fst snd].
    pose proof (derivable_pt_lim_mult (fun z => z) (fun _ => 5) 7 1 0 (derivable_pt_lim_id 7) (derivable_pt_lim_const 5 7)) as L.
    cbv beta in L. replace (1 * 5 + 7 * 0) with 5 in L by ring. exact L.
  - apply derivable_pt_lim_id.
Qed.

Example eppo_rows_start_demo : exists rows,
  eppo_rows (fun (w th : R) (_ : option R) => - ((th - w) * (th - w)) / 2) false 0 [1; 2; 3] [None; None; None] [4; 5; 9] = Some rows /\
  map p_a rows = [1; 2; 3].
Proof.
  destruct (eppo_rows (fun (w th : R) (_ : option R) => - ((th - w) * (th - w)) / 2) false 0 [1; 2; 3] [None; None; None] [4; 5; 9]) as [rows|] eqn:E.
  - exists rows. split; auto. apply eppo_rows_start in E; [tauto|reflexivity|reflexivity|discriminate].
  - unfold eppo_rows in E. destruct (normalise [4; 5; 9]) eqn:N; [discriminate|].
    apply (proj1 (advantage_normalised _)) in N. simpl in N. lia.
Qed.

Print Assumptions ppo_surrogate.
Print Assumptions ppo_loss_gradient.
Print Assumptions advantage_normalised.
Print Assumptions ppo_epochs.
Print Assumptions ppo_fit_rows.
Print Assumptions ppo_first_step.
Print Assumptions ppo_single_transition_refuted.
Print Assumptions ppo_fit_defined.
Print Assumptions ppo_fit_preprocessed.
Print Assumptions agent_preprocessors_update.
Print Assumptions a2c_gradient.
Print Assumptions a2c_states.
Print Assumptions a2c_preprocessor_refuted.
Print Assumptions ppo_first_ratio_refuted.
Print Assumptions eppo_rows_start.
Print Assumptions eppo_context_refuted.

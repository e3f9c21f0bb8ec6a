(** The differential equations of the classic control environments are those of the mechanical systems they are named after (C98). *)
From Coq Require Import Reals Ranalysis5 Lra Lia List.
From Verif Require Import Common EnvModel DynModel LqrGrad GaussProofs.
Import ListNotations.
Local Open Scope R_scope.

(** * Calculus *)
Lemma dl_loc : forall f g c l d, 0 < d -> (forall x, Rabs (x - c) < d -> f x = g x) -> derivable_pt_lim f c l -> derivable_pt_lim g c l.
Proof.
  intros f g c l d Hd E H eps He. destruct (H eps He) as [del Hdel].
  assert (P : 0 < Rmin d del) by (apply Rmin_glb_lt; [exact Hd|apply cond_pos]).
  exists (mkposreal _ P). simpl. intros h H0 Hh.
  rewrite <- (E (c + h)), <- (E c).
  - apply Hdel; [exact H0|]. eapply Rlt_le_trans; [exact Hh|apply Rmin_r].
  - replace (c - c) with 0 by ring. rewrite Rabs_R0. exact Hd.
  - replace (c + h - c) with h by ring. eapply Rlt_le_trans; [exact Hh|apply Rmin_l].
Qed.
(** two branches with the same value and slope at the seam *)
Lemma dl_glue : forall f a b c l, (forall x, x < c -> f x = a x) -> (forall x, c <= x -> f x = b x) -> a c = b c ->
  derivable_pt_lim a c l -> derivable_pt_lim b c l -> derivable_pt_lim f c l.
Proof.
  intros f a b c l Fa Fb E Ha Hb eps He. destruct (Ha eps He) as [d1 H1]. destruct (Hb eps He) as [d2 H2].
  assert (P : 0 < Rmin d1 d2) by (apply Rmin_glb_lt; apply cond_pos).
  exists (mkposreal _ P). simpl. intros h H0 Hh. rewrite (Fb c) by lra.
  destruct (Rlt_le_dec (c + h) c) as [L|L].
  - rewrite (Fa (c + h)) by lra. rewrite <- E. apply H1; [exact H0|]. eapply Rlt_le_trans; [exact Hh|apply Rmin_l].
  - rewrite (Fb (c + h)) by lra. apply H2; [exact H0|]. eapply Rlt_le_trans; [exact Hh|apply Rmin_r].
Qed.
Lemma cont_glue : forall f a b c, (forall x, x < c -> f x = a x) -> (forall x, c <= x -> f x = b x) -> a c = b c ->
  continuity_pt a c -> continuity_pt b c -> continuity_pt f c.
Proof.
  intros f a b c Fa Fb E Ha Hb eps He. destruct (Ha eps He) as (d1 & P1 & H1). destruct (Hb eps He) as (d2 & P2 & H2).
  exists (Rmin d1 d2). split; [apply Rmin_glb_lt; auto|]. intros x (D & Hx). simpl in *. unfold R_dist in *. rewrite (Fb c) by lra.
  destruct (Rlt_le_dec x c) as [L|L].
  - rewrite (Fa x) by lra. rewrite <- E. apply H1. split; [exact D|]. eapply Rlt_le_trans; [exact Hx|apply Rmin_l].
  - rewrite (Fb x) by lra. apply H2. split; [exact D|]. eapply Rlt_le_trans; [exact Hx|apply Rmin_r].
Qed.
Lemma dl_cont : forall f x l, derivable_pt_lim f x l -> continuity_pt f x.
Proof. intros f x l H. apply derivable_continuous_pt. exists l. exact H. Qed.
Lemma cont_comp : forall f g x, continuity_pt f x -> continuity_pt g (f x) -> continuity_pt (fun t => g (f t)) x.
Proof. intros. apply (continuity_pt_comp f g); auto. Qed.

(** induction along an interval *)
Lemma real_induction : forall (P : R -> Prop) a b, a <= b -> P a ->
  (forall t, a <= t < b -> P t -> exists e, 0 < e /\ forall x, t <= x <= t + e -> x <= b -> P x) ->
  (forall t, a < t <= b -> (forall x, a <= x < t -> P x) -> P t) -> P b.
Proof.
  intros P a b Hab P0 Step Lim.
  set (T := fun t => a <= t <= b /\ forall x, a <= x <= t -> P x).
  assert (Ta : T a) by (split; [lra|]; intros x Hx; replace x with a by lra; exact P0).
  destruct (completeness T) as [tau [U L]].
  { exists b. intros x [Hx _]. lra. }
  { exists a. exact Ta. }
  assert (Hat : a <= tau) by (apply U; exact Ta).
  assert (Htb : tau <= b) by (apply L; intros x [Hx _]; lra).
  assert (Below : forall x, a <= x < tau -> P x).
  { intros x [H1 H2].
    destruct (Classical_Prop.classic (exists t, T t /\ x < t)) as [(t & (_ & Ht) & Hxt)|N].
    - apply Ht. lra.
    - exfalso. assert (Q : tau <= x); [|lra]. apply L. intros t Tt. destruct (Rle_lt_dec t x); [auto|]. exfalso. apply N. exists t. auto. }
  assert (Ptau : P tau).
  { destruct (Req_dec tau a) as [->|Ne]; [exact P0|]. apply Lim; [lra|]. exact Below. }
  destruct (Rle_lt_or_eq_dec _ _ Htb) as [Lt| ->]; [|exact Ptau]. exfalso.
  destruct (Step tau ltac:(lra) Ptau) as (e & He & S).
  assert (Q : T (Rmin b (tau + e))).
  { split; [split; [apply Rmin_glb; lra|apply Rmin_l]|]. intros x Hx. destruct (Rlt_le_dec x tau) as [H|H]; [apply Below; lra|].
    pose proof (Rmin_l b (tau + e)). pose proof (Rmin_r b (tau + e)). apply S; lra. }
  apply U in Q. assert (tau < Rmin b (tau + e)) by (apply Rmin_glb_lt; lra). lra.
Qed.

(** * CarOnHill *)
(** the hill of the problem: height over the position *)
Definition hill (p : R) : R := if Rlt_dec p 0 then p ^ 2 + p else p / sqrt (1 + 5 * p ^ 2).

Lemma z_pos : forall p, 0 < 1 + 5 * p ^ 2.
Proof. intros. pose proof (pow2_ge_0 p). lra. Qed.
Lemma pow32 : forall z, 0 < z -> Rpower z (3 / 2) = z * sqrt z.
Proof. intros z Hz. replace (3 / 2) with (1 + / 2) by lra. rewrite Rpower_plus, Rpower_1, Rpower_sqrt; auto. Qed.
Lemma pow52 : forall z, 0 < z -> Rpower z (5 / 2) = z * z * sqrt z.
Proof. intros z Hz. replace (5 / 2) with (1 + (3 / 2)) by lra. rewrite Rpower_plus, Rpower_1, pow32 by auto. ring. Qed.
Lemma z_deriv : forall p, derivable_pt_lim (fun p => 1 + 5 * p ^ 2) p (10 * p).
Proof.
  intros p. eapply dl_eq; [apply (dl_plus (fun _ => 1) (fun p => 5 * p ^ 2) p 0 (5 * (2 * p * 1))); [apply dl_const|apply dl_scal, (dl_sqr (fun u => u)), dl_id]| |]; intros; cbv beta; ring.
Qed.
Lemma hill_pos_deriv : forall p, derivable_pt_lim (fun p => p / sqrt (1 + 5 * p ^ 2)) p (1 / Rpower (1 + 5 * p ^ 2) (3 / 2)).
Proof.
  intros p. pose proof (z_pos p) as Z. pose proof (sqrt_lt_R0 _ Z) as Q.
  eapply dl_eq; [apply (dl_div (fun p => p) (fun p => sqrt (1 + 5 * p ^ 2)) p 1 (/ (2 * sqrt (1 + 5 * p ^ 2)) * (10 * p)))| |].
  - apply dl_id.
  - apply (dl_comp (fun p => 1 + 5 * p ^ 2) sqrt). apply z_deriv. apply derivable_pt_lim_sqrt. exact Z.
  - lra.
  - reflexivity.
  - rewrite pow32 by exact Z. unfold Rsqr. rewrite sqrt_sqrt by lra.
    assert (E : sqrt (1 + 5 * p ^ 2) * sqrt (1 + 5 * p ^ 2) = 1 + 5 * p ^ 2) by (apply sqrt_sqrt; lra).
    set (q := sqrt (1 + 5 * p ^ 2)) in *. set (z := 1 + 5 * p ^ 2) in *.
    apply (Rmult_eq_reg_r (z * q)); [|apply Rmult_integral_contrapositive_currified; lra].
    replace ((1 * q - / (2 * q) * (10 * p) * p) / z * (z * q)) with (q * q - 5 * p ^ 2) by (field; lra).
    rewrite E. replace (z - 5 * p ^ 2) with 1 by (unfold z; ring). clearbody z q. field. split; lra.
Qed.
Lemma hill_neg_deriv : forall p, derivable_pt_lim (fun p => p ^ 2 + p) p (2 * p + 1).
Proof.
  intros p. eapply dl_eq; [apply (dl_plus (fun p => p ^ 2) (fun p => p) p (2 * p * 1) 1); [apply (dl_sqr (fun u => u)), dl_id|apply dl_id]| |]; intros; cbv beta; ring.
Qed.
Lemma Rpower_1_l : forall y, Rpower 1 y = 1.
Proof. intros. unfold Rpower. rewrite ln_1, Rmult_0_r. apply exp_0. Qed.
(** The slope used by the dynamics is the derivative of the height, everywhere. *)
Theorem car_slope : forall p, derivable_pt_lim hill p (car_diff p).
Proof.
  intros p. unfold car_diff. destruct (Rtotal_order p 0) as [L|[->|L]].
  - destruct (Rlt_dec p 0); [|lra]. apply (dl_loc (fun p => p ^ 2 + p) hill p _ (- p)); [lra| |apply hill_neg_deriv].
    intros x Hx. apply Rabs_def2 in Hx. unfold hill. destruct (Rlt_dec x 0); [reflexivity|lra].
  - destruct (Rlt_dec 0 0); [lra|]. apply (dl_glue hill (fun p => p ^ 2 + p) (fun p => p / sqrt (1 + 5 * p ^ 2)) 0).
    + intros x Hx. unfold hill. destruct (Rlt_dec x 0); [reflexivity|lra].
    + intros x Hx. unfold hill. destruct (Rlt_dec x 0); [lra|reflexivity].
    + unfold Rdiv. ring.
    + replace (1 / Rpower (1 + 5 * 0 ^ 2) (3 / 2)) with (2 * 0 + 1); [apply hill_neg_deriv|].
      replace (1 + 5 * 0 ^ 2) with 1 by ring. rewrite Rpower_1_l. field.
    + apply hill_pos_deriv.
  - destruct (Rlt_dec p 0); [lra|]. apply (dl_loc (fun p => p / sqrt (1 + 5 * p ^ 2)) hill p _ p); [lra| |apply hill_pos_deriv].
    intros x Hx. apply Rabs_def2 in Hx. unfold hill. destruct (Rlt_dec x 0); [lra|reflexivity].
Qed.
(** The curvature term is the derivative of the slope except where the two pieces of the hill meet. *)
Lemma slope_pos_deriv : forall p, derivable_pt_lim (fun p => 1 / Rpower (1 + 5 * p ^ 2) (3 / 2)) p ((-15 * p) / Rpower (1 + 5 * p ^ 2) (5 / 2)).
Proof.
  intros p. pose proof (z_pos p) as Z. pose proof (sqrt_lt_R0 _ Z) as Q.
  assert (N : Rpower (1 + 5 * p ^ 2) (3 / 2) <> 0) by (rewrite pow32 by auto; apply Rmult_integral_contrapositive_currified; lra).
  eapply dl_eq; [apply (dl_inv (fun p => Rpower (1 + 5 * p ^ 2) (3 / 2)) p (3 / 2 * Rpower (1 + 5 * p ^ 2) (3 / 2 - 1) * (10 * p))); [|exact N]| |].
  - apply (dl_comp (fun p => 1 + 5 * p ^ 2) (fun z => Rpower z (3 / 2))). apply z_deriv. apply derivable_pt_lim_power. exact Z.
  - intros u. unfold Rdiv. ring.
  - replace (3 / 2 - 1) with (/ 2) by lra. rewrite Rpower_sqrt, pow32, pow52 by exact Z. unfold Rsqr.
    assert (E : sqrt (1 + 5 * p ^ 2) * sqrt (1 + 5 * p ^ 2) = 1 + 5 * p ^ 2) by (apply sqrt_sqrt; lra).
    set (q := sqrt (1 + 5 * p ^ 2)) in *. set (z := 1 + 5 * p ^ 2) in *.
    replace (z * q * (z * q)) with (z * z * (q * q)) by ring. rewrite E. 
    apply (Rmult_eq_reg_r (z * z * z)); [|repeat apply Rmult_integral_contrapositive_currified; lra].
    replace (- (3 / 2 * q * (10 * p)) / (z * z * z) * (z * z * z)) with (- 15 * p * q) by (field; lra).
    replace (-15 * p / (z * z * q) * (z * z * z)) with (-15 * p * (z / q)) by (field; lra). rewrite <- E. field. lra.
Qed.
Theorem car_curvature : forall p, p <> 0 -> derivable_pt_lim car_diff p (car_diff2 p).
Proof.
  intros p Hp. unfold car_diff2. destruct (Rtotal_order p 0) as [L|[->|L]]; [|congruence|].
  - destruct (Rlt_dec p 0); [|lra]. apply (dl_loc (fun p => 2 * p + 1) car_diff p _ (- p)); [lra| |].
    + intros x Hx. apply Rabs_def2 in Hx. unfold car_diff. destruct (Rlt_dec x 0); [reflexivity|lra].
    + eapply dl_eq; [apply (dl_plus (fun p => 2 * p) (fun _ => 1) p (2 * 1) 0); [apply dl_scal, dl_id|apply dl_const]| |]; intros; cbv beta; ring.
  - destruct (Rlt_dec p 0); [lra|]. apply (dl_loc (fun p => 1 / Rpower (1 + 5 * p ^ 2) (3 / 2)) car_diff p _ p); [lra| |apply slope_pos_deriv].
    intros x Hx. apply Rabs_def2 in Hx. unfold car_diff. destruct (Rlt_dec x 0); [lra|reflexivity].
Qed.
Lemma car_diff_cont : forall p, continuity_pt car_diff p.
Proof.
  intros p. destruct (Req_dec p 0) as [->|N]; [|eapply dl_cont, car_curvature; exact N].
  apply (cont_glue car_diff (fun p => 2 * p + 1) (fun p => 1 / Rpower (1 + 5 * p ^ 2) (3 / 2))).
  - intros x Hx. unfold car_diff. destruct (Rlt_dec x 0); [reflexivity|lra].
  - intros x Hx. unfold car_diff. destruct (Rlt_dec x 0); [lra|reflexivity].
  - replace (1 + 5 * 0 ^ 2) with 1 by ring. rewrite Rpower_1_l. field.
  - reg.
  - eapply dl_cont, slope_pos_deriv.
Qed.
(** The picture shows this hill, scaled by one half in both directions, and the car tangent to it. *)
Theorem car_picture : forall p, let '(x, y, a) := car_drawn p in
  x = (p + 1) / 2 /\ y = (hill p + 1) / 2 /\ tan a = car_diff p /\ - PI / 2 < a < PI / 2.
Proof.
  intros p. unfold car_drawn. cbv zeta. split; [reflexivity|]. unfold car_height, car_angle, hill, car_diff.
  destruct (Rlt_dec ((p + 1) / 2) (1 / 2)), (Rlt_dec p 0); try lra; (split; [|split; [rewrite tan_atan|apply atan_bound]]).
  - field.
  - field.
  - cbv zeta. f_equal. f_equal. replace (2 * ((p + 1) / 2) - 1) with p by field. f_equal. f_equal. ring.
  - f_equal. f_equal. field.
Qed.

(** the car is a bead on the hill: its speed along the hill is sqrt(1 + slope^2) times the horizontal one *)
Definition car_energy (g m p v : R) : R := / 2 * m * (1 + car_diff p ^ 2) * v ^ 2 + m * g * hill p.
(** an exact solution on [a, b] under a constant force; the acceleration jumps where the pieces of the hill meet, so that the
    second equation is asked for elsewhere only *)
Definition car_solution (g m u : R) (p v : R -> R) (a b : R) : Prop :=
  (forall t, a <= t <= b -> continuity_pt p t /\ continuity_pt v t) /\
  (forall t, a < t < b -> derivable_pt_lim p t (fst (fst (car_dpds g m (p t, v t, u))))) /\
  (forall t, a < t < b -> p t <> 0 -> derivable_pt_lim v t (snd (fst (car_dpds g m (p t, v t, u))))).

Lemma dpow2 : forall f t f', derivable_pt_lim f t f' -> derivable_pt_lim (fun u => f u ^ 2) t (2 * f t * f').
Proof. exact dl_sqr. Qed.
Lemma one_sq_pos : forall x, 0 < 1 + x ^ 2.
Proof. intros. pose proof (pow2_ge_0 x). lra. Qed.
Lemma car_balance_deriv : forall g m u p v t, 0 < m -> p t <> 0 ->
  derivable_pt_lim p t (v t) -> derivable_pt_lim v t (snd (fst (car_dpds g m (p t, v t, u)))) ->
  derivable_pt_lim (fun t => car_energy g m (p t) (v t) - u * p t) t 0.
Proof.
  intros g m u p v t Hm Hp Dp Dv. unfold car_energy. set (acc := snd (fst (car_dpds g m (p t, v t, u)))) in *.
  eapply dl_eq; [|intros; reflexivity|].
  - apply (dl_minus (fun t => / 2 * m * (1 + car_diff (p t) ^ 2) * v t ^ 2 + m * g * hill (p t)) (fun t => u * p t)).
    + apply (dl_plus (fun t => / 2 * m * (1 + car_diff (p t) ^ 2) * v t ^ 2) (fun t => m * g * hill (p t))).
      * apply (dl_mult (fun t => / 2 * m * (1 + car_diff (p t) ^ 2)) (fun t => v t ^ 2)).
        -- apply (dl_scal (/ 2 * m) (fun t => 1 + car_diff (p t) ^ 2)). apply (dl_plus (fun _ => 1) (fun t => car_diff (p t) ^ 2)); [apply dl_const|].
           apply (dpow2 (fun t => car_diff (p t))). apply (dl_comp p car_diff); [exact Dp|apply car_curvature; exact Hp].
        -- apply (dpow2 v). exact Dv.
      * apply (dl_scal (m * g) (fun t => hill (p t))). apply (dl_comp p hill); [exact Dp|apply car_slope].
    + apply (dl_scal u p). exact Dp.
  - pose proof (one_sq_pos (car_diff (p t))) as Q. unfold acc, car_dpds. cbn [fst snd]. field. split; lra.
Qed.
Lemma car_balance_cont : forall g m u p v t, continuity_pt p t -> continuity_pt v t ->
  continuity_pt (fun t => car_energy g m (p t) (v t) - u * p t) t.
Proof.
  intros g m u p v t Cp Cv. unfold car_energy.
  assert (C1 : continuity_pt (fun t => car_diff (p t)) t) by (apply (cont_comp p car_diff); [exact Cp|apply car_diff_cont]).
  assert (C2 : continuity_pt (fun t => hill (p t)) t) by (apply (cont_comp p hill); [exact Cp|eapply dl_cont, car_slope]).
  assert (K : forall c, continuity_pt (fun _ : R => c) t) by (intros; apply continuity_pt_const; intros x y; reflexivity).
  assert (SQ : forall f, continuity_pt f t -> continuity_pt (fun t => f t ^ 2) t).
  { intros f Hf. apply (continuity_pt_mult f (fun t => f t * 1)); [exact Hf|]. apply (continuity_pt_mult f (fun _ => 1)); auto. }
  apply (continuity_pt_minus (fun t => / 2 * m * (1 + car_diff (p t) ^ 2) * v t ^ 2 + m * g * hill (p t)) (fun t => u * p t)).
  - apply (continuity_pt_plus (fun t => / 2 * m * (1 + car_diff (p t) ^ 2) * v t ^ 2) (fun t => m * g * hill (p t))).
    + apply (continuity_pt_mult (fun t => / 2 * m * (1 + car_diff (p t) ^ 2)) (fun t => v t ^ 2)); [|auto].
      apply (continuity_pt_mult (fun _ => / 2 * m) (fun t => 1 + car_diff (p t) ^ 2)); [auto|].
      apply (continuity_pt_plus (fun _ => 1) (fun t => car_diff (p t) ^ 2)); auto.
    + apply (continuity_pt_mult (fun _ => m * g) (fun t => hill (p t))); auto.
  - apply (continuity_pt_mult (fun _ => u) p); auto.
Qed.
(** away from the seam *)
Lemma car_balance_piece : forall g m u p v a b, 0 < m -> a <= b -> car_solution g m u p v a b -> (forall t, a < t < b -> p t <> 0) ->
  car_energy g m (p b) (v b) - u * p b = car_energy g m (p a) (v a) - u * p a.
Proof.
  intros g m u p v a b Hm Hab (C & Dp & Dv) NZ. set (F := fun t => car_energy g m (p t) (v t) - u * p t).
  assert (D : forall t, a < t < b -> derivable_pt_lim F t 0) by (intros; apply car_balance_deriv; auto; apply Dp; auto).
  assert (pr : forall t, a < t < b -> derivable_pt F t) by (intros t Ht; exists 0; apply D; exact Ht).
  refine (null_derivative_loc F a b pr _ _ b _); [| |lra].
  - intros t Ht. apply car_balance_cont; apply C; exact Ht.
  - intros t Ht. apply derive_pt_eq_0. apply D. exact Ht.
Qed.
Lemma car_solution_sub : forall g m u p v a b c d, a <= c -> d <= b -> car_solution g m u p v a b -> car_solution g m u p v c d.
Proof.
  intros g m u p v a b c d H1 H2 (C & Dp & Dv). split; [|split]; intros t Ht; [apply C; lra|apply Dp; lra|intros; apply Dv; auto; lra].
Qed.
(** right after a point, the position stays on one side of the seam, unless the car rests on it *)
Lemma car_leaves : forall g m u p v a b t, car_solution g m u p v a b -> a <= t < b -> p t <> 0 \/ v t <> 0 ->
  exists e, 0 < e /\ t + e <= b /\ forall x, t < x <= t + e -> p x <> 0.
Proof.
  intros g m u p v a b t (C & Dp & Dv) Ht [N|N].
  - destruct (C t ltac:(lra)) as [Cp _]. destruct (Cp (Rabs (p t)) (Rabs_pos_lt _ N)) as (d & Pd & Hd).
    exists (Rmin (d / 2) (b - t)). pose proof (Rmin_l (d / 2) (b - t)). pose proof (Rmin_r (d / 2) (b - t)).
    assert (0 < Rmin (d / 2) (b - t)) by (apply Rmin_glb_lt; lra). repeat split; [lra|lra|]. intros x Hx Z.
    assert (Q : R_dist (p x) (p t) < Rabs (p t)).
    { apply Hd. split; [split; [exact Logic.I|lra]|]. simpl. unfold R_dist. rewrite Rabs_right; lra. }
    unfold R_dist in Q. rewrite Z, Rminus_0_l, Rabs_Ropp in Q. lra.
  - destruct (Req_dec (p t) 0) as [Z|Z].
    2:{ destruct (C t ltac:(lra)) as [Cp _]. destruct (Cp (Rabs (p t)) (Rabs_pos_lt _ Z)) as (d & Pd & Hd).
        exists (Rmin (d / 2) (b - t)). pose proof (Rmin_l (d / 2) (b - t)). pose proof (Rmin_r (d / 2) (b - t)).
        assert (0 < Rmin (d / 2) (b - t)) by (apply Rmin_glb_lt; lra). repeat split; [lra|lra|]. intros x Hx Z'.
        assert (Q : R_dist (p x) (p t) < Rabs (p t)).
        { apply Hd. split; [split; [exact Logic.I|lra]|]. simpl. unfold R_dist. rewrite Rabs_right; lra. }
        unfold R_dist in Q. rewrite Z', Rminus_0_l, Rabs_Ropp in Q. lra. }
    destruct (C t ltac:(lra)) as [_ Cv]. destruct (Cv (Rabs (v t)) (Rabs_pos_lt _ N)) as (d & Pd & Hd).
    exists (Rmin (d / 2) (b - t)). pose proof (Rmin_l (d / 2) (b - t)). pose proof (Rmin_r (d / 2) (b - t)).
    assert (0 < Rmin (d / 2) (b - t)) by (apply Rmin_glb_lt; lra). repeat split; [lra|lra|]. intros x Hx Z'.
    (* Rolle between t and x *)
    assert (pr : forall y, t < y < x -> derivable_pt p y) by (intros y Hy; exists (v y); apply Dp; lra).
    destruct (Rolle p t x pr) as (c & Pc & Ec).
    + intros y Hy. apply C. lra.
    + lra.
    + congruence.
    + apply derive_pt_eq_1 in Ec. assert (V0 : v c = 0) by (eapply uniqueness_limite; [apply Dp; lra|exact Ec]).
      assert (Q : R_dist (v c) (v t) < Rabs (v t)).
      { apply Hd. split; [split; [exact Logic.I|lra]|]. simpl. unfold R_dist. rewrite Rabs_right; lra. }
      unfold R_dist in Q. rewrite V0, Rminus_0_l, Rabs_Ropp in Q. lra.
Qed.
Lemma car_rest : forall g m u, car_energy g m 0 0 - u * 0 = 0.
Proof. intros. unfold car_energy, hill. destruct (Rlt_dec 0 0); [lra|]. unfold Rdiv. ring. Qed.
Lemma car_balance_fwd : forall g m u p v a b, 0 < m -> a <= b -> car_solution g m u p v a b ->
  car_energy g m (p a) (v a) - u * p a <> 0 ->
  car_energy g m (p b) (v b) - u * p b = car_energy g m (p a) (v a) - u * p a.
Proof.
  intros g m u p v a b Hm Hab Sol NZ. set (F := fun t => car_energy g m (p t) (v t) - u * p t).
  change (F b = F a). change (F a <> 0) in NZ. apply (real_induction (fun t => F t = F a) a b Hab eq_refl).
  - intros t Ht E. assert (N : p t <> 0 \/ v t <> 0).
    { destruct (Req_dec (p t) 0) as [Z|Z]; [|auto]. right. intros V. apply NZ. rewrite <- E. unfold F. rewrite Z, V. apply car_rest. }
    destruct (car_leaves g m u p v a b t Sol Ht N) as (e & He & Hb & L). exists e. split; [exact He|]. intros x Hx _. rewrite <- E.
    apply (car_balance_piece g m u p v t x Hm); [lra| |].
    + eapply car_solution_sub; [| |exact Sol]; lra.
    + intros y Hy. apply L. lra.
  - intros t Ht Below. destruct (Req_dec (F t) (F a)) as [E|N]; [exact E|exfalso].
    assert (Cf : continuity_pt F t) by (destruct Sol as (C & _); apply car_balance_cont; apply C; lra).
    destruct (Cf (Rabs (F t - F a))) as (d & Pd & Hd); [apply Rabs_pos_lt; lra|].
    set (x := Rmax a (t - d / 2)). assert (Hx : a <= x < t) by (split; [apply Rmax_l|apply Rmax_lub_lt; lra]).
    assert (Hx' : t - d / 2 <= x) by apply Rmax_r.
    assert (Q : R_dist (F x) (F t) < Rabs (F t - F a)).
    { apply Hd. split; [split; [exact Logic.I|lra]|]. simpl. unfold R_dist. rewrite Rabs_left; lra. }
    unfold R_dist in Q. rewrite (Below x Hx) in Q. rewrite Rabs_minus_sym in Q. lra.
Qed.
Lemma cont_mirror : forall f t, continuity_pt f (- t) -> continuity_pt (fun x => f (- x)) t.
Proof. intros f t H. apply (cont_comp (fun x => - x) f); [apply (continuity_pt_opp (fun x => x)); apply derivable_continuous_pt, derivable_pt_id|exact H]. Qed.
Lemma dl_mirror : forall f l t, derivable_pt_lim f (- t) l -> derivable_pt_lim (fun x => f (- x)) t (- l).
Proof.
  intros f l t H. replace (- l) with (l * - 1) by ring. apply (dl_comp (fun x => - x) f); [|exact H].
  apply (dl_opp (fun x => x)). apply dl_id.
Qed.
Lemma car_reversed : forall g m u p v a b, car_solution g m u p v a b -> car_solution g m u (fun t => p (- t)) (fun t => - v (- t)) (- b) (- a).
Proof.
  intros g m u p v a b (C & Dp & Dv). split; [|split].
  - intros t Ht. destruct (C (- t) ltac:(lra)) as [Cp Cv]. split; [apply cont_mirror; exact Cp|].
    apply (continuity_pt_opp (fun t => v (- t))). apply cont_mirror. exact Cv.
  - intros t Ht. cbn [car_dpds fst]. apply dl_mirror. apply (Dp (- t)). lra.
  - intros t Ht N. cbn [car_dpds fst snd]. specialize (Dv (- t) ltac:(lra) N). cbn [car_dpds fst snd] in Dv.
    eapply dl_eq; [apply (dl_opp (fun t => v (- t)) t), dl_mirror; exact Dv|intros; reflexivity|].
    rewrite Ropp_involutive. f_equal. f_equal. ring.
Qed.
(** Energy balance of CarOnHill: along any exact solution the energy of the car changes by the work of the force. *)
Theorem car_energy_balance : forall g m u p v a b, 0 < m -> a <= b -> car_solution g m u p v a b ->
  car_energy g m (p b) (v b) - car_energy g m (p a) (v a) = u * (p b - p a).
Proof.
  intros g m u p v a b Hm Hab Sol.
  assert (Q : car_energy g m (p b) (v b) - u * p b = car_energy g m (p a) (v a) - u * p a); [|lra].
  destruct (Req_dec (car_energy g m (p a) (v a) - u * p a) 0) as [Z|N]; [|apply car_balance_fwd; auto].
  destruct (Req_dec (car_energy g m (p b) (v b) - u * p b) 0) as [Z'|N]; [congruence|].
  assert (EV : forall p v, car_energy g m p (- v) = car_energy g m p v) by (intros; unfold car_energy; ring).
  pose proof (car_balance_fwd g m u (fun t => p (- t)) (fun t => - v (- t)) (- b) (- a) Hm ltac:(lra) (car_reversed _ _ _ _ _ _ _ Sol)) as H.
  cbv beta in H. rewrite !Ropp_involutive, !EV in H. symmetry. apply H. exact N.
Qed.
(** functions with a vanishing, or non-positive, derivative inside an interval *)
Lemma interval_const : forall F a b, a <= b -> (forall t, a <= t <= b -> continuity_pt F t) -> (forall t, a < t < b -> derivable_pt_lim F t 0) -> F b = F a.
Proof.
  intros F a b Hab C D. assert (pr : forall t, a < t < b -> derivable_pt F t) by (intros t Ht; exists 0; apply D; exact Ht).
  refine (null_derivative_loc F a b pr _ _ b _); [exact C| |lra]. intros t Ht. apply derive_pt_eq_0. apply D. exact Ht.
Qed.
(** The third component of the integrated state is the force: it keeps the value it starts with. *)
Theorem car_force_constant : forall g m p v (w : R -> R) a b, a <= b -> (forall t, a <= t <= b -> continuity_pt w t) ->
  (forall t, a < t < b -> derivable_pt_lim w t (snd (car_dpds g m (p t, v t, w t)))) -> w b = w a.
Proof. intros g m p v w a b Hab C D. apply interval_const; auto. Qed.

(** an integrator without error for the constants of the environment (car_on_hill.py 29-30, 34: g = 9.81, m = 1, dt = 0.1) *)
Definition car_exact (ode : pt -> R -> pt) : Prop := forall s u, exists p v,
  car_solution 9.81 1 u p v 0 (1 / 10) /\ (p 0, v 0) = s /\ ode s u = (p (1 / 10), v (1 / 10)).
(** states visited by repeating one action *)
Fixpoint car_states (ode : pt -> R -> pt) (s : pt) (a n : nat) : pt :=
  match n with O => s | S k => fst (fst (coh_step ode (car_states ode s a k) a)) end.
Definition climb (s : pt) : R := car_energy 9.81 1 (fst s) (snd s) - 4 * fst s.
Lemma climb_top : forall v, - 0.4525 < climb (1, v).
Proof.
  intros v. unfold climb, car_energy, hill. cbn [fst snd]. destruct (Rlt_dec 1 0); [lra|]. replace (1 + 5 * 1 ^ 2) with 6 by ring.
  pose proof (one_sq_pos (car_diff 1)) as Q. pose proof (pow2_ge_0 v) as V.
  assert (K : 0 <= / 2 * 1 * (1 + car_diff 1 ^ 2) * v ^ 2) by (apply Rmult_le_pos; [|exact V]; nra).
  assert (S1 : 0 < sqrt 6) by (apply sqrt_lt_R0; lra).
  assert (S2 : sqrt 6 < 2.5) by (replace 2.5 with (sqrt (2.5 * 2.5)) by (apply sqrt_square; lra); apply sqrt_lt_1; lra).
  assert (S3 : 0.4 < 1 / sqrt 6) by (apply (Rmult_lt_reg_r (sqrt 6)); [exact S1|]; unfold Rdiv; rewrite Rmult_assoc, Rinv_l by lra; lra).
  lra.
Qed.
Lemma climb_start : climb (-0.5, 0) = - 0.4525.
Proof. unfold climb, car_energy, hill. cbn [fst snd]. destruct (Rlt_dec (-0.5) 0); [|lra]. lra. Qed.
Lemma climb_step : forall ode s, car_exact ode -> climb s = - 0.4525 -> fst s < 1 ->
  climb (ode s 4) = - 0.4525 /\ fst (ode s 4) < 1.
Proof.
  intros ode s X B L. destruct (X s 4) as (p & v & Sol & <- & ->). cbn [fst] in *.
  assert (E : forall t, 0 <= t <= 1 / 10 -> climb (p t, v t) = - 0.4525).
  { intros t Ht. rewrite <- B. unfold climb. cbn [fst snd].
    pose proof (car_energy_balance 9.81 1 4 p v 0 t ltac:(lra) ltac:(lra) (car_solution_sub 9.81 1 4 p v 0 (1 / 10) 0 t ltac:(lra) ltac:(lra) Sol)). lra. }
  assert (N : forall t, 0 <= t <= 1 / 10 -> p t <> 1).
  { intros t Ht P1. specialize (E t Ht). rewrite P1 in E. pose proof (climb_top (v t)). lra. }
  split; [apply E; lra|]. destruct (Rlt_le_dec (p (1 / 10)) 1) as [H|H]; [exact H|exfalso].
  assert (H' : 1 < p (1 / 10)) by (destruct H as [H|H]; [exact H|]; exfalso; apply (N (1 / 10)); [lra|auto]).
  destruct (IVT_interv (fun t => p t - 1) 0 (1 / 10)) as (z & Hz & Ez); [| lra | lra | lra |].
  - intros t Ht. apply (continuity_pt_minus p (fun _ => 1)); [apply Sol; exact Ht|apply continuity_pt_const; intros x y; reflexivity].
  - apply (N z Hz). lra.
Qed.
(** The force is too weak for the hill: from the initial state, an agent that always accelerates to the right never gets the reward,
    however long it goes on. *)
Theorem car_must_swing : forall ode n, car_exact ode ->
  fst (car_states ode (-0.5, 0) 1 n) < 1 /\ snd (fst (coh_step ode (car_states ode (-0.5, 0) 1 n) 1)) <> 1.
Proof.
  intros ode n X.
  assert (ST : forall s, fst (fst (coh_step ode s 1)) = ode s 4).
  { intros s. unfold coh_step. simpl nth. destruct (Rlt_dec _ _); [reflexivity|]. destruct (Rlt_dec _ _); [reflexivity|]. destruct (Rlt_dec _ _); reflexivity. }
  assert (I : climb (car_states ode (-0.5, 0) 1 n) = - 0.4525 /\ fst (car_states ode (-0.5, 0) 1 n) < 1).
  { induction n as [|n [I1 I2]]; [split; [apply climb_start|simpl; lra]|]. cbn [car_states]. rewrite ST. apply climb_step; auto. }
  destruct I as [I1 I2]. split; [exact I2|]. destruct (climb_step ode _ X I1 I2) as [_ L].
  unfold coh_step. simpl nth. destruct (Rlt_dec _ _); [simpl; lra|]. destruct (Rlt_dec _ _); [simpl; lra|]. destruct (Rlt_dec _ _); simpl; lra.
Qed.

(** * InvertedPendulum *)
Definition pend_energy (m l g th w : R) : R := / 2 * m * l ^ 2 * w ^ 2 + m * g * l * cos th.
Definition pend_solution (m l g mu wmax u : R) (th w : R -> R) (a b : R) : Prop :=
  (forall t, a <= t <= b -> continuity_pt th t /\ continuity_pt w t) /\
  (forall t, a < t < b -> derivable_pt_lim th t (fst (pend_dyn m l g mu wmax u (th t, w t))) /\
                          derivable_pt_lim w t (snd (pend_dyn m l g mu wmax u (th t, w t)))).
Lemma cont_sq : forall f t, continuity_pt f t -> continuity_pt (fun t => f t ^ 2) t.
Proof. intros f t H. apply (continuity_pt_mult f (fun t => f t * 1)); [exact H|]. apply (continuity_pt_mult f (fun _ => 1)); [exact H|apply continuity_pt_const; intros x y; reflexivity]. Qed.
Lemma cont_cos : forall f t, continuity_pt f t -> continuity_pt (fun t => cos (f t)) t.
Proof. intros. apply (cont_comp f cos); auto. apply continuity_cos. Qed.
Lemma cont_scal : forall c f t, continuity_pt f t -> continuity_pt (fun t => c * f t) t.
Proof. intros. apply (continuity_pt_mult (fun _ => c) f); [apply continuity_pt_const; intros x y; reflexivity|auto]. Qed.
Lemma cont_plus : forall f g t, continuity_pt f t -> continuity_pt g t -> continuity_pt (fun t => f t + g t) t.
Proof. intros f g. intros. apply (continuity_pt_plus f g); auto. Qed.
Lemma cont_minus : forall f g t, continuity_pt f t -> continuity_pt g t -> continuity_pt (fun t => f t - g t) t.
Proof. intros f g. intros. apply (continuity_pt_minus f g); auto. Qed.
Lemma cont_mult : forall f g t, continuity_pt f t -> continuity_pt g t -> continuity_pt (fun t => f t * g t) t.
Proof. intros f g. intros. apply (continuity_pt_mult f g); auto. Qed.
Lemma dl_cos : forall f t f', derivable_pt_lim f t f' -> derivable_pt_lim (fun t => cos (f t)) t (- sin (f t) * f').
Proof. intros. apply (dl_comp f cos); [auto|apply derivable_pt_lim_cos]. Qed.
Lemma dl_sin : forall f t f', derivable_pt_lim f t f' -> derivable_pt_lim (fun t => sin (f t)) t (cos (f t) * f').
Proof. intros. apply (dl_comp f sin); [auto|apply derivable_pt_lim_sin]. Qed.
Lemma bound_in : forall x lo hi, lo <= x <= hi -> bound x lo hi = x.
Proof. intros x lo hi H. unfold bound. rewrite Rmin_left by lra. apply Rmax_right. lra. Qed.

(** Energy balance of the pendulum: while the speed is within its bound, the energy changes by the work of the torque minus the heat of
    the friction, [heat] being any primitive of mu * w^2. *)
Theorem pend_energy_balance : forall m l g mu wmax u th w heat a b, 0 < m -> 0 < l -> a <= b -> pend_solution m l g mu wmax u th w a b ->
  (forall t, a < t < b -> - wmax <= w t <= wmax) ->
  (forall t, a <= t <= b -> continuity_pt heat t) -> (forall t, a < t < b -> derivable_pt_lim heat t (mu * w t ^ 2)) ->
  pend_energy m l g (th b) (w b) - pend_energy m l g (th a) (w a) = u * (th b - th a) - (heat b - heat a).
Proof.
  intros m l g mu wmax u th w heat a b Hm Hl Hab (C & D) B Ch Dh.
  pose proof (interval_const (fun t => pend_energy m l g (th t) (w t) - u * th t + heat t) a b Hab) as Q. cbv beta in Q.
  assert (Q' : pend_energy m l g (th b) (w b) - u * th b + heat b = pend_energy m l g (th a) (w a) - u * th a + heat a); [apply Q; clear Q|lra].
  - intros t Ht. destruct (C t Ht) as [C1 C2]. apply cont_plus; [|apply Ch; exact Ht]. apply cont_minus; [|apply cont_scal; exact C1].
    unfold pend_energy. apply cont_plus; apply cont_scal; [apply cont_sq|apply cont_cos]; assumption.
  - intros t Ht. destruct (D t Ht) as [D1 D2]. unfold pend_dyn in D1, D2. cbn [fst snd] in D1, D2. rewrite bound_in in D1, D2 by (apply B; exact Ht).
    unfold pend_energy. eapply dl_eq; [|intros; reflexivity|].
    + apply dl_plus; [|apply Dh; exact Ht]. apply dl_minus; [|apply dl_scal; exact D1]. apply dl_plus; apply dl_scal; [apply dl_sqr; exact D2|apply dl_cos; exact D1].
    + field. lra.
Qed.
(** Without torque the energy never grows, and without friction either it is kept. *)
Theorem pend_dissipates : forall m l g mu wmax th w a b, 0 < m -> 0 < l -> 0 <= mu -> a <= b -> pend_solution m l g mu wmax 0 th w a b ->
  (forall t, a < t < b -> - wmax <= w t <= wmax) ->
  pend_energy m l g (th b) (w b) <= pend_energy m l g (th a) (w a) /\
  (mu = 0 -> pend_energy m l g (th b) (w b) = pend_energy m l g (th a) (w a)).
Proof.
  intros m l g mu wmax th w a b Hm Hl Hmu Hab Sol B. split.
  - destruct (Req_dec a b) as [->|Ne]; [lra|]. destruct Sol as (C & D). set (F := fun t => pend_energy m l g (th t) (w t)).
    assert (DF : forall t, a < t < b -> derivable_pt_lim F t (- (mu * w t ^ 2))).
    { intros t Ht. destruct (D t Ht) as [D1 D2]. unfold pend_dyn in D1, D2. cbn [fst snd] in D1, D2. rewrite bound_in in D1, D2 by (apply B; exact Ht).
      unfold F, pend_energy. eapply dl_eq; [apply dl_plus; apply dl_scal; [apply dl_sqr; exact D2|apply dl_cos; exact D1]|intros; reflexivity|]. field. lra. }
    assert (p1 : forall t, a < t < b -> derivable_pt F t) by (intros t Ht; exists (- (mu * w t ^ 2)); apply DF; exact Ht).
    assert (p2 : forall t, a < t < b -> derivable_pt id t) by (intros; apply derivable_pt_id).
    destruct (MVT F id a b p1 p2) as (c & P & E); [lra| | |].
    + intros t Ht. destruct (C t Ht) as [C1 C2]. unfold F, pend_energy. apply cont_plus; apply cont_scal; [apply cont_sq|apply cont_cos]; assumption.
    + intros. apply derivable_continuous_pt, derivable_pt_id.
    + rewrite (derive_pt_eq_0 _ _ _ (p1 c P) (DF c P)) in E. rewrite (derive_pt_eq_0 _ _ 1 (p2 c P) (derivable_pt_lim_id c)) in E. unfold id in E.
      change (F b <= F a). pose proof (pow2_ge_0 (w c)) as W. assert (0 <= mu * w c ^ 2) by (apply Rmult_le_pos; auto). nra.
  - intros ->. pose proof (pend_energy_balance m l g 0 wmax 0 th w (fun _ => 0) a b Hm Hl Hab Sol B) as Q.
    assert (Q' : pend_energy m l g (th b) (w b) - pend_energy m l g (th a) (w a) = 0 * (th b - th a) - (0 - 0)); [|lra].
    apply Q; intros; [apply continuity_pt_const; intros x y; reflexivity|]. replace (0 * w t ^ 2) with 0 by ring. apply dl_const.
Qed.

(** * CartPole *)
(** horizontal motion of cart and pole, and rotation of the pole: a homogeneous rod of length l hinged on the cart, [acc] the
    acceleration of the cart and [w'] the angular acceleration *)
Definition cart_newton (m M l g u th w acc w' : R) : Prop :=
  (m + M) * acc + m * (l / 2) * (w' * cos th - w ^ 2 * sin th) = u /\
  m * (l / 2) * cos th * acc + (/ 12 * m * l ^ 2 + m * (l / 2) ^ 2) * w' = m * g * (l / 2) * sin th.
Lemma cos_sq : forall x, 0 <= cos x ^ 2 <= 1.
Proof. intros x. pose proof (sin2_cos2 x) as E. unfold Rsqr in E. pose proof (pow2_ge_0 (sin x)). pose proof (pow2_ge_0 (cos x)). nra. Qed.
Lemma cart_den : forall m M l th, 0 < m -> 0 < M -> 0 < l -> 0 < 2 / 3 * l - 1 / (m + M) * m * l * (1 / 2) * cos th ^ 2.
Proof.
  intros m M l th Hm HM Hl. pose proof (cos_sq th) as C. assert (A : 0 < 1 / (m + M) * m < 1).
  { split; [apply Rmult_lt_0_compat; [apply Rdiv_lt_0_compat; lra|lra]|]. apply (Rmult_lt_reg_r (m + M)); [lra|]. replace (1 / (m + M) * m * (m + M)) with m by (field; lra). lra. }
  set (q := 1 / (m + M) * m) in *. assert (q * cos th ^ 2 <= 1) by nra.
  replace (2 / 3 * l - q * l * (1 / 2) * cos th ^ 2) with (l * (2 / 3 - / 2 * (q * cos th ^ 2))) by field. apply Rmult_lt_0_compat; lra.
Qed.
(** The dynamics of CartPole are exactly these equations with the motion of the cart eliminated: no division by zero, and no other solution. *)
Theorem cart_equations : forall m M l g u th w w', 0 < m -> 0 < M -> 0 < l ->
  (w, w') = cart_dyn m M l g u (th, w) <-> exists acc, cart_newton m M l g u th w acc w'.
Proof.
  intros m M l g u th w w' Hm HM Hl. pose proof (cart_den m M l th Hm HM Hl) as D. unfold cart_dyn. cbv zeta.
  set (al := 1 / (m + M)) in *. assert (A : al * (m + M) = 1) by (unfold al; field; lra).
  set (den := 2 / 3 * l - al * m * l * (1 / 2) * cos th ^ 2) in *. rewrite sin_2a. unfold cart_newton. split.
  - intros E. injection E as E. 
    assert (E' : w' * den = g * sin th - al * m * l * (1 / 2) * w ^ 2 * (2 * sin th * cos th) * (1 / 2) - al * cos th * u) by (rewrite E; field; lra).
    exists (al * (u - m * (l / 2) * (w' * cos th - w ^ 2 * sin th))). split.
    + replace ((m + M) * (al * (u - m * (l / 2) * (w' * cos th - w ^ 2 * sin th)))) with (al * (m + M) * (u - m * (l / 2) * (w' * cos th - w ^ 2 * sin th))) by ring. rewrite A. ring.
    + unfold den in E'. 
      replace (m * (l / 2) * cos th * (al * (u - m * (l / 2) * (w' * cos th - w ^ 2 * sin th))) + (/ 12 * m * l ^ 2 + m * (l / 2) ^ 2) * w')
        with (m * (l / 2) * (al * cos th * (u - m * (l / 2) * (w' * cos th - w ^ 2 * sin th)) + 2 / 3 * l * w')) by field.
      replace (al * cos th * (u - m * (l / 2) * (w' * cos th - w ^ 2 * sin th)) + 2 / 3 * l * w') with (g * sin th); [field|].
      replace (g * sin th) with (w' * (2 / 3 * l - al * m * l * (1 / 2) * cos th ^ 2) + al * m * l * (1 / 2) * w ^ 2 * (2 * sin th * cos th) * (1 / 2) + al * cos th * u) by (rewrite E'; ring). field.
  - intros (acc & N1 & N2). f_equal. apply (Rmult_eq_reg_r den); [|lra].
    replace ((g * sin th - al * m * l * (1 / 2) * w ^ 2 * (2 * sin th * cos th) * (1 / 2) - al * cos th * u) / den * den)
      with (g * sin th - al * m * l * (1 / 2) * w ^ 2 * (2 * sin th * cos th) * (1 / 2) - al * cos th * u) by (field; lra).
    assert (X : acc = al * (u - m * (l / 2) * (w' * cos th - w ^ 2 * sin th))).
    { rewrite <- N1. replace (al * ((m + M) * acc + m * (l / 2) * (w' * cos th - w ^ 2 * sin th) - m * (l / 2) * (w' * cos th - w ^ 2 * sin th))) with (al * (m + M) * acc) by ring. rewrite A. ring. }
    rewrite X in N2. apply (Rmult_eq_reg_l (m * (l / 2))); [|apply Rmult_integral_contrapositive_currified; lra].
    unfold den. replace (m * (l / 2) * (w' * (2 / 3 * l - al * m * l * (1 / 2) * cos th ^ 2)))
      with ((m * (l / 2) * cos th * (al * (u - m * (l / 2) * (w' * cos th - w ^ 2 * sin th))) + (/ 12 * m * l ^ 2 + m * (l / 2) ^ 2) * w')
            - m * (l / 2) * al * cos th * u - m * (l / 2) * al * cos th * m * (l / 2) * w ^ 2 * sin th) by field.
    rewrite N2. field.
Qed.

(** kinetic energy of cart and rod plus potential energy of the rod *)
Definition cart_energy (m M l g th w v : R) : R :=
  / 2 * (m + M) * v ^ 2 + m * (l / 2) * v * (w * cos th) + / 2 * (/ 12 * m * l ^ 2 + m * (l / 2) ^ 2) * w ^ 2 + m * g * (l / 2) * cos th.
(** Energy balance of CartPole: the cart is not part of the state, its velocity [v] is the one that the horizontal momentum [c + u * t]
    leaves it; then the energy changes by the work of the force on the cart, [x] being its position. *)
Theorem cart_energy_balance : forall m M l g u c th w x v a b, 0 < m -> 0 < M -> 0 < l -> a <= b ->
  (forall t, a <= t <= b -> continuity_pt th t /\ continuity_pt w t /\ continuity_pt x t) ->
  (forall t, a < t < b -> derivable_pt_lim th t (fst (cart_dyn m M l g u (th t, w t))) /\ derivable_pt_lim w t (snd (cart_dyn m M l g u (th t, w t))) /\
                          derivable_pt_lim x t (v t)) ->
  (forall t, (m + M) * v t + m * (l / 2) * (w t * cos (th t)) = c + u * t) ->
  cart_energy m M l g (th b) (w b) (v b) - cart_energy m M l g (th a) (w a) (v a) = u * (x b - x a).
Proof.
  intros m M l g u c th w x v a b Hm HM Hl Hab C D P.
  set (V := fun t => / (m + M) * (c + u * t - m * (l / 2) * (w t * cos (th t)))).
  assert (VE : forall t, v t = V t) by (intros t; unfold V; rewrite <- P; field; lra).
  pose proof (interval_const (fun t => cart_energy m M l g (th t) (w t) (V t) - u * x t) a b Hab) as Q. cbv beta in Q. rewrite !VE.
  assert (Q' : cart_energy m M l g (th b) (w b) (V b) - u * x b = cart_energy m M l g (th a) (w a) (V a) - u * x a); [apply Q; clear Q|lra].
  - intros t Ht. destruct (C t Ht) as (C1 & C2 & C3).
    assert (CI : continuity_pt (fun t => t) t) by (apply derivable_continuous_pt, derivable_pt_id).
    assert (CK : forall k, continuity_pt (fun _ => k) t) by (intros; apply continuity_pt_const; intros y z; reflexivity).
    assert (CW : continuity_pt (fun t => w t * cos (th t)) t) by (apply (cont_mult w (fun t => cos (th t))); [exact C2|apply cont_cos; exact C1]).
    assert (CV : continuity_pt V t).
    { unfold V. apply (cont_scal (/ (m + M)) (fun t => c + u * t - m * (l / 2) * (w t * cos (th t)))). apply cont_minus; [apply (cont_plus (fun _ => c)); [apply CK|apply (cont_scal u (fun t => t)); exact CI]|apply cont_scal; exact CW]. }
    apply cont_minus; [|apply cont_scal; exact C3]. unfold cart_energy.
    apply (cont_plus (fun t => / 2 * (m + M) * V t ^ 2 + m * (l / 2) * V t * (w t * cos (th t)) + / 2 * (/ 12 * m * l ^ 2 + m * (l / 2) ^ 2) * w t ^ 2) (fun t => m * g * (l / 2) * cos (th t))); [|apply cont_scal, cont_cos; exact C1].
    apply (cont_plus (fun t => / 2 * (m + M) * V t ^ 2 + m * (l / 2) * V t * (w t * cos (th t))) (fun t => / 2 * (/ 12 * m * l ^ 2 + m * (l / 2) ^ 2) * w t ^ 2)); [|apply cont_scal, cont_sq; exact C2].
    apply (cont_plus (fun t => / 2 * (m + M) * V t ^ 2) (fun t => m * (l / 2) * V t * (w t * cos (th t)))); [apply cont_scal, cont_sq; exact CV|].
    apply (cont_mult (fun t => m * (l / 2) * V t) (fun t => w t * cos (th t))); [apply cont_scal; exact CV|exact CW].
  - intros t Ht. destruct (D t Ht) as (D1 & D2 & D3). set (w' := snd (cart_dyn m M l g u (th t, w t))) in *.
    assert (E : (w t, w') = cart_dyn m M l g u (th t, w t)) by reflexivity.
    apply cart_equations in E; auto. destruct E as (acc & N1 & N2). change (fst (cart_dyn m M l g u (th t, w t))) with (w t) in D1.
    assert (DW : derivable_pt_lim (fun t => w t * cos (th t)) t (w' * cos (th t) + w t * (- sin (th t) * w t))) by (apply (dl_mult w (fun t => cos (th t))); [exact D2|apply dl_cos; exact D1]).
    assert (DV : derivable_pt_lim V t acc).
    { unfold V. eapply dl_eq; [|intros; reflexivity|].
      - apply (dl_scal (/ (m + M)) (fun t => c + u * t - m * (l / 2) * (w t * cos (th t)))). apply dl_minus; [apply (dl_plus (fun _ => c)); [apply dl_const|apply (dl_scal u (fun t => t)); apply dl_id]|apply dl_scal; exact DW].
      - rewrite <- N1. field. lra. }
    rewrite VE in D3. unfold cart_energy. eapply dl_eq; [|intros; reflexivity|].
    + apply dl_minus; [|apply dl_scal; exact D3].
      apply (dl_plus (fun t => / 2 * (m + M) * V t ^ 2 + m * (l / 2) * V t * (w t * cos (th t)) + / 2 * (/ 12 * m * l ^ 2 + m * (l / 2) ^ 2) * w t ^ 2) (fun t => m * g * (l / 2) * cos (th t))); [|apply dl_scal, dl_cos; exact D1].
      apply (dl_plus (fun t => / 2 * (m + M) * V t ^ 2 + m * (l / 2) * V t * (w t * cos (th t))) (fun t => / 2 * (/ 12 * m * l ^ 2 + m * (l / 2) ^ 2) * w t ^ 2)); [|apply dl_scal, dl_sqr; exact D2].
      apply (dl_plus (fun t => / 2 * (m + M) * V t ^ 2) (fun t => m * (l / 2) * V t * (w t * cos (th t)))); [apply dl_scal, dl_sqr; exact DV|].
      apply (dl_mult (fun t => m * (l / 2) * V t) (fun t => w t * cos (th t))); [apply dl_scal; exact DV|exact DW].
    + transitivity (V t * ((m + M) * acc + m * (l / 2) * (w' * cos (th t) - w t ^ 2 * sin (th t)) - u) +
        w t * (m * (l / 2) * cos (th t) * acc + (/ 12 * m * l ^ 2 + m * (l / 2) ^ 2) * w' - m * g * (l / 2) * sin (th t))); [field|].
      rewrite N1, N2. ring.
Qed.

(** * Segway *)
Section SegwayProps.
Variables Mr Mp Ip Ir l r g : R.
Hypothesis HMr : 0 < Mr. Hypothesis HMp : 0 < Mp. Hypothesis HIp : 0 < Ip. Hypothesis HIr : 0 < Ir. Hypothesis Hl : 0 < l. Hypothesis Hr : 0 < r.
Notation h1 := (seg_h1 Mr Mp Ir r).
Notation h2 := (seg_h2 Mp l r).
Notation h3 := (seg_h3 Mp Ip l).
(** a body with centre of mass at distance l from the axle, on wheels of radius r that roll without slipping; the motor acts between
    body and wheels. [wp'] and [wr'] are the angular accelerations of body and wheels. *)
Definition seg_newton (u al wp wp' wr' : R) : Prop :=
  (Mp * l ^ 2 + Ip) * wp' + Mp * r * l * cos al * wr' = Mp * g * l * sin al - u /\
  Mp * r * l * cos al * wp' + ((Mr + Mp) * r ^ 2 + Ir) * wr' = Mp * r * l * sin al * wp ^ 2 + u.
Lemma seg_den : forall al, 0 < h1 * h3 - h2 al ^ 2.
Proof.
  intros al. unfold seg_h1, seg_h2, seg_h3. pose proof (cos_sq al) as C.
  assert (0 < Mp * r ^ 2) by (apply Rmult_lt_0_compat; [lra|apply pow_lt; lra]).
  assert (0 < Mp * l ^ 2) by (apply Rmult_lt_0_compat; [lra|apply pow_lt; lra]).
  assert (0 < Mr * r ^ 2) by (apply Rmult_lt_0_compat; [lra|apply pow_lt; lra]).
  replace (((Mr + Mp) * r ^ 2 + Ir) * (l ^ 2 * Mp + Ip) - (Mp * r * l * cos al) ^ 2)
    with ((Mr * r ^ 2 + Ir) * (Mp * l ^ 2 + Ip) + (Mp * r ^ 2) * Ip + (Mp * r ^ 2) * (Mp * l ^ 2) * (1 - cos al ^ 2)) by ring.
  assert (0 < (Mr * r ^ 2 + Ir) * (Mp * l ^ 2 + Ip)) by (apply Rmult_lt_0_compat; lra).
  assert (0 < (Mp * r ^ 2) * Ip) by (apply Rmult_lt_0_compat; lra).
  assert (0 <= (Mp * r ^ 2) * (Mp * l ^ 2) * (1 - cos al ^ 2)) by (apply Rmult_le_pos; [|lra]; apply Rmult_le_pos; lra). lra.
Qed.
Theorem seg_equations : forall u al wp wr wp' wr',
  (wp, wp', wr') = seg_dyn Mr Mp Ip Ir l r g u (al, wp, wr) <-> seg_newton u al wp wp' wr'.
Proof.
  intros u al wp wr wp' wr'. pose proof (seg_den al) as D. unfold seg_dyn. cbv zeta. unfold seg_newton.
  replace (Mp * l ^ 2 + Ip) with h3 by (unfold seg_h3; ring). fold (seg_h1 Mr Mp Ir r). fold (seg_h2 Mp l r al).
  set (a := h1) in *. set (b := h2 al) in *. set (c := h3) in *. set (den := a * c - b ^ 2) in *.
  replace (b * l * Mp * r * sin al * wp ^ 2) with (b * (l * Mp * r * sin al * wp ^ 2)) by ring.
  replace (c * l * Mp * r * sin al * wp ^ 2) with (c * (l * Mp * r * sin al * wp ^ 2)) by ring.
  replace (g * a * l * Mp * sin al) with (a * (Mp * g * l * sin al)) by ring. replace (g * b * l * Mp * sin al) with (b * (Mp * g * l * sin al)) by ring.
  replace (Mp * r * l * sin al * wp ^ 2) with (l * Mp * r * sin al * wp ^ 2) by ring.
  set (k := l * Mp * r * sin al * wp ^ 2). set (s := Mp * g * l * sin al). split.
  - intros E. injection E as E1 E2. rewrite E1, E2. unfold den. split; field; fold den; lra.
  - intros [N1 N2]. f_equal; [f_equal|].
    + apply (Rmult_eq_reg_r den); [|lra]. replace (- (b * k - a * s + (b + a) * u) / den * den) with (a * (s - u) - b * (k + u)) by (field; lra).
      rewrite <- N1, <- N2. unfold den. ring.
    + apply (Rmult_eq_reg_r den); [|lra]. replace ((c * k - b * s + (c + b) * u) / den * den) with (c * (k + u) - b * (s - u)) by (field; lra).
      rewrite <- N1, <- N2. unfold den. ring.
Qed.

(** kinetic energy of wheels and body, potential energy of the body *)
Definition seg_energy (al wp wr : R) : R :=
  / 2 * ((Mr + Mp) * r ^ 2 + Ir) * wr ^ 2 + Mp * r * l * (cos al * (wp * wr)) + / 2 * (Mp * l ^ 2 + Ip) * wp ^ 2 + Mp * g * l * cos al.
(** Energy balance of the Segway: the motor works through the angle between wheels and body ([phi]: angle of the wheels). *)
Theorem seg_energy_balance : forall u al wp wr phi a b, a <= b ->
  (forall t, a <= t <= b -> continuity_pt al t /\ continuity_pt wp t /\ continuity_pt wr t /\ continuity_pt phi t) ->
  (forall t, a < t < b -> let '(d1, d2, d3) := seg_dyn Mr Mp Ip Ir l r g u (al t, wp t, wr t) in
     derivable_pt_lim al t d1 /\ derivable_pt_lim wp t d2 /\ derivable_pt_lim wr t d3 /\ derivable_pt_lim phi t (wr t)) ->
  seg_energy (al b) (wp b) (wr b) - seg_energy (al a) (wp a) (wr a) = u * ((phi b - phi a) - (al b - al a)).
Proof.
  intros u al wp wr phi a b Hab C D.
  pose proof (interval_const (fun t => seg_energy (al t) (wp t) (wr t) - u * (phi t - al t)) a b Hab) as Q. cbv beta in Q.
  assert (Q' : seg_energy (al b) (wp b) (wr b) - u * (phi b - al b) = seg_energy (al a) (wp a) (wr a) - u * (phi a - al a)); [apply Q; clear Q|lra].
  - intros t Ht. destruct (C t Ht) as (C1 & C2 & C3 & C4). apply cont_minus; [|apply (cont_scal u (fun t => phi t - al t)), cont_minus; assumption]. unfold seg_energy.
    apply (cont_plus (fun t => / 2 * ((Mr + Mp) * r ^ 2 + Ir) * wr t ^ 2 + Mp * r * l * (cos (al t) * (wp t * wr t)) + / 2 * (Mp * l ^ 2 + Ip) * wp t ^ 2) (fun t => Mp * g * l * cos (al t))); [|apply cont_scal, cont_cos; exact C1].
    apply (cont_plus (fun t => / 2 * ((Mr + Mp) * r ^ 2 + Ir) * wr t ^ 2 + Mp * r * l * (cos (al t) * (wp t * wr t))) (fun t => / 2 * (Mp * l ^ 2 + Ip) * wp t ^ 2)); [|apply cont_scal, cont_sq; exact C2].
    apply (cont_plus (fun t => / 2 * ((Mr + Mp) * r ^ 2 + Ir) * wr t ^ 2) (fun t => Mp * r * l * (cos (al t) * (wp t * wr t)))); [apply cont_scal, cont_sq; exact C3|].
    apply cont_scal. apply (cont_mult (fun t => cos (al t)) (fun t => wp t * wr t)); [apply cont_cos; exact C1|apply cont_mult; assumption].
  - intros t Ht. specialize (D t Ht). destruct (seg_dyn Mr Mp Ip Ir l r g u (al t, wp t, wr t)) as [[d1 d2] d3] eqn:E. destruct D as (D1 & D2 & D3 & D4).
    assert (E1 : d1 = wp t) by (unfold seg_dyn in E; cbv zeta in E; congruence). subst d1. symmetry in E. apply seg_equations in E. destruct E as [N1 N2].
    unfold seg_energy. eapply dl_eq; [|intros; reflexivity|].
    + apply dl_minus; [|apply (dl_scal u (fun t => phi t - al t)), dl_minus; [exact D4|exact D1]].
      apply (dl_plus (fun t => / 2 * ((Mr + Mp) * r ^ 2 + Ir) * wr t ^ 2 + Mp * r * l * (cos (al t) * (wp t * wr t)) + / 2 * (Mp * l ^ 2 + Ip) * wp t ^ 2) (fun t => Mp * g * l * cos (al t))); [|apply dl_scal, dl_cos; exact D1].
      apply (dl_plus (fun t => / 2 * ((Mr + Mp) * r ^ 2 + Ir) * wr t ^ 2 + Mp * r * l * (cos (al t) * (wp t * wr t))) (fun t => / 2 * (Mp * l ^ 2 + Ip) * wp t ^ 2)); [|apply dl_scal, dl_sqr; exact D2].
      apply (dl_plus (fun t => / 2 * ((Mr + Mp) * r ^ 2 + Ir) * wr t ^ 2) (fun t => Mp * r * l * (cos (al t) * (wp t * wr t)))); [apply dl_scal, dl_sqr; exact D3|].
      apply dl_scal. apply (dl_mult (fun t => cos (al t)) (fun t => wp t * wr t)); [apply dl_cos; exact D1|apply dl_mult; [exact D2|exact D3]].
    + transitivity (wp t * ((Mp * l ^ 2 + Ip) * d2 + Mp * r * l * cos (al t) * d3 - (Mp * g * l * sin (al t) - u)) +
        wr t * (Mp * r * l * cos (al t) * d2 + ((Mr + Mp) * r ^ 2 + Ir) * d3 - (Mp * r * l * sin (al t) * wp t ^ 2 + u))); [field|]. rewrite N1, N2. ring.
Qed.

(** What is drawn: the wheel moves by the rolled distance, modulo the width of the window, and stays inside it; the tip of the body is where
    the angle says, at twice the distance of the centre of mass. The branch with start[0] % 5 * self._l is never taken. *)
Theorem seg_picture : forall dt last al wp wr, let '(x, (s, e)) := seg_draw l r dt last (al, wp, wr) in
  (exists k : Z, x = last - wr * r * dt + IZR k * (5 * l)) /\ s = 5 / 2 * l + x /\ e = s - 2 * l * sin al /\ 0 <= s <= 5 * l.
Proof.
  intros dt last al wp wr. unfold seg_draw. cbv zeta. set (x1 := last + - wr * r * dt).
  assert (W : forall y, 0 <= fmod y (5 * l) < 5 * l).
  { intros y. unfold fmod. destruct (base_Int_part (y / (5 * l))) as [B1 B2]. set (k := IZR (Int_part (y / (5 * l)))) in *.
    assert (Y : y = 5 * l * (y / (5 * l))) by (field; lra). set (q := y / (5 * l)) in *. rewrite Y. split; nra. }
  assert (K : exists x2 k, (if Rlt_dec (5 / 2 * l) x1 then fmod (5 / 2 * l + x1) (5 * l) - 5 / 2 * l
            else if Rlt_dec x1 (- (5 / 2) * l) then fmod (5 / 2 * l + x1) (5 * l) - 5 / 2 * l else x1) = x2 /\ x2 = x1 + IZR k * (5 * l) /\ - (5 / 2) * l <= x2 <= 5 / 2 * l).
  { pose proof (W (5 / 2 * l + x1)) as W1.
    assert (M : exists k, fmod (5 / 2 * l + x1) (5 * l) - 5 / 2 * l = x1 + IZR k * (5 * l)).
    { exists (- Int_part ((5 / 2 * l + x1) / (5 * l)))%Z. unfold fmod. rewrite opp_IZR. ring. }
    destruct M as (k & M). destruct (Rlt_dec (5 / 2 * l) x1); [|destruct (Rlt_dec x1 (- (5 / 2) * l))].
    - eexists _, k. split; [reflexivity|]. split; [exact M|lra].
    - eexists _, k. split; [reflexivity|]. split; [exact M|lra].
    - exists x1, 0%Z. split; [reflexivity|]. split; [simpl; ring|lra]. }
  destruct K as (x2 & k & E & M & B). rewrite E. destruct (Rlt_dec (5 * l) (5 / 2 * l + x2)); [lra|]. destruct (Rlt_dec (5 / 2 * l + x2) 0); [lra|].
  repeat split; try lra. exists k. rewrite M. unfold x1. ring.
Qed.
End SegwayProps.

(** Mirror images: reversing angles, speeds and input reverses the motion. *)
Theorem mirrored_dynamics : forall x u,
  (forall m l g mu wmax, 0 <= wmax -> pend_dyn m l g mu wmax (- u) (- fst (fst x), - snd (fst x)) = (- fst (pend_dyn m l g mu wmax u (fst x)), - snd (pend_dyn m l g mu wmax u (fst x)))) /\
  (forall m M l g, cart_dyn m M l g (- u) (- fst (fst x), - snd (fst x)) = (- fst (cart_dyn m M l g u (fst x)), - snd (cart_dyn m M l g u (fst x)))) /\
  (forall Mr Mp Ip Ir l r g, seg_dyn Mr Mp Ip Ir l r g (- u) (- fst (fst x), - snd (fst x), - snd x) =
     (- fst (fst (seg_dyn Mr Mp Ip Ir l r g u x)), - snd (fst (seg_dyn Mr Mp Ip Ir l r g u x)), - snd (seg_dyn Mr Mp Ip Ir l r g u x))).
Proof.
  intros [[x y] z] u. cbn [fst snd]. split; [|split].
  - intros m l g mu wmax Hw. unfold pend_dyn. cbn [fst snd].
    assert (B : bound (- y) (- wmax) wmax = - bound y (- wmax) wmax).
    { unfold bound, Rmax, Rmin. repeat (destruct (Rle_dec _ _)); lra. }
    rewrite B, sin_neg. f_equal. unfold Rdiv. ring.
  - intros m M l g. unfold cart_dyn. cbv zeta. cbn [fst snd]. replace (2 * - x) with (- (2 * x)) by ring. rewrite !sin_neg, cos_neg. f_equal. unfold Rdiv. ring.
  - intros Mr Mp Ip Ir l r g. unfold seg_dyn. cbv zeta. cbn [fst snd]. unfold seg_h2. rewrite sin_neg, cos_neg. f_equal; [f_equal|]; unfold Rdiv; ring.
Qed.

(** * Examples *)
(** the initial state of CarOnHill is the bottom of the valley: at rest without force, and 4 units of acceleration under full throttle *)
Example car_start : car_dpds 9.81 1 (-0.5, 0, 0) = (0, 0, 0) /\ car_dpds 9.81 1 (-0.5, 0, 4) = (0, 4, 0).
Proof.
  unfold car_dpds, car_diff, car_diff2. destruct (Rlt_dec (-0.5) 0); [|lra]. replace (2 * -0.5 + 1) with 0 by lra. split; f_equal; f_equal; lra.
Qed.
Example car_parked : car_solution 9.81 1 0 (fun _ => -0.5) (fun _ => 0) 0 1.
Proof.
  split; [|split]; intros.
  - split; apply continuity_pt_const; intros x y; reflexivity.
  - apply dl_const.
  - rewrite (proj1 car_start). apply dl_const.
Qed.
(** a weightless pendulum turns at constant speed *)
Example pend_turning : pend_solution 1 1 0 0 5 0 (fun t => t) (fun _ => 1) 0 1 /\ (forall t, 0 < t < 1 -> - (5) <= (fun _ => 1) t <= 5).
Proof.
  split; [|intros; lra]. split; intros t Ht.
  - split; [apply derivable_continuous_pt, derivable_pt_id|apply continuity_pt_const; intros x y; reflexivity].
  - unfold pend_dyn. cbn [fst snd]. rewrite bound_in by lra. split; [apply dl_id|]. eapply dl_eq; [apply dl_const|reflexivity|]. field.
Qed.
(** the upright pole is an equilibrium, and a push of the cart to the right turns the pole to the left *)
Example cart_upright : cart_dyn 2 8 (1/2) 9.8 0 (0, 0) = (0, 0) /\ snd (cart_dyn 2 8 (1/2) 9.8 10 (0, 0)) = - (60 / 17).
Proof. unfold cart_dyn. cbv zeta. cbn [snd]. replace (2 * 0) with 0 by ring. rewrite sin_0, cos_0. split; [f_equal|]; lra. Qed.
Example seg_upright : forall wr, seg_dyn 0.6 2.55 0.026 0.000908 0.138 0.055 9.81 0 (0, 0, wr) = (0, 0, 0).
Proof. intros. unfold seg_dyn. cbv zeta. rewrite sin_0. f_equal; [f_equal|]; unfold Rdiv; ring. Qed.
Print Assumptions car_slope.
Print Assumptions car_curvature.
Print Assumptions car_picture.
Print Assumptions car_energy_balance.
Print Assumptions car_force_constant.
Print Assumptions car_must_swing.
Print Assumptions pend_energy_balance.
Print Assumptions pend_dissipates.
Print Assumptions cart_equations.
Print Assumptions cart_energy_balance.
Print Assumptions seg_equations.
Print Assumptions seg_energy_balance.
Print Assumptions seg_picture.
Print Assumptions mirrored_dynamics.

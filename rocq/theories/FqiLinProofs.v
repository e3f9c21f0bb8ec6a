From Coq Require Import List Arith Lia Reals Lra Bool.
From Verif Require Import Common TdModel DqnModel DqnSpec DqnProofs BatchModel BatchProps Mat EnacSpec EnacProofs DpProofs FqiLinModel FqiLinSpec.
Import ListNotations.
Local Open Scope R_scope.

Section P.
Context {X : Type}.
Variables (p nA : nat) (cell : X -> nat) (phi : X -> vec) (pinv : nat -> nat -> mat -> mat).
Hypothesis OH : one_hot p cell phi.
Hypothesis HP : forall n m A, penrose n m A (pinv n m A).

Lemma phi_eq : forall x j, (j < p)%nat -> phi x j = if Nat.eqb (cell x) j then 1 else 0.
Proof.
  intros x j Hj. destruct (OH x) as (C & A & B). destruct (Nat.eqb_spec (cell x) j) as [<-|N]; auto.
Qed.
Lemma phi_dot : forall x w, dot p (phi x) w = w (cell x).
Proof.
  intros x w. destruct (OH x) as (C & A & B). unfold dot. rewrite (sm_single p (cell x)); [rewrite A; ring|exact C|].
  intros i Hi N. rewrite B by assumption. ring.
Qed.

(** The fit of one model *)
Lemma fit_sum : forall l c, (c < p)%nat ->
  rsum (map (fun t : X * R => if Nat.eqb (cell (fst t)) c then snd t - lin_fit p phi pinv l c else 0) l) = 0.
Proof.
  intros l c Hc. destruct l as [|z l']; [reflexivity|]. set (l := z :: l').
  pose proof (ls_normal (length l) p (design phi l) (pinv (length l) p (design phi l)) (fun i => nth i (map snd l) 0) (HP _ _ _) c Hc) as N.
  fold (lin_fit p phi pinv l) in N. rewrite (rsum_sm _ l z). etransitivity; [|exact N]. apply sm_ext. intros i Hi.
  unfold mv, design. rewrite (List.nth_error_nth' l z Hi).
  change (sm p (fun j => phi (fst (nth i l z)) j * lin_fit p phi pinv l j)) with (dot p (phi (fst (nth i l z))) (lin_fit p phi pinv l)).
  rewrite phi_dot, (phi_eq _ c Hc). rewrite (nth_indep _ 0 (snd z)) by (rewrite map_length; exact Hi). rewrite map_nth.
  destruct (Nat.eqb_spec (cell (fst (nth i l z))) c) as [->|]; ring.
Qed.

Lemma fit_zero : forall l c, (c < p)%nat -> (forall t, In t l -> cell (fst t) <> c) -> lin_fit p phi pinv l c = 0.
Proof.
  intros l c Hc Z. set (w := lin_fit p phi pinv l). set (w' := fun j => if Nat.eqb j c then 0 else w j).
  pose proof (ls_least (length l) p (design phi l) (pinv (length l) p (design phi l)) (fun i => nth i (map snd l) 0) (HP _ _ _) w') as L.
  fold (lin_fit p phi pinv l) in L. fold w in L.
  assert (E : err (length l) p (design phi l) (fun i => nth i (map snd l) 0) w' = err (length l) p (design phi l) (fun i => nth i (map snd l) 0) w).
  { unfold err. apply sm_ext. intros i Hi. do 2 f_equal. unfold mv. apply sm_ext. intros j Hj. unfold w'.
    destruct (Nat.eqb_spec j c) as [->|]; [|reflexivity]. unfold design. destruct (nth_error l i) as [t|] eqn:F; [|ring].
    rewrite (phi_eq _ c Hc). destruct (Nat.eqb_spec (cell (fst t)) c) as [Q|]; [|ring]. exfalso. apply (Z t); [eapply nth_error_In; eauto|exact Q]. }
  specialize (L E). unfold dot in L.
  assert (D : sm p (fun j => w j * w j) - sm p (fun j => w' j * w' j) = w c * w c).
  { rewrite <- sm_minus, (sm_single p c); [unfold w'; rewrite Nat.eqb_refl; ring|exact Hc|].
    intros i Hi N. unfold w'. apply Nat.eqb_neq in N. rewrite N. ring. }
  assert (S0 : w c * w c <= 0) by lra. destruct (Req_dec (w c) 0) as [|N]; [assumption|].
  exfalso. assert (0 < w c * w c) by (destruct (Rdichotomy _ _ N); nra). lra.
Qed.

Lemma of_action_map : forall (D : list (bsample X)) a f,
  of_action a (map b_s D) (map b_a D) (map f D) = map (fun x => (b_s x, f x)) (filter (fun x => Nat.eqb (b_a x) a) D).
Proof.
  intros D a f. unfold of_action. induction D as [|x D IH]; [reflexivity|]. cbn [map combine filter fst snd].
  destruct (Nat.eqb (b_a x) a); cbn [map fst snd]; [f_equal|]; exact IH.
Qed.

Lemma rsum_if : forall (D : list (bsample X)) c a f v,
  rsum (map (fun t : X * R => if Nat.eqb (cell (fst t)) c then snd t - v else 0) (map (fun x => (b_s x, f x)) (filter (fun x => Nat.eqb (b_a x) a) D)))
  = rsum (map f (here cell D c a)) - INR (length (here cell D c a)) * v.
Proof.
  intros D c a f v. induction D as [|x D IH]; [simpl; ring|]. unfold here in *. cbn [filter].
  destruct (Nat.eqb (b_a x) a); cbn [map rsum fst snd]; rewrite ?andb_false_r, ?andb_true_r; [|exact IH].
  rewrite IH. destruct (Nat.eqb (cell (b_s x)) c); [|ring]. cbn [map rsum length]. rewrite S_INR. ring.
Qed.

(** The table that a fit of [f] writes *)
Definition table (D : list (bsample X)) (m : lreg) (f : bsample X -> R) (c a : nat) : R :=
  match here cell D c a with
  | [] => if existsb (fun x => Nat.eqb (b_a x) a) D then 0 else m a c
  | h => mean (map f h)
  end.

Lemma existsb_filter : forall (A : Type) (g : A -> bool) l, existsb g l = match filter g l with [] => false | _ => true end.
Proof. induction l as [|x l IH]; [reflexivity|]. cbn [existsb filter]. destruct (g x); [reflexivity|exact IH]. Qed.

Lemma reg_fit_table : forall D m f c a, (c < p)%nat ->
  reg_fit p phi pinv m (map b_s D) (map b_a D) (map f D) a c = table D m f c a.
Proof.
  intros D m f c a Hc. unfold reg_fit, table. rewrite of_action_map, existsb_filter.
  set (l := filter (fun x => Nat.eqb (b_a x) a) D).
  assert (HF : forall x, In x (here cell D c a) <-> In x l /\ cell (b_s x) = c).
  { intros x. unfold here, l. rewrite !filter_In, andb_true_iff, Nat.eqb_eq. tauto. }
  destruct l as [|z l'] eqn:E.
  - cbn [map]. destruct (here cell D c a) as [|y h]; [reflexivity|]. exfalso. destruct (proj1 (HF y) (or_introl eq_refl)) as [[] _].
  - rewrite <- E in *. cbn [map]. assert (NE : map (fun x => (b_s x, f x)) l <> []) by (rewrite E; discriminate).
    assert (W : match map (fun x => (b_s x, f x)) l with [] => m a | t :: u => lin_fit p phi pinv (t :: u) end = lin_fit p phi pinv (map (fun x => (b_s x, f x)) l)).
    { destruct (map (fun x => (b_s x, f x)) l); [congruence|reflexivity]. }
    rewrite W. destruct (here cell D c a) as [|y h] eqn:H.
    + apply fit_zero; [exact Hc|]. intros t I. apply in_map_iff in I as (x & <- & I). cbn [fst]. intros Q. exact (proj2 (HF x) (conj I Q)).
    + pose proof (fit_sum (map (fun x => (b_s x, f x)) l) c Hc) as S0. unfold l in S0 at 2. rewrite rsum_if in S0. rewrite H in S0.
      unfold mean. change (f y :: map f h) with (map f (y :: h)). rewrite map_length. assert (INR (length (y :: h)) <> 0) by (apply not_0_INR; discriminate).
      apply Rmult_eq_reg_l with (INR (length (y :: h))); [|assumption].
      transitivity (rsum (map f (y :: h))); [lra|field; assumption].
Qed.
End P.

(** * The operator of one iteration *)
Lemma rowmax_close : forall nA (f g : nat -> R) d, (0 < nA)%nat -> (forall b, (b < nA)%nat -> Rabs (f b - g b) <= d) ->
  Rabs (rowmax (map f (seq 0 nA)) - rowmax (map g (seq 0 nA))) <= d.
Proof.
  intros nA f g d HA H.
  assert (N : forall h : nat -> R, map h (seq 0 nA) <> []) by (intros h E; apply (f_equal (@length R)) in E; rewrite map_length, seq_length in E; simpl in E; lia).
  assert (W : forall f g : nat -> R, (forall b, (b < nA)%nat -> Rabs (f b - g b) <= d) -> rowmax (map f (seq 0 nA)) <= rowmax (map g (seq 0 nA)) + d).
  { clear f g H. intros f g H. destruct (rowmax_spec _ (N f)) as [I _]. destruct (rowmax_spec _ (N g)) as [_ M].
    apply in_map_iff in I as (b & E & I). rewrite <- E. pose proof (M (g b) (in_map g _ _ I)). apply in_seq in I.
    specialize (H b ltac:(lia)). apply Rabs_le_inv in H. lra. }
  apply Rabs_le. pose proof (W f g H). assert (H' : forall b, (b < nA)%nat -> Rabs (g b - f b) <= d) by (intros; rewrite Rabs_minus_sym; auto).
  pose proof (W g f H'). lra.
Qed.
Lemma rowmax_bound : forall nA (f : nat -> R) d, (0 < nA)%nat -> (forall b, (b < nA)%nat -> Rabs (f b) <= d) -> Rabs (rowmax (map f (seq 0 nA))) <= d.
Proof.
  intros nA f d HA H. destruct (rowmax_spec (map f (seq 0 nA))) as [I _].
  { intros E; apply (f_equal (@length R)) in E; rewrite map_length, seq_length in E; simpl in E; lia. }
  apply in_map_iff in I as (b & E & I). rewrite <- E. apply in_seq in I. apply H. lia.
Qed.

Lemma mean_close : forall A (f g : A -> R) h d, h <> [] -> (forall x, In x h -> Rabs (f x - g x) <= d) ->
  Rabs (mean (map f h) - mean (map g h)) <= d.
Proof.
  intros A f g h d N H. unfold mean. rewrite !map_length.
  assert (P : 0 < INR (length h)) by (apply lt_0_INR; destruct h; [congruence|simpl; lia]).
  assert (L : forall f g : A -> R, (forall x, In x h -> Rabs (f x - g x) <= d) -> rsum (map f h) <= rsum (map g h) + INR (length h) * d).
  { clear. intros f g H. induction h as [|x h IH]; [simpl; lra|]. cbn [map rsum length]. rewrite S_INR.
    pose proof (H x (or_introl eq_refl)) as Q. apply Rabs_le_inv in Q. specialize (IH (fun y I => H y (or_intror I))). lra. }
  pose proof (L f g H). assert (H' : forall x, In x h -> Rabs (g x - f x) <= d) by (intros; rewrite Rabs_minus_sym; auto).
  pose proof (L g f H'). set (k := INR (length h)) in *.
  replace (rsum (map f h) / k - rsum (map g h) / k) with ((rsum (map f h) - rsum (map g h)) / k) by (field; lra).
  apply Rabs_le. split; apply Rmult_le_reg_r with k; auto; unfold Rdiv; rewrite ?Rmult_assoc, ?Rinv_l; lra.
Qed.

Section Op.
Context {X : Type}.
Variables (p nA : nat) (cell : X -> nat) (gamma : R) (D : list (bsample X)) (w : @lreg).
Hypothesis HA : (0 < nA)%nat.
Hypothesis HG : 0 <= gamma < 1.
Hypothesis HC : forall x, (cell x < p)%nat.

Definition bk (Q : nat -> nat -> R) (x : bsample X) : R :=
  b_r x + gamma * (if b_abs x then 0 else rowmax (map (Q (cell (b_s' x))) (seq 0 nA))).
Definition step (Q : nat -> nat -> R) (c a : nat) : R := table cell D w (bk Q) c a.

Lemma seq_ne : forall h : nat -> R, map h (seq 0 nA) <> [].
Proof. intros h E; apply (f_equal (@length R)) in E; rewrite map_length, seq_length in E; simpl in E; lia. Qed.

Lemma bk_backup : forall Q x, backup nA cell gamma Q x (bk Q x).
Proof.
  intros Q x. unfold backup, bk. split; intros E; rewrite E; [ring|]. eexists. split; [apply rowmax_spec, seq_ne|reflexivity].
Qed.
Lemma max_uniq : forall l u v, is_max l u -> is_max l v -> u = v.
Proof. intros l u v [A B] [C E]. apply Rle_antisym; auto. Qed.
Lemma backup_bk : forall Q x y, backup nA cell gamma Q x y -> y = bk Q x.
Proof.
  intros Q x y [A B]. unfold bk. destruct (b_abs x); [rewrite A by reflexivity; ring|]. destruct (B eq_refl) as (v & M & ->).
  rewrite (max_uniq _ v _ M (rowmax_spec _ (seq_ne _))). reflexivity.
Qed.
Lemma backups_bk : forall Q h ys, Forall2 (backup nA cell gamma Q) h ys <-> ys = map (bk Q) h.
Proof.
  intros Q h ys. split.
  - induction 1; [reflexivity|]. cbn [map]. f_equal; [apply backup_bk; assumption|assumption].
  - intros ->. induction h; constructor; [apply bk_backup|assumption].
Qed.

Lemma seen_true : forall a, existsb (fun x => Nat.eqb (b_a x) a) D = true <-> exists x, In x D /\ b_a x = a.
Proof. intros a. rewrite existsb_exists. setoid_rewrite Nat.eqb_eq. reflexivity. Qed.

Lemma emp_step : forall Q, empirical p nA cell gamma D w Q <-> forall c a, (c < p)%nat -> (a < nA)%nat -> Q c a = step Q c a.
Proof.
  intros Q. split.
  - intros E c a Hc Ha. destruct (E c a Hc Ha) as (E1 & E2 & E3). unfold step, table. destruct (here cell D c a) as [|x h] eqn:H.
    + destruct (existsb (fun x => Nat.eqb (b_a x) a) D) eqn:S0; [apply E2; [reflexivity|]; apply seen_true; exact S0|].
      apply E3. intros x I F. assert (T : existsb (fun x => Nat.eqb (b_a x) a) D = true) by (apply seen_true; eauto). congruence.
    + destruct E1 as (ys & F & ->); [discriminate|]. apply backups_bk in F. rewrite F. reflexivity.
  - intros E c a Hc Ha. rewrite (E c a Hc Ha). unfold step, table. split; [|split].
    + intros N. exists (map (bk Q) (here cell D c a)). split; [apply backups_bk; reflexivity|]. destruct (here cell D c a); [congruence|reflexivity].
    + intros -> S0. apply seen_true in S0. rewrite S0. reflexivity.
    + intros N. destruct (here cell D c a) as [|x h] eqn:H.
      * destruct (existsb (fun x => Nat.eqb (b_a x) a) D) eqn:S0; [|reflexivity]. apply seen_true in S0 as (x & I & F). destruct (N x I F).
      * exfalso. assert (I : In x (here cell D c a)) by (rewrite H; left; reflexivity). unfold here in I.
        apply filter_In in I as [I F]. apply andb_true_iff in F as [_ F]. apply Nat.eqb_eq in F. exact (N x I F).
Qed.

Lemma table_close : forall f g d c a, 0 <= d -> (forall x, In x D -> Rabs (f x - g x) <= d) -> Rabs (table cell D w f c a - table cell D w g c a) <= d.
Proof.
  intros f g d c a Hd H. unfold table. destruct (here cell D c a) as [|x h] eqn:E; [rewrite Rminus_diag_eq, Rabs_R0; auto|].
  apply mean_close; [discriminate|]. intros y I. rewrite <- E in I. apply filter_In in I as [I _]. auto.
Qed.
Lemma table_bound : forall f d c a, 0 <= d -> (forall x, In x D -> Rabs (f x) <= d) -> Rabs (w a c) <= d -> Rabs (table cell D w f c a) <= d.
Proof.
  intros f d c a Hd H Hw. unfold table. destruct (here cell D c a) as [|x h] eqn:E.
  - destruct (existsb _ D); [rewrite Rabs_R0; assumption|assumption].
  - rewrite <- (Rminus_0_r (mean _)).
    assert (Z : mean (map (fun _ : bsample X => 0) (x :: h)) = 0) by (unfold mean; rewrite rsum_map_const; unfold Rdiv; ring).
    rewrite <- Z. apply mean_close; [discriminate|]. intros y I. rewrite <- E in I. apply filter_In in I as [I _]. rewrite Rminus_0_r. auto.
Qed.
Lemma bk_close : forall Q R0 d x, 0 <= d -> (forall c a, (c < p)%nat -> (a < nA)%nat -> Rabs (Q c a - R0 c a) <= d) ->
  Rabs (bk Q x - bk R0 x) <= gamma * d.
Proof.
  intros Q R0 d x Hd H. unfold bk. destruct (b_abs x).
  - rewrite Rminus_diag_eq, Rabs_R0 by reflexivity. apply Rmult_le_pos; [lra|assumption].
  - replace (b_r x + gamma * _ - _) with (gamma * (rowmax (map (Q (cell (b_s' x))) (seq 0 nA)) - rowmax (map (R0 (cell (b_s' x))) (seq 0 nA)))) by ring.
    rewrite Rabs_mult, (Rabs_right gamma) by lra. apply Rmult_le_compat_l; [lra|]. apply rowmax_close; [assumption|]. intros. apply H; auto.
Qed.
Lemma step_contr : forall Q R0 d, 0 <= d -> (forall c a, (c < p)%nat -> (a < nA)%nat -> Rabs (Q c a - R0 c a) <= d) ->
  forall c a, Rabs (step Q c a - step R0 c a) <= gamma * d.
Proof.
  intros Q R0 d Hd H c a. unfold step. apply table_close; [apply Rmult_le_pos; lra|]. intros x _. apply bk_close; assumption.
Qed.

(** Flattened to one index, for the fixed point theorem *)
Definition unfl (V : nat -> R) (c a : nat) : R := V (c * nA + a)%nat.
Definition fl (Q : nat -> nat -> R) (i : nat) : R := Q (i / nA)%nat (i mod nA)%nat.
Definition Fop (V : nat -> R) : nat -> R := fl (step (unfl V)).

Lemma fl_range : forall i, (i < p * nA)%nat -> (i / nA < p)%nat /\ (i mod nA < nA)%nat.
Proof. intros i Hi. split; [apply Nat.div_lt_upper_bound; lia|apply Nat.mod_upper_bound; lia]. Qed.
Lemma fl_idx : forall c a, (c < p)%nat -> (a < nA)%nat -> (c * nA + a < p * nA)%nat.
Proof. intros. nia. Qed.
Lemma unfl_fl : forall Q c a, (a < nA)%nat -> unfl (fl Q) c a = Q c a.
Proof.
  intros Q c a Ha. unfold unfl, fl. rewrite Nat.div_add_l, Nat.div_small, Nat.add_0_r by lia.
  rewrite Nat.add_comm, Nat.mod_add, Nat.mod_small by lia. reflexivity.
Qed.
Lemma fl_unfl : forall V i, fl (unfl V) i = V i.
Proof. intros V i. unfold fl, unfl. rewrite Nat.mul_comm, <- Nat.div_mod by lia. reflexivity. Qed.

Lemma F_contr : forall V W d, (0 <= d)%R -> (forall j, (j < p * nA)%nat -> (Rabs (V j - W j) <= d)%R) ->
  forall s, (s < p * nA)%nat -> (Rabs (Fop V s - Fop W s) <= gamma * d)%R.
Proof.
  intros V W d Hd H s Hs. unfold Fop, fl. apply step_contr; [assumption|]. intros c a Hc Ha. apply H, fl_idx; assumption.
Qed.

Lemma emp_exists : exists Q, empirical p nA cell gamma D w Q.
Proof.
  set (V := fix_of (p * nA) Fop gamma HG F_contr (fun _ => 0)). exists (unfl V). apply emp_step. intros c a Hc Ha.
  pose proof (fix_fixed (p * nA) Fop gamma HG F_contr (fun _ => 0) (c * nA + a) (fl_idx c a Hc Ha)) as E.
  fold V in E. change (unfl (fl (step (unfl V))) c a = unfl V c a) in E. rewrite unfl_fl in E by assumption. symmetry. exact E.
Qed.

Lemma emp_residual : forall Q R0 e, 0 <= e -> empirical p nA cell gamma D w Q ->
  (forall c a, (c < p)%nat -> (a < nA)%nat -> Rabs (step R0 c a - R0 c a) <= e) ->
  forall c a, (c < p)%nat -> (a < nA)%nat -> Rabs (R0 c a - Q c a) <= e / (1 - gamma).
Proof.
  intros Q R0 e He EQ H c a Hc Ha. pose proof (proj1 (emp_step Q) EQ) as EQ'.
  assert (T : forall R1, (forall s, (s < p * nA)%nat -> Fop (fl R1) s = step R1 (s / nA) (s mod nA))).
  { intros R1 s Hs. unfold Fop. unfold fl at 1. assert (Z : Rabs (step (unfl (fl R1)) (s / nA) (s mod nA) - step R1 (s / nA) (s mod nA)) <= gamma * 0).
    { apply step_contr; [lra|]. intros c0 a0 _ A0. rewrite unfl_fl by assumption. rewrite Rminus_diag_eq, Rabs_R0; [lra|reflexivity]. }
    rewrite Rmult_0_r in Z. apply Rabs_le_inv in Z. lra. }
  pose proof (residual_bound (p * nA) Fop gamma HG F_contr (fl R0) (fl Q) e He) as B.
  rewrite <- (unfl_fl R0 c a Ha), <- (unfl_fl Q c a Ha). unfold unfl. apply B; [| |apply fl_idx; assumption].
  - intros s Hs. rewrite T by assumption. destruct (fl_range s Hs). symmetry. apply EQ'; assumption.
  - intros s Hs. rewrite T by assumption. destruct (fl_range s Hs). apply H; assumption.
Qed.

Lemma emp_unique : forall Q R0, empirical p nA cell gamma D w Q -> empirical p nA cell gamma D w R0 ->
  forall c a, (c < p)%nat -> (a < nA)%nat -> Q c a = R0 c a.
Proof.
  intros Q R0 EQ ER c a Hc Ha. pose proof (emp_residual R0 Q 0 (Rle_refl 0) ER) as B.
  assert (Z : Rabs (Q c a - R0 c a) <= 0 / (1 - gamma)).
  { apply B; try assumption. intros c0 a0 C0 A0. rewrite <- (proj1 (emp_step Q) EQ c0 a0 C0 A0). rewrite Rminus_diag_eq, Rabs_R0; [lra|reflexivity]. }
  unfold Rdiv in Z. rewrite Rmult_0_l in Z. apply Rabs_le_inv in Z. lra.
Qed.

Variable K : R.
Hypothesis HK : 0 <= K.
Hypothesis Hr : forall x, In x D -> Rabs (b_r x) + gamma * K <= K.
Hypothesis Hw : forall c a, (c < p)%nat -> (a < nA)%nat -> Rabs (w a c) <= K.

Lemma bk_bound : forall Q d x, 0 <= d -> (forall c a, (c < p)%nat -> (a < nA)%nat -> Rabs (Q c a) <= d) -> Rabs (bk Q x) <= Rabs (b_r x) + gamma * d.
Proof.
  intros Q d x Hd H. unfold bk. eapply Rle_trans; [apply Rabs_triang|]. apply Rplus_le_compat_l. rewrite Rabs_mult, (Rabs_right gamma) by lra.
  apply Rmult_le_compat_l; [lra|]. destruct (b_abs x); [rewrite Rabs_R0; assumption|]. apply rowmax_bound; [assumption|]. intros; apply H; auto.
Qed.
Lemma emp_bound : forall Q, empirical p nA cell gamma D w Q -> forall c a, (c < p)%nat -> (a < nA)%nat -> Rabs (Q c a) <= K.
Proof.
  intros Q EQ. pose proof (proj1 (emp_step Q) EQ) as E. set (S0 := sup (p * nA) (fl Q)).
  assert (P : 0 <= S0) by apply sup_nonneg.
  assert (B : forall c a, (c < p)%nat -> (a < nA)%nat -> Rabs (Q c a) <= S0).
  { intros c a Hc Ha. rewrite <- (unfl_fl Q c a Ha). unfold unfl. apply sup_ge. apply fl_idx; assumption. }
  assert (L : S0 <= Rmax K (K - gamma * K + gamma * S0)).
  { apply sup_lub; [eapply Rle_trans; [exact HK|apply Rmax_l]|]. intros s Hs. destruct (fl_range s Hs) as [Hc Ha]. unfold fl. rewrite (E _ _ Hc Ha).
    apply table_bound; [eapply Rle_trans; [exact HK|apply Rmax_l]| |eapply Rle_trans; [apply Hw; assumption|apply Rmax_l]].
    intros x I. eapply Rle_trans; [|apply Rmax_r]. eapply Rle_trans; [apply (bk_bound Q S0); assumption|]. pose proof (Hr x I). lra. }
  assert (S0 <= K) by (unfold Rmax in L; destruct (Rle_dec K (K - gamma * K + gamma * S0)); nra).
  intros c a Hc Ha. eapply Rle_trans; [apply B; assumption|assumption].
Qed.
End Op.

(** * The loop *)
Section Loop.
Context {X : Type}.
Variables (p nA : nat) (cell : X -> nat) (phi : X -> vec) (pinv : nat -> nat -> mat -> mat) (gamma : R) (D : list (bsample X)).
Hypothesis OH : one_hot p cell phi.
Hypothesis HP : forall n m A, penrose n m A (pinv n m A).
Hypothesis HA : (0 < nA)%nat.
Hypothesis HG : 0 <= gamma < 1.

Definition start (st : lreg * option (list R)) (c a : nat) : R := match snd st with None => 0 | Some _ => fst st a c end.

Lemma pred_ext : forall m x, reg_pred p nA phi m x = map (fun a => m a (cell x)) (seq 0 nA).
Proof. intros m x. unfold reg_pred. apply map_ext. intros a. apply phi_dot. exact OH. Qed.

Lemma iter_step : forall st c a, (c < p)%nat ->
  fst (fqi_iter (reg_pred p nA phi) (reg_fit p phi pinv) gamma D st) a c = step nA cell gamma D (fst st) (start st) c a.
Proof.
  intros [m t] c a Hc. unfold fqi_iter. cbn [fst]. destruct t as [t|].
  - rewrite next_map by (intros x; rewrite pred_ext; apply seq_ne; assumption). rewrite add_targets_map. rewrite (reg_fit_table p cell phi pinv OH HP) by assumption.
    unfold step. f_equal. unfold bk, start. cbn [snd fst]. apply FunctionalExtensionality.functional_extensionality. intros x. rewrite pred_ext. reflexivity.
  - rewrite (reg_fit_table p cell phi pinv OH HP) by assumption. unfold step. f_equal. apply FunctionalExtensionality.functional_extensionality. intros x.
    unfold bk, start. cbn [snd]. assert (Z : rowmax (map (fun _ : nat => 0) (seq 0 nA)) = 0).
    { pose proof (rowmax_bound nA (fun _ => 0) 0 HA ltac:(intros; cbn beta; rewrite Rabs_R0; apply Rle_refl)) as B. apply Rabs_le_inv in B. lra. }
    rewrite Z. destruct (b_abs x); ring.
Qed.
Lemma iter_some : forall st, exists t, snd (fqi_iter (reg_pred p nA phi) (reg_fit p phi pinv) gamma D st) = Some t.
Proof. intros [m t]. unfold fqi_iter. cbn [snd]. eauto. Qed.

Lemma step_weights : forall w m Q c a, (forall x, In x D -> b_a x <> a) \/ (exists x, In x D /\ b_a x = a) ->
  ((forall x, In x D -> b_a x <> a) -> m a c = w a c) -> step nA cell gamma D m Q c a = step nA cell gamma D w Q c a.
Proof.
  intros w m Q c a DEC H. unfold step, table. destruct (here cell D c a) eqn:E; [|reflexivity].
  destruct (existsb (fun x => Nat.eqb (b_a x) a) D) eqn:F; [reflexivity|]. apply H. intros x I G.
  assert (T : existsb (fun x => Nat.eqb (b_a x) a) D = true) by (apply seen_true; eauto). congruence.
Qed.
Lemma seen_dec : forall a, (forall x, In x D -> b_a x <> a) \/ (exists x, In x D /\ b_a x = a).
Proof.
  intros a. destruct (existsb (fun x => Nat.eqb (b_a x) a) D) eqn:F; [right; apply seen_true; exact F|left].
  intros x I G. assert (T : existsb (fun x => Nat.eqb (b_a x) a) D = true) by (apply seen_true; eauto). congruence.
Qed.

Lemma step_unseen : forall m Q c a, (forall x, In x D -> b_a x <> a) -> step nA cell gamma D m Q c a = m a c.
Proof.
  intros m Q c a N. unfold step, table. destruct (here cell D c a) as [|x h] eqn:H.
  - destruct (existsb (fun x => Nat.eqb (b_a x) a) D) eqn:F; [|reflexivity]. apply seen_true in F as (x & I & E). destruct (N x I E).
  - exfalso. assert (I : In x (here cell D c a)) by (rewrite H; left; reflexivity). unfold here in I.
    apply filter_In in I as [I F]. apply andb_true_iff in F as [_ F]. apply Nat.eqb_eq in F. exact (N x I F).
Qed.

Lemma loop_close : forall w Q, empirical p nA cell gamma D w Q ->
  forall n st e, 0 <= e ->
  (forall a, (forall x, In x D -> b_a x <> a) -> forall c, (c < p)%nat -> fst st a c = w a c) ->
  (forall c a, (c < p)%nat -> (a < nA)%nat -> Rabs (start st c a - Q c a) <= e) ->
  forall c a, (c < p)%nat -> (a < nA)%nat ->
  Rabs (fst (fqi_fit (reg_pred p nA phi) (reg_fit p phi pinv) gamma (S n) D st) a c - Q c a) <= gamma ^ S n * e.
Proof.
  intros w Q EQ. pose proof (proj1 (emp_step p nA cell gamma D w HA Q) EQ) as E.
  assert (ONE : forall st e, 0 <= e ->
    (forall a, (forall x, In x D -> b_a x <> a) -> forall c, (c < p)%nat -> fst st a c = w a c) ->
    (forall c a, (c < p)%nat -> (a < nA)%nat -> Rabs (start st c a - Q c a) <= e) ->
    forall c a, (c < p)%nat -> (a < nA)%nat ->
    Rabs (fst (fqi_iter (reg_pred p nA phi) (reg_fit p phi pinv) gamma D st) a c - Q c a) <= gamma * e).
  { intros st e He HW HS c a Hc Ha. rewrite iter_step by assumption. rewrite (step_weights w) by (first [apply seen_dec|intros N; apply HW; assumption]).
    rewrite (E c a Hc Ha). apply (step_contr p nA cell gamma D w HA HG (fun x => proj1 (OH x))); assumption. }
  induction n as [|n IH]; intros st e He HW HS c a Hc Ha.
  - cbn [fqi_fit pow]. rewrite Rmult_1_r. apply ONE; assumption.
  - cbn [fqi_fit]. set (st' := fqi_iter (reg_pred p nA phi) (reg_fit p phi pinv) gamma D st).
    replace (gamma ^ S (S n) * e) with (gamma ^ S n * (gamma * e)) by (simpl; ring).
    apply (IH st' (gamma * e)); try assumption.
    + apply Rmult_le_pos; lra.
    + intros b N c0 C0. unfold st'. rewrite iter_step by assumption. rewrite step_unseen by assumption. apply HW; assumption.
    + intros c0 a0 C0 A0. unfold start. destruct (iter_some st) as (t & T). fold st' in T. rewrite T. unfold st'. apply ONE; assumption.
Qed.
End Loop.

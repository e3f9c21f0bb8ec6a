From Coq Require Import List Arith Lia Reals Lra Bool.
From Verif Require Import Common FeatModel FeatProofs FeatProps TdModel DqnModel DqnSpec DqnProofs ApproxModel BatchModel BatchProps Mat DpProofs FqiLinModel FqiLinSpec FqiLinProofs LspiTabSpec.
Import ListNotations.
Local Open Scope R_scope.

(** * One-sided contractions of tables *)
Section Tab.
Variables (p nA : nat) (gamma : R) (G : (nat -> nat -> R) -> nat -> nat -> R).
Hypothesis HA : (0 < nA)%nat.
Hypothesis HG : 0 <= gamma < 1.
Definition below (U V : nat -> nat -> R) (d : R) : Prop := forall c a, (c < p)%nat -> (a < nA)%nat -> U c a <= V c a + d.
Hypothesis H1 : forall U V d, 0 <= d -> below U V d -> below (G U) (G V) (gamma * d).

Definition Gfl (V : nat -> R) : nat -> R := fl nA (G (unfl nA V)).

Lemma below_abs : forall U V d, below U V d -> below V U d -> forall c a, (c < p)%nat -> (a < nA)%nat -> Rabs (U c a - V c a) <= d.
Proof. intros U V d A B c a Hc Ha. apply Rabs_le. pose proof (A c a Hc Ha). pose proof (B c a Hc Ha). lra. Qed.
Lemma abs_below : forall U V d, (forall c a, (c < p)%nat -> (a < nA)%nat -> Rabs (U c a - V c a) <= d) -> below U V d.
Proof. intros U V d H c a Hc Ha. pose proof (H c a Hc Ha) as B. apply Rabs_le_inv in B. lra. Qed.

Lemma Gfl_contr : forall V W d, (0 <= d)%R -> (forall j, (j < p * nA)%nat -> (Rabs (V j - W j) <= d)%R) ->
  forall s, (s < p * nA)%nat -> (Rabs (Gfl V s - Gfl W s) <= gamma * d)%R.
Proof.
  intros V W d Hd H s Hs. destruct (fl_range p nA HA s Hs) as [Hc Ha]. unfold Gfl, fl.
  assert (E : forall c a, (c < p)%nat -> (a < nA)%nat -> Rabs (unfl nA V c a - unfl nA W c a) <= d) by (intros; apply H, fl_idx; assumption).
  apply below_abs; try assumption; apply H1; try assumption; apply abs_below; intros; [apply E|rewrite Rabs_minus_sym; apply E]; assumption.
Qed.

Lemma G_ext : forall U V, (forall c a, (c < p)%nat -> (a < nA)%nat -> U c a = V c a) -> forall c a, (c < p)%nat -> (a < nA)%nat -> G U c a = G V c a.
Proof.
  intros U V E c a Hc Ha. assert (B : below U V 0 /\ below V U 0) by (split; intros c0 a0 C0 A0; rewrite E by assumption; lra). destruct B as [B1 B2].
  pose proof (H1 U V 0 (Rle_refl 0) B1 c a Hc Ha). pose proof (H1 V U 0 (Rle_refl 0) B2 c a Hc Ha). lra.
Qed.
Definition fixed (Q : nat -> nat -> R) : Prop := forall c a, (c < p)%nat -> (a < nA)%nat -> Q c a = G Q c a.

Lemma fixed_exists : exists Q, fixed Q.
Proof.
  set (V := fix_of (p * nA) Gfl gamma HG Gfl_contr (fun _ => 0)). exists (unfl nA V). intros c a Hc Ha.
  pose proof (fix_fixed (p * nA) Gfl gamma HG Gfl_contr (fun _ => 0) (c * nA + a) (fl_idx p nA HA c a Hc Ha)) as E.
  fold V in E. change (unfl nA (fl nA (G (unfl nA V))) c a = unfl nA V c a) in E. rewrite unfl_fl in E by assumption. symmetry. exact E.
Qed.
Lemma fixed_residual : forall Q R0 e, 0 <= e -> fixed Q ->
  (forall c a, (c < p)%nat -> (a < nA)%nat -> Rabs (G R0 c a - R0 c a) <= e) ->
  forall c a, (c < p)%nat -> (a < nA)%nat -> Rabs (R0 c a - Q c a) <= e / (1 - gamma).
Proof.
  intros Q R0 e He EQ H c a Hc Ha.
  assert (T : forall R1, (forall s, (s < p * nA)%nat -> Gfl (fl nA R1) s = G R1 (s / nA) (s mod nA))).
  { intros R1 s Hs. destruct (fl_range p nA HA s Hs). unfold Gfl. unfold fl at 1. apply G_ext; try assumption. intros. apply unfl_fl; assumption. }
  pose proof (residual_bound (p * nA) Gfl gamma HG Gfl_contr (fl nA R0) (fl nA Q) e He) as B.
  rewrite <- (unfl_fl nA HA R0 c a Ha), <- (unfl_fl nA HA Q c a Ha). unfold unfl. apply B; [| |apply fl_idx; assumption].
  - intros s Hs. rewrite T by assumption. destruct (fl_range p nA HA s Hs). symmetry. apply EQ; assumption.
  - intros s Hs. rewrite T by assumption. destruct (fl_range p nA HA s Hs). apply H; assumption.
Qed.
Lemma fixed_unique : forall Q R0, fixed Q -> fixed R0 -> forall c a, (c < p)%nat -> (a < nA)%nat -> R0 c a = Q c a.
Proof.
  intros Q R0 E1 E2 c a Hc Ha. assert (Z : Rabs (R0 c a - Q c a) <= 0 / (1 - gamma)).
  { apply fixed_residual; try assumption; [lra|]. intros c0 a0 C0 A0. rewrite <- (E2 c0 a0 C0 A0), Rminus_diag_eq, Rabs_R0; [lra|reflexivity]. }
  unfold Rdiv in Z. rewrite Rmult_0_l in Z. apply Rabs_le_inv in Z. lra.
Qed.
(** A table below its image is below the fixed point *)
Lemma sub_fixed : forall Q U, fixed Q -> below U (G U) 0 -> below U Q 0.
Proof.
  intros Q U EQ HU. set (S0 := sup (p * nA) (fun i => Rmax 0 (fl nA U i - fl nA Q i))).
  assert (P : 0 <= S0) by apply sup_nonneg.
  assert (B : below U Q S0).
  { intros c a Hc Ha. rewrite <- (unfl_fl nA HA U c a Ha), <- (unfl_fl nA HA Q c a Ha). unfold unfl.
    pose proof (sup_ge (p * nA) (fun i => Rmax 0 (fl nA U i - fl nA Q i)) (c * nA + a) (fl_idx p nA HA c a Hc Ha)) as L. cbn beta in L. fold S0 in L.
    rewrite Rabs_right in L by (apply Rle_ge, Rmax_l). pose proof (Rmax_r 0 (fl nA U (c * nA + a) - fl nA Q (c * nA + a))). lra. }
  pose proof (H1 U Q S0 P B) as B2.
  assert (L : S0 <= gamma * S0).
  { apply sup_lub; [apply Rmult_le_pos; lra|]. intros s Hs. destruct (fl_range p nA HA s Hs) as [Hc Ha]. rewrite Rabs_right by (apply Rle_ge, Rmax_l).
    apply Rmax_lub; [apply Rmult_le_pos; lra|]. unfold fl. pose proof (HU _ _ Hc Ha). pose proof (B2 _ _ Hc Ha). rewrite (EQ _ _ Hc Ha). lra. }
  assert (S0 <= 0) by nra. intros c a Hc Ha. pose proof (B c a Hc Ha). lra.
Qed.
Lemma fixed_bound : forall Q K, 0 <= K -> fixed Q ->
  (forall d, 0 <= d -> (forall c a, (c < p)%nat -> (a < nA)%nat -> Rabs (Q c a) <= d) ->
     forall c a, (c < p)%nat -> (a < nA)%nat -> Rabs (G Q c a) <= K - gamma * K + gamma * d) ->
  forall c a, (c < p)%nat -> (a < nA)%nat -> Rabs (Q c a) <= K.
Proof.
  intros Q K HK EQ H. set (S0 := sup (p * nA) (fl nA Q)). assert (P : 0 <= S0) by apply sup_nonneg.
  assert (B : forall c a, (c < p)%nat -> (a < nA)%nat -> Rabs (Q c a) <= S0).
  { intros c a Hc Ha. rewrite <- (unfl_fl nA HA Q c a Ha). unfold unfl. apply sup_ge. apply fl_idx; assumption. }
  assert (L : S0 <= K - gamma * K + gamma * S0).
  { apply sup_lub; [nra|]. intros s Hs. destruct (fl_range p nA HA s Hs) as [Hc Ha]. unfold fl. rewrite (EQ _ _ Hc Ha). apply H; assumption. }
  assert (S0 <= K) by nra. intros c a Hc Ha. eapply Rle_trans; [apply B; assumption|assumption].
Qed.
End Tab.

Lemma mean_le : forall A (f g : A -> R) h d, h <> [] -> (forall x, In x h -> f x <= g x + d) -> mean (map f h) <= mean (map g h) + d.
Proof.
  intros A f g h d N H. unfold mean. rewrite !map_length.
  assert (P : 0 < INR (length h)) by (apply lt_0_INR; destruct h; [congruence|simpl; lia]).
  assert (L : rsum (map f h) <= rsum (map g h) + INR (length h) * d).
  { clear N P. induction h as [|x h IH]; [simpl; lra|]. cbn [map rsum length]. rewrite S_INR.
    pose proof (H x (or_introl eq_refl)) as Q. specialize (IH (fun y I => H y (or_intror I))). lra. }
  set (k := INR (length h)) in *. apply Rmult_le_reg_r with k; [assumption|]. unfold Rdiv.
  rewrite Rmult_plus_distr_r, !Rmult_assoc, !Rinv_l by lra. lra.
Qed.

(** * The operators of LSPI on a partition *)
Section Lspi.
Context {X : Type}.
Variables (p nA : nat) (cell : X -> nat) (gamma : R) (D : list (bsample X)).
Hypothesis HA : (0 < nA)%nat.
Hypothesis HG : 0 <= gamma < 1.
Hypothesis HC : forall x, (cell x < p)%nat.
Hypothesis COV : covers p nA cell D.

Definition look (g : bsample X -> R) (c a : nat) : R := mean (map (fun x => b_r x + gamma * g x) (here cell D c a)).
Definition opt (Q : nat -> nat -> R) : nat -> nat -> R :=
  look (fun x => if b_abs x then Q (cell (b_s' x)) 0%nat else rowmax (map (Q (cell (b_s' x))) (seq 0 nA))).
Definition ev (nx : bsample X -> nat) (Q : nat -> nat -> R) : nat -> nat -> R := look (fun x => Q (cell (b_s' x)) (nx x)).

Lemma here_ne : forall c a, (c < p)%nat -> (a < nA)%nat -> here cell D c a <> [].
Proof.
  intros c a Hc Ha E. destruct (proj2 COV c a Hc Ha) as (x & I & C & A).
  assert (In x (here cell D c a)); [|rewrite E in H; exact H]. apply filter_In. split; [exact I|]. apply andb_true_iff. rewrite !Nat.eqb_eq. auto.
Qed.
Lemma look_le : forall f g d, 0 <= d -> (forall x, In x D -> f x <= g x + d) -> below p nA (look f) (look g) (gamma * d).
Proof.
  intros f g d Hd H c a Hc Ha. apply mean_le; [apply here_ne; assumption|]. intros x I. apply filter_In in I as [I _]. specialize (H x I). nra.
Qed.
Lemma look_bound : forall f d, 0 <= d -> (forall x, In x D -> Rabs (f x) <= d) -> forall K, (forall x, In x D -> Rabs (b_r x) <= K) ->
  forall c a, (c < p)%nat -> (a < nA)%nat -> Rabs (look f c a) <= K + gamma * d.
Proof.
  intros f d Hd H K HK c a Hc Ha. unfold look. pose proof (here_ne c a Hc Ha) as N.
  assert (Z : mean (map (fun _ : bsample X => 0) (here cell D c a)) = 0) by (unfold mean; rewrite rsum_map_const; unfold Rdiv; ring).
  rewrite <- (Rminus_0_r (mean _)). rewrite <- Z. apply mean_close; [exact N|]. intros y I. apply filter_In in I as [I _]. rewrite Rminus_0_r.
  eapply Rle_trans; [apply Rabs_triang|]. apply Rplus_le_compat; [auto|]. rewrite Rabs_mult, (Rabs_right gamma) by lra. apply Rmult_le_compat_l; [lra|auto].
Qed.
Lemma rowmax_le : forall (f g : nat -> R) d, (forall b, (b < nA)%nat -> f b <= g b + d) -> rowmax (map f (seq 0 nA)) <= rowmax (map g (seq 0 nA)) + d.
Proof.
  intros f g d H. destruct (rowmax_spec _ (seq_ne nA HA f)) as [I _]. destruct (rowmax_spec _ (seq_ne nA HA g)) as [_ M].
  apply in_map_iff in I as (b & E & I). rewrite <- E. pose proof (M (g b) (in_map g _ _ I)). apply in_seq in I. specialize (H b ltac:(lia)). lra.
Qed.
Lemma opt_H1 : forall U V d, 0 <= d -> below p nA U V d -> below p nA (opt U) (opt V) (gamma * d).
Proof.
  intros U V d Hd H. apply look_le; [exact Hd|]. intros x _. destruct (b_abs x); [apply H; auto|]. apply rowmax_le. intros b Hb. apply H; auto.
Qed.
Lemma ev_H1 : forall nx, (forall x, In x D -> (nx x < nA)%nat) -> forall U V d, 0 <= d -> below p nA U V d -> below p nA (ev nx U) (ev nx V) (gamma * d).
Proof. intros nx HN U V d Hd H. apply look_le; [exact Hd|]. intros x I. apply H; auto. Qed.

(** [nx] is greedy for [Q] *)
Definition greedy (Q : nat -> nat -> R) (nx : bsample X -> nat) : Prop :=
  forall x, In x D -> (nx x < nA)%nat /\ (b_abs x = true -> nx x = 0%nat) /\
    (b_abs x = false -> Q (cell (b_s' x)) (nx x) = rowmax (map (Q (cell (b_s' x))) (seq 0 nA))).
Definition selects (nx : bsample X -> nat) : Prop := forall x, In x D -> (nx x < nA)%nat /\ (b_abs x = true -> nx x = 0%nat).

Lemma look_ext : forall f g c a, (forall x, In x D -> f x = g x) -> look f c a = look g c a.
Proof. intros f g c a H. unfold look. f_equal. apply map_ext_in. intros x I. apply filter_In in I as [I _]. rewrite H by exact I. reflexivity. Qed.
Lemma greedy_opt : forall Q nx c a, greedy Q nx -> ev nx Q c a = opt Q c a.
Proof.
  intros Q nx c a HN. apply look_ext. intros x I. destruct (HN x I) as (_ & A & B). destruct (b_abs x); [rewrite A by reflexivity; reflexivity|apply B; reflexivity].
Qed.
Lemma ev_below_opt : forall Q nx, selects nx -> below p nA (ev nx Q) (opt Q) 0.
Proof.
  intros Q nx HN. rewrite <- (Rmult_0_r gamma). apply look_le; [lra|]. intros x I. destruct (HN x I) as (L & A). rewrite Rplus_0_r.
  destruct (b_abs x); [rewrite A by reflexivity; lra|]. apply rowmax_spec; [apply seq_ne; exact HA|]. apply in_map, in_seq. lia.
Qed.

Lemma optimal_fixed : forall Q, lspi_optimal p nA cell gamma D Q <-> fixed p nA opt Q.
Proof.
  set (val := fun (Q : nat -> nat -> R) (x : bsample X) => b_r x + gamma * (if b_abs x then Q (cell (b_s' x)) 0%nat else rowmax (map (Q (cell (b_s' x))) (seq 0 nA)))).
  assert (V : forall Q h ys, Forall2 (lspi_backup nA cell gamma Q) h ys <-> ys = map (val Q) h).
  { intros Q h ys. split.
    - induction 1 as [|x y h ys [A B] F IH]; [reflexivity|]. cbn [map]. f_equal; [|exact IH]. unfold val. destruct (b_abs x); [apply A; reflexivity|].
      destruct (B eq_refl) as (v & M & ->). rewrite (max_uniq _ v _ M (rowmax_spec _ (seq_ne nA HA _))). reflexivity.
    - intros ->. induction h as [|x h IH]; constructor; [|exact IH]. unfold val, lspi_backup. split; intros E; rewrite E; [reflexivity|].
      eexists. split; [apply rowmax_spec, seq_ne; exact HA|reflexivity]. }
  intros Q. split; intros H c a Hc Ha.
  - destruct (H c a Hc Ha) as (ys & F & ->). apply V in F. rewrite F. reflexivity.
  - exists (map (val Q) (here cell D c a)). split; [apply V; reflexivity|]. apply H; assumption.
Qed.

(** * Policy iteration *)
Variable Qs : nat -> nat -> R.
Hypothesis FIX : fixed p nA opt Qs.

Lemma pi_below : forall Q nx, selects nx -> fixed p nA (ev nx) Q -> below p nA Q Qs 0.
Proof.
  intros Q nx HN F. apply (sub_fixed p nA gamma opt HA HG opt_H1); [exact FIX|]. intros c a Hc Ha. rewrite (F c a Hc Ha) at 1. apply ev_below_opt; assumption.
Qed.
Lemma greedy_selects : forall Q nx, greedy Q nx -> selects nx.
Proof. intros Q nx H x I. destruct (H x I) as (A & B & _). auto. Qed.

(** One improvement, from the values of a policy *)
Lemma pi_step : forall Q nx Q' nx', selects nx -> fixed p nA (ev nx) Q -> greedy Q nx' -> fixed p nA (ev nx') Q' ->
  below p nA Q Q' 0 /\ forall d, 0 <= d -> below p nA Qs Q d -> below p nA Qs Q' (gamma * d).
Proof.
  intros Q nx Q' nx' HN F HN' F'. assert (SEL := greedy_selects _ _ HN').
  assert (MON := ev_H1 nx' (fun x I => proj1 (SEL x I))).
  assert (UP : below p nA Q Q' 0).
  { apply (sub_fixed p nA gamma (ev nx') HA HG MON); [exact F'|]. intros c a Hc Ha. rewrite (F c a Hc Ha) at 1. rewrite (greedy_opt Q nx') by exact HN'. apply ev_below_opt; assumption. }
  split; [exact UP|]. intros d Hd B c a Hc Ha. rewrite (FIX c a Hc Ha), (F' c a Hc Ha).
  pose proof (opt_H1 Qs Q d Hd B c a Hc Ha). pose proof (MON Q Q' 0 (Rle_refl 0) UP c a Hc Ha) as M. rewrite Rmult_0_r, Rplus_0_r, greedy_opt in M by exact HN'. lra.
Qed.

(** Values close to the values that their policy was read from are close to the optimal ones *)
Lemma pi_stop : forall Q Q' nx' e, 0 <= e -> greedy Q nx' -> fixed p nA (ev nx') Q' ->
  (forall c a, (c < p)%nat -> (a < nA)%nat -> Rabs (Q' c a - Q c a) <= e) ->
  forall c a, (c < p)%nat -> (a < nA)%nat -> Rabs (Q' c a - Qs c a) <= 2 * gamma * e / (1 - gamma).
Proof.
  intros Q Q' nx' e He HN F HE c a Hc Ha. assert (SEL := greedy_selects _ _ HN).
  assert (MON := ev_H1 nx' (fun x I => proj1 (SEL x I))).
  apply (fixed_residual p nA gamma opt HA HG opt_H1); try assumption; [nra|]. clear c a Hc Ha. intros c a Hc Ha.
  pose proof (ev_below_opt Q' nx' SEL c a Hc Ha) as L. rewrite <- (F c a Hc Ha) in L.
  assert (B1 : below p nA Q' Q e) by (apply abs_below; exact HE).
  assert (B2 : below p nA Q Q' e) by (apply abs_below; intros; rewrite Rabs_minus_sym; apply HE; assumption).
  pose proof (opt_H1 Q' Q e He B1 c a Hc Ha) as U1. pose proof (MON Q Q' e He B2 c a Hc Ha) as U2.
  rewrite greedy_opt in U2 by exact HN. rewrite <- (F c a Hc Ha) in U2. apply Rabs_le. split; [nra|lra].
Qed.

Variable K : R.
Hypothesis HK : 0 <= K.
Hypothesis Hr : forall x, In x D -> Rabs (b_r x) + gamma * K <= K.
Lemma Hr' : forall x, In x D -> Rabs (b_r x) <= K - gamma * K.
Proof. intros x I. pose proof (Hr x I). lra. Qed.
Lemma opt_bound : forall c a, (c < p)%nat -> (a < nA)%nat -> Rabs (Qs c a) <= K.
Proof.
  apply (fixed_bound p nA gamma opt HA HG); try assumption. intros d Hd B c a Hc Ha. apply look_bound; try assumption; [|exact Hr'].
  intros x _. destruct (b_abs x); [apply B; auto|]. apply rowmax_bound; [exact HA|]. intros b Hb. apply B; auto.
Qed.
Lemma ev_bound : forall nx Q, selects nx -> fixed p nA (ev nx) Q -> forall c a, (c < p)%nat -> (a < nA)%nat -> Rabs (Q c a) <= K.
Proof.
  intros nx Q HN F. apply (fixed_bound p nA gamma (ev nx) HA HG); try assumption. intros d Hd B c a Hc Ha. apply look_bound; try assumption; [|exact Hr'].
  intros x I. apply B; [auto|apply HN; exact I].
Qed.
End Lspi.

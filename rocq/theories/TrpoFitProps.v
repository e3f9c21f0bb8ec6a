(** C115: TRPO, alone and trained by Core and VectorCore. *)
From Coq Require Import List Arith Lia Bool Reals Lra FunctionalExtensionality.
From Verif Require Import Common EpisodeSpec PpoModel CorePpoModel TrpoModel TrpoFitModel VecLearnModel VecLearnSpec VecPpoModel CorePpoProps VecLearnProps.
From Verif Require CoreModel CoreSpec AdvModel AdvSpec PpoProps TrpoProps.
Import ListNotations.
Local Open Scope R_scope.

Lemma nth_list_ext : forall A (l l' : list A), (forall i, nth_error l i = nth_error l' i) -> l = l'.
Proof.
  induction l as [|x l IH]; intros [|y l'] H; [reflexivity|specialize (H 0%nat); discriminate|specialize (H 0%nat); discriminate|].
  f_equal; [specialize (H 0%nat); cbn in H; congruence|]. apply IH. intros i. apply (H (S i)).
Qed.

Lemma fit_rows_defined : forall {W X Ac Pp Cr : Type} (logp : W -> X -> Ac -> R) (call : Pp -> X -> X) pupd (val : Cr -> X -> R) gamma lam (g : @agent W Pp Cr) ds,
  (2 <= length ds)%nat -> fit_rows logp call pupd val gamma lam g ds <> None.
Proof.
  intros W X Ac Pp Cr logp call pupd val gamma lam g ds H E. unfold fit_rows, AdvModel.compute_gae in E.
  match type of E with obind (normalise ?a) _ = _ => destruct (normalise a) as [adv'|] eqn:N end; [discriminate|].
  apply (proj1 (PpoProps.advantage_normalised _)) in N.
  assert (LG : forall l, length (AdvModel.gae gamma lam l) = length l) by (induction l; simpl; auto).
  rewrite LG in N. unfold gae_rows in N. rewrite map_length in N. lia.
Qed.

Section Trpo.
Context {X Ac Pp Cr : Type}.
Variable d : nat.
Variable logp : vec -> X -> Ac -> R.
Variable ent : vec -> list X -> R.
Variable kldiv : vec -> X -> vec -> X -> R.
Variable grad : (vec -> R) -> vec -> vec.
Variable hess : (vec -> R) -> vec -> nat -> nat -> R.
Variable call : Pp -> X -> X.
Variable pupd : Pp -> list X -> Pp.
Variable val : Cr -> X -> R.
Variable cfit : Cr -> list X -> list R -> Cr.
Variables (gamma lam max_kl damping tol : R) (n_ls n_cg : nat).
Hypothesis KLpos : 0 < max_kl.
Notation ag := (@agent vec Pp Cr).
Notation csample := (CoreModel.sample X Ac R unit).

(** The objective on rows [qs]: mean of probability ratio times advantage, plus entropy bonus. *)
Definition surrogate (c : R) (qs : list (@prow X Ac)) (w : vec) : R :=
  tmean (map (fun q => exp (logp w (p_x q) (p_a q) - p_old q) * p_adv q) qs) + c * ent w (map p_x qs).
(** Mean divergence, over the states of the rows, of the policy with weights [w] acting through the
    preprocessors [ps'] from the policy of the agent [g]. *)
Definition mean_kl (g : ag) (ps' : list Pp) (xs : list csample) (w : vec) : R :=
  tmean (map (fun x => kldiv (a_w g) (prep_all call (a_ps g) (CoreModel.state x)) w (prep_all call ps' (CoreModel.state x))) xs).

(** The update TRPO should make, from agent [g] to agent [g'] on the rows [xs]. *)
Definition trpo_step (cs : nat -> nat -> R) (f : nat) (g : ag) (xs : list csample) (g' : ag) : Prop :=
  a_ps g' = upd_all call pupd (a_ps g) (map CoreModel.state xs) /\
  exists adv s (qs : list (@prow X Ac)),
    length adv = length xs /\
    (forall i, (i < length xs)%nat ->
       nth i adv 0 = AdvSpec.dsum (gamma * lam) (AdvSpec.td_error gamma) (AdvSpec.to_end (skipn i (map (valued call val (a_cr g) (a_ps g')) xs)))) /\
    a_cr g' = cfit (a_cr g) (map (fun x => prep_all call (a_ps g') (CoreModel.state x)) xs)
                   (map (fun p => fst p + val (a_cr g) (prep_all call (a_ps g') (CoreModel.state (snd p)))) (combine adv xs)) /\
    0 < s /\ length qs = length xs /\
    (forall i x, nth_error xs i = Some x -> nth_error qs i =
       Some (mkP (prep_all call (a_ps g') (CoreModel.state x)) (CoreModel.action x) ((nth i adv 0 - rsum adv / INR (length adv)) / s)
                 (logp (a_w g) (prep_all call (a_ps g) (CoreModel.state x)) (CoreModel.action x)))) /\
    (* the weights stay, or one of the halved steps is taken, inside the trust region and not worse *)
    (a_w g' = a_w g \/
     let M i j := hess (mean_kl g (a_ps g') xs) (a_w g) i j + (if Nat.eqb i j then damping else 0) in
     exists k dir0 stop c, (k < n_ls)%nat /\
       cg d M tol n_cg (grad (surrogate (cs f 0%nat) qs) (a_w g)) = Some (dir0, stop) /\ 0 < c /\
       / 2 * dot d (fun i => c * dir0 i) (mulv d M (fun i => c * dir0 i)) = max_kl /\
       (forall i, a_w g' i = a_w g i + c * dir0 i * (/ 2) ^ k) /\
       mean_kl g (a_ps g') xs (a_w g') <= 1.5 * max_kl /\
       surrogate (cs f 0%nat) qs (a_w g) <= surrogate (cs f (S k)) qs (a_w g')) /\
    (* without agent preprocessors *)
    (a_ps g = [] ->
       a_ps g' = [] /\
       ((forall w x, kldiv w x w x = 0) -> mean_kl g [] xs (a_w g') <= 1.5 * max_kl) /\
       (forall c, surrogate c qs (a_w g) = c * ent (a_w g) (map CoreModel.state xs)) /\
       forall c (h : R -> vec) t0 (score : prow -> R) dent, h t0 = a_w g ->
         (forall q, In q qs -> derivable_pt_lim (fun z => logp (h z) (p_x q) (p_a q)) t0 (score q)) ->
         derivable_pt_lim (fun z => ent (h z) (map p_x qs)) t0 dent ->
         derivable_pt_lim (fun z => surrogate c qs (h z)) t0 (tmean (map (fun q => p_adv q * score q) qs) + c * dent)).

Lemma search_spec : forall loss klf prev w0 step n i m size w, size = (/ 2) ^ m ->
  search max_kl loss klf prev w0 step n i size = Some w ->
  exists k, (k < n)%nat /\ (forall j, w j = w0 j + step j * (/ 2) ^ (m + k)) /\ klf w <= 1.5 * max_kl /\ prev <= loss (i + k)%nat w.
Proof.
  intros loss klf prev w0 step. induction n as [|n IH]; intros i m size w HS H; [discriminate|]. cbn [search] in H.
  assert (K : forall w', search max_kl loss klf prev w0 step n (S i) (size * / 2) = Some w' -> w' = w ->
     exists k, (k < S n)%nat /\ (forall j, w j = w0 j + step j * (/ 2) ^ (m + k)) /\ klf w <= 1.5 * max_kl /\ prev <= loss (i + k)%nat w).
  { intros w' H' ->. destruct (IH (S i) (S m) (size * / 2) w) as (k & A & B & C & D); [rewrite HS; simpl; ring|exact H'|].
    exists (S k). split; [lia|]. replace (m + S k)%nat with (S m + k)%nat by lia. replace (i + S k)%nat with (S i + k)%nat by lia. auto. }
  destruct (Rle_dec _ _) as [L1|]; [destruct (Rle_dec 0 _) as [L2|]|]; [|apply (K _ H); reflexivity|apply (K _ H); reflexivity].
  injection H as <-. exists 0%nat. split; [lia|]. rewrite !Nat.add_0_r. split; [intros j; rewrite HS; reflexivity|]. split; lra.
Qed.

Lemma rows_states : forall (xs : list csample) (qs : list (@prow X Ac)) ps',
  length qs = length xs -> (forall i x, nth_error xs i = Some x -> exists a o, nth_error qs i = Some (mkP (prep_all call ps' (CoreModel.state x)) (CoreModel.action x) a o)) ->
  map p_x qs = map (fun x => prep_all call ps' (CoreModel.state x)) xs.
Proof.
  intros xs qs ps' L H. apply nth_list_ext. intros i. rewrite !nth_error_map.
  destruct (nth_error xs i) as [x|] eqn:E.
  - destruct (H i x E) as (a & o & ->). reflexivity.
  - apply nth_error_None in E. assert (Q : nth_error qs i = None) by (apply nth_error_None; lia). rewrite Q. reflexivity.
Qed.

Lemma trpo_defined : forall cs f (g : ag) ds, (2 <= length ds)%nat ->
  trpo_upd d logp ent kldiv grad hess call pupd val cfit true gamma lam max_kl damping tol n_ls n_cg cs f g ds <> None.
Proof.
  intros cs f g ds H E. unfold trpo_upd, trpo_fit in E.
  destruct (fit_rows logp call pupd val gamma lam g ds) as [[[ps' vt] rows]|] eqn:F; [|exact (fit_rows_defined logp call pupd val gamma lam g ds H F)].
  cbn [obind] in E. destruct (trpo_policy _ _ _ _ _ _ _ _ _ _ _ _ _ _ _ _) eqn:TP; [discriminate|].
  unfold trpo_policy in TP. destruct (cg _ _ _ _ _) as [[? ?]|]; [|discriminate]. destruct (Rlt_dec _ _); [|discriminate]. destruct (search _ _ _ _ _ _ _ _ _); discriminate.
Qed.

Lemma centred : forall l s, 0 < INR (length l) -> rsum (map (fun x => (x - rsum l / INR (length l)) / s) l) = 0.
Proof.
  intros l s HL. transitivity (/ s * rsum (map (fun x => x - rsum l / INR (length l)) l)).
  - rewrite <- PpoProps.rsum_scale, map_map. f_equal. apply map_ext. intros. unfold Rdiv. ring.
  - rewrite PpoProps.rsum_center. replace (rsum l - INR (length l) * (rsum l / INR (length l))) with 0 by (field; lra). ring.
Qed.

Theorem trpo_step_correct : forall nan_ok cs f (g g' : ag) (xs : list csample), (2 <= length xs)%nat ->
  Forall (fun x => CoreModel.absorbing x = true -> CoreModel.last x = true) xs ->
  trpo_upd d logp ent kldiv grad hess call pupd val cfit nan_ok gamma lam max_kl damping tol n_ls n_cg cs f g (map c_read xs) = Some g' ->
  trpo_step cs f g xs g'.
Proof.
  intros nan_ok cs f g g' xs LX HA H. unfold trpo_upd, trpo_fit in H.
  destruct (fit_rows logp call pupd val gamma lam g (map c_read xs)) as [[[ps' vt] rows]|] eqn:F; [|discriminate]. cbn [obind] in H.
  destruct (trpo_policy _ _ _ _ _ _ _ _ _ _ _ _ _ _ _ _) as [w|] eqn:TP; [|discriminate]. cbn [obind] in H. injection H as <-.
  destruct (fit_rows_correct logp call pupd val gamma lam g xs ps' vt rows HA F) as (EP & adv & s & GL & GN & EV & SP & LR & RR).
  unfold trpo_step. cbn [a_ps a_cr a_w]. split; [exact EP|].
  exists adv, s, rows. split; [exact GL|]. split; [exact GN|]. split; [rewrite EV; f_equal; rewrite map_map; reflexivity|].
  split; [exact SP|]. split; [exact LR|]. split; [exact RR|].
  assert (EX : map p_x rows = map (fun x => prep_all call ps' (CoreModel.state x)) xs).
  { apply (rows_states xs rows ps' LR). intros i x E. eexists. eexists. apply (RR i x E). }
  assert (EK : trpo_kl kldiv (a_w g) (map (fun t => prep_all call (a_ps g) (t_s t)) (map c_read xs)) (map p_x rows) = mean_kl g ps' xs).
  { extensionality v. unfold trpo_kl, mean_kl. f_equal. rewrite EX, map_map. cbn [c_read t_s].
    clear. induction xs as [|x xs IH]; [reflexivity|]. cbn [map combine fst snd]. f_equal. exact IH. }
  assert (W : w = a_w g \/
     let M i j := hess (mean_kl g ps' xs) (a_w g) i j + (if Nat.eqb i j then damping else 0) in
     exists k dir0 stop c, (k < n_ls)%nat /\
       cg d M tol n_cg (grad (surrogate (cs f 0%nat) rows) (a_w g)) = Some (dir0, stop) /\ 0 < c /\
       / 2 * dot d (fun i => c * dir0 i) (mulv d M (fun i => c * dir0 i)) = max_kl /\
       (forall i, w i = a_w g i + c * dir0 i * (/ 2) ^ k) /\
       mean_kl g ps' xs w <= 1.5 * max_kl /\
       surrogate (cs f 0%nat) rows (a_w g) <= surrogate (cs f (S k)) rows w).
  { unfold trpo_policy in TP. rewrite EK in TP. unfold fisher in TP. cbv zeta.
    change (trpo_loss logp ent (cs f 0%nat) rows) with (surrogate (cs f 0%nat) rows) in TP.
    set (M := fun i j => hess (mean_kl g ps' xs) (a_w g) i j + (if Nat.eqb i j then damping else 0)) in *.
    destruct (cg d M tol n_cg (grad (surrogate (cs f 0%nat) rows) (a_w g))) as [[dir0 stop]|] eqn:EC; [|destruct nan_ok; [left; congruence|discriminate]].
    destruct (Rlt_dec 0 (dot d dir0 (mulv d M dir0))) as [P|]; [|destruct nan_ok; [left; congruence|discriminate]].
    destruct (search _ _ _ _ _ _ _ _ _) as [w'|] eqn:ES; [|left; congruence]. injection TP as ->. right.
    destruct (TrpoProps.full_step_kl d M max_kl dir0 KLpos P) as (FK & c & Hc & FE).
    assert (FE' : full_step d M max_kl dir0 = fun i => c * dir0 i) by (extensionality i; apply FE).
    rewrite FE' in FK, ES.
    destruct (search_spec _ _ _ _ _ _ 1%nat 0%nat 1 w eq_refl ES) as (k & A & B & C & D).
    exists k, dir0, stop, c. repeat split; auto. }
  split; [exact W|].
  intros EN. rewrite EN in EP. cbn in EP. subst ps'. split; [reflexivity|].
  assert (SUM : rsum (map p_adv rows) = 0).
  { assert (EA : map p_adv rows = map (fun x => (x - rsum adv / INR (length adv)) / s) adv).
    { apply nth_list_ext. intros i. rewrite !nth_error_map. destruct (nth_error xs i) as [x|] eqn:E.
      - rewrite (RR i x E). assert (i < length xs)%nat by (apply nth_error_Some; congruence). rewrite (List.nth_error_nth' adv 0) by lia. reflexivity.
      - apply nth_error_None in E. assert (Q1 : nth_error rows i = None) by (apply nth_error_None; lia). assert (Q2 : nth_error adv i = None) by (apply nth_error_None; lia). rewrite Q1, Q2. reflexivity. }
    rewrite EA. apply centred. apply lt_0_INR. lia. }
  assert (ONE : forall q, In q rows -> exp (logp (a_w g) (p_x q) (p_a q) - p_old q) = 1).
  { intros q Hq. apply In_nth_error in Hq as (i & Hi). destruct (nth_error xs i) as [x|] eqn:E.
    - rewrite (RR i x E) in Hi. injection Hi as <-. cbn [p_x p_a p_old]. rewrite EN. rewrite Rminus_eq_0. apply exp_0.
    - apply nth_error_None in E. assert (i < length rows)%nat by (apply nth_error_Some; congruence). lia. }
  assert (INR (length xs) <> 0) by (apply not_0_INR; lia).
  split; [|split].
  - intros K0. assert (Z : mean_kl g [] xs (a_w g) = 0).
    { unfold mean_kl. rewrite EN. unfold tmean. rewrite (map_ext _ (fun _ => 0)) by (intros; apply K0). rewrite rsum_map_const. unfold Rdiv. ring. }
    destruct W as [->|(k & dir0 & stop & c & _ & _ & _ & _ & _ & Q & _)]; [rewrite Z; lra|exact Q].
  - intros c. unfold surrogate. rewrite EX. cbn [prep_all fold_left]. 
    assert (Z : tmean (map (fun q => exp (logp (a_w g) (p_x q) (p_a q) - p_old q) * p_adv q) rows) = 0).
    { rewrite (map_ext_in _ p_adv) by (intros q Hq; rewrite (ONE q Hq); ring). unfold tmean. rewrite SUM. unfold Rdiv. ring. }
    rewrite Z. rewrite Rplus_0_l. reflexivity.
  - intros c h t0 score dent Hh Hs Hd. unfold surrogate.
    apply (derivable_pt_lim_plus (fun z => tmean (map (fun q => exp (logp (h z) (p_x q) (p_a q) - p_old q) * p_adv q) rows)) (fun z => c * ent (h z) (map p_x rows))).
    + apply (PpoProps.lim_tmean _ (fun q z => exp (logp (h z) (p_x q) (p_a q) - p_old q) * p_adv q) (fun q => p_adv q * score q)).
      intros q Hq. pose proof (PpoProps.ratio_deriv logp h t0 q _ (Hs q Hq)) as D1. unfold ratio in D1. rewrite Hh, (ONE q Hq) in D1.
      replace (p_adv q * score q) with (1 * score q * p_adv q + exp (logp (h t0) (p_x q) (p_a q) - p_old q) * 0) by ring.
      apply (derivable_pt_lim_mult (fun z => exp (logp (h z) (p_x q) (p_a q) - p_old q)) (fun _ => p_adv q)); [exact D1|apply derivable_pt_lim_const].
    + apply (derivable_pt_lim_scal (fun z => ent (h z) (map p_x rows))). exact Hd.
Qed.

(** ** Under Core and VectorCore *)
Section Run.
Context {En : Type}.
Variable pol : vec -> nat -> X -> Ac.
Variable hor : option nat.
Hypothesis Hhor : hor <> Some 0%nat.

(** C115.  Told to fit every k >= 2 steps or episodes, TRPO never fails and every fit makes that
    update on the transitions made since the fit before, drawn from the policy being updated. *)
Theorem core_trpo_updates : forall (env_reset : En -> option X -> En * X) (env_step : En -> Ac -> En * X * R * bool) cs fuel e a l ns ne k spf epf r,
  let U := trpo_upd d logp ent kldiv grad hess call pupd val cfit true gamma lam max_kl damping tol n_ls n_cg cs in
  (2 <= k)%nat -> every k spf epf ->
  CoreModel.learn (c_world call pol U env_reset env_step hor) fuel e a l ns ne spf epf = CoreModel.Done r ->
  c_ok (CoreModel.r_ag r) = c_ok a /\
  fits_fresh call pol U env_reset env_step hor e a k (CoreModel.r_log r) (trpo_step cs).
Proof.
  intros env_reset env_step cs fuel e a l ns ne k spf epf r U K HE HD.
  assert (DEF : forall f ag ds, (2 <= length ds)%nat -> U f ag ds <> None) by (intros f ag0 ds L; apply trpo_defined; exact L).
  split; [apply (never_fails call pol U env_reset env_step hor Hhor DEF fuel e a l ns ne k spf epf r K HE HD)|].
  eapply fits_fresh_impl; [|apply (fresh_fits call pol U env_reset env_step hor Hhor DEF fuel e a l ns ne k spf epf r K HE HD)].
  cbn beta. intros f g xs g' L FL H. apply (trpo_step_correct true cs f g g' xs ltac:(lia)); [|exact H].
  eapply Forall_impl; [|exact FL]. intros x [A _]. exact A.
Qed.

(** C115.  The same under VectorCore, with advantages that stay inside each environment. *)
Theorem vec_trpo_updates : forall n garb (e_reset : En -> En * X) (e_step : En -> Ac -> En * X * R * bool) cs fuel l es a ns ne spf epf k s,
  let U := trpo_upd d logp ent kldiv grad hess call pupd val cfit true gamma lam max_kl damping tol n_ls n_cg cs in
  (2 <= n)%nat -> (2 <= k)%nat -> length es = n -> covered n hor k ns ne spf epf ->
  vec_learn n hor garb e_reset e_step call pol U fuel l es a ns ne spf epf = XDone s ->
  c_ok (x_ag s) = c_ok a /\
  vec_fits n e_reset e_step call pol U es a k (x_ev s)
    (fun f g w xs g' =>
       trpo_step cs f g xs g' /\
       forall j i, (j < n)%nat -> (i < length (of_env j w))%nat ->
         let V := map (valued call val (a_cr g) (a_ps g')) in
         AdvSpec.to_end (skipn (length (by_env j w) + i) (V xs)) = AdvSpec.to_end (skipn i (V (closed (of_env j w))))).
Proof.
  intros n garb e_reset e_step cs fuel l es a ns ne spf epf k s U Hn K Hes HC HD.
  assert (DEF : forall f ag ds, (2 <= length ds)%nat -> U f ag ds <> None) by (intros f ag0 ds L; apply trpo_defined; exact L).
  destruct (vec_fresh n hor garb e_reset e_step call pol U Hn Hhor DEF fuel l es a ns ne spf epf k s K Hes HC HD) as [OK VF].
  split; [exact OK|]. intros u ds v EQ. destruct (VF u ds v EQ) as (u0 & w & es1 & a1 & a2 & EU & AP & NF & ED & LK & H1 & H2 & OP & FL & UP).
  exists u0, w, es1, a1, a2. do 9 (split; [assumption|]). split.
  - apply (trpo_step_correct true cs (c_fits a1) (c_ag a1) (c_ag a2) ds ltac:(lia) FL UP).
  - intros j i J HI V. subst ds. apply (stays_in_env n Hn); auto.
Qed.
End Run.
End Trpo.

(** ** Where the trust region is not kept *)

(** Unit-variance Gaussian policy with mean weight times state; a preprocessor that subtracts the
    mean of the last dataset. *)
Definition gp_logp (w : vec) (x a : R) : R := - ((a - w 0%nat * x) * (a - w 0%nat * x)) / 2.
Definition gp_kl (w : vec) (x : R) (w' : vec) (x' : R) : R := (w 0%nat * x - w' 0%nat * x') * (w 0%nat * x - w' 0%nat * x') / 2.
Definition gp_call (p x : R) : R := x - p.
Definition gp_upd (p : R) (xs : list R) : R := rsum xs / INR (length xs).
Definition gp_agent : @agent vec R unit := {| a_w := fun _ => 1; a_ps := [0]; a_cr := tt |}.
Definition gp_row (a r : R) : CoreModel.sample R R R unit := CoreModel.mkS 10 a r 10 false true tt tt.

(** C115.  With an agent preprocessor that follows the data the policy that acts after a fit can be
    arbitrarily far from the one that acted before although the line search rejected every step:
    the weights are put back, the preprocessor is not. *)
Theorem trpo_trust_region_refuted : forall d ent grad hess gamma lam max_kl damping tol n_ls n_cg cs, 0 < max_kl <= 1 ->
  let xs := [gp_row 9 0; gp_row 11 1] in
  (forall w x, gp_kl w x w x = 0) /\
  exists g', trpo_upd d gp_logp ent gp_kl grad hess gp_call gp_upd (fun _ _ => 0) (fun c _ _ => c) true gamma lam max_kl damping tol n_ls n_cg cs 0 gp_agent (map c_read xs) = Some g' /\
    a_w g' = a_w gp_agent /\ a_ps g' = [10] /\
    mean_kl gp_kl gp_call gp_agent (a_ps g') xs (a_w g') = 50.
Proof.
  intros d ent grad hess gamma lam max_kl damping tol n_ls n_cg cs HK xs.
  split. { intros w x. unfold gp_kl. replace (w 0%nat * x - w 0%nat * x) with 0 by ring. unfold Rdiv. ring. }
  destruct (trpo_upd d gp_logp ent gp_kl grad hess gp_call gp_upd (fun _ _ => 0) (fun c _ _ => c) true gamma lam max_kl damping tol n_ls n_cg cs 0 gp_agent (map c_read xs)) as [g'|] eqn:E.
  2: { exfalso. revert E. apply trpo_defined. simpl. lia. }
  exists g'. split; [reflexivity|].
  assert (ST := trpo_step_correct d gp_logp ent gp_kl grad hess gp_call gp_upd (fun _ _ => 0) (fun c _ _ => c) gamma lam max_kl damping tol n_ls n_cg ltac:(lra) true cs 0 gp_agent g' xs ltac:(simpl; lia)
     ltac:(repeat constructor) E).
  destruct ST as (EP & adv & s & qs & _ & _ & _ & _ & _ & _ & W & _).
  assert (EP' : a_ps g' = [10]).
  { rewrite EP. cbn [gp_agent a_ps upd_all map xs gp_row CoreModel.state]. unfold gp_upd. cbn. f_equal. field. }
  assert (KL : forall w, mean_kl gp_kl gp_call gp_agent (a_ps g') xs w = 50).
  { intros w. rewrite EP'. unfold mean_kl, tmean, prep_all, gp_kl, gp_call, xs, gp_row. cbn. field. }
  split; [|split; [exact EP'|apply KL]].
  destruct W as [W|(k & dir0 & stop & c & _ & _ & _ & _ & _ & Q & _)]; [exact W|]. rewrite KL in Q. lra.
Qed.

(** C115.  When all advantages are equal, as with rewards and values that are zero, and there is no
    entropy bonus, there is no direction: the weights stay, except that a policy that checks its
    arguments makes fit raise. *)
Theorem trpo_flat_data_refuted : forall {X Ac Pp Cr : Type} d (logp : vec -> X -> Ac -> R) ent kldiv grad hess (call : Pp -> X -> X) pupd (val : Cr -> X -> R) cfit nan_ok gamma lam max_kl damping tol n_ls n_cg cs f
    (g : @agent vec Pp Cr) (xs : list (CoreModel.sample X Ac R unit)) z,
  (forall w i, grad (fun _ : vec => 0) w i = 0) -> (2 <= length xs)%nat ->
  Forall (fun x => CoreModel.absorbing x = true -> CoreModel.last x = true) xs ->
  (forall i, (i < length xs)%nat -> AdvSpec.dsum (gamma * lam) (AdvSpec.td_error gamma)
     (AdvSpec.to_end (skipn i (map (valued call val (a_cr g) (upd_all call pupd (a_ps g) (map CoreModel.state xs))) xs))) = z) ->
  cs f 0%nat = 0 ->
  match trpo_upd d logp ent kldiv grad hess call pupd val cfit nan_ok gamma lam max_kl damping tol n_ls n_cg cs f g (map c_read xs) with
  | Some g' => nan_ok = true /\ a_w g' = a_w g
  | None => nan_ok = false
  end.
Proof.
  intros X Ac Pp Cr d logp ent kldiv grad hess call pupd val cfit nan_ok gamma lam max_kl damping tol n_ls n_cg cs f g xs z HG LX HA HZ HC.
  unfold trpo_upd, trpo_fit.
  destruct (fit_rows logp call pupd val gamma lam g (map c_read xs)) as [[[ps' vt] rows]|] eqn:F.
  2: { exfalso. revert F. apply fit_rows_defined. rewrite map_length. exact LX. }
  cbn [obind].
  destruct (fit_rows_correct logp call pupd val gamma lam g xs ps' vt rows HA F) as (EP & adv & s & GL & GN & EV & SP & LR & RR).
  assert (ADV : forall i, (i < length xs)%nat -> nth i adv 0 = z) by (intros i Hi; rewrite GN by exact Hi; rewrite EP; apply HZ; exact Hi).
  assert (EA : adv = repeat z (length xs)).
  { apply nth_list_ext. intros i. destruct (lt_dec i (length xs)) as [L|L].
    - rewrite (List.nth_error_nth' adv 0) by lia. rewrite ADV by exact L. rewrite (List.nth_error_nth' (repeat z (length xs)) z) by (rewrite repeat_length; exact L). f_equal. symmetry. apply nth_repeat.
    - assert (Q1 : nth_error adv i = None) by (apply nth_error_None; lia). assert (Q2 : nth_error (repeat z (length xs)) i = None) by (apply nth_error_None; rewrite repeat_length; lia). rewrite Q1, Q2. reflexivity. }
  assert (LN : INR (length xs) <> 0) by (apply not_0_INR; lia).
  assert (MZ : rsum adv / INR (length adv) = z).
  { rewrite EA, repeat_length. assert (RS : forall n, rsum (repeat z n) = INR n * z) by (induction n as [|n IH]; [simpl; ring|cbn [repeat rsum]; rewrite IH, S_INR; ring]). rewrite RS. field. exact LN. }
  assert (PZ : forall q, In q rows -> p_adv q = 0).
  { intros q Hq. apply In_nth_error in Hq as (i & Hi). destruct (nth_error xs i) as [x|] eqn:E.
    - rewrite (RR i x E) in Hi. injection Hi as <-. cbn [p_adv]. assert (i < length xs)%nat by (apply nth_error_Some; congruence). rewrite ADV, MZ by assumption. unfold Rdiv. ring.
    - apply nth_error_None in E. assert (i < length rows)%nat by (apply nth_error_Some; congruence). lia. }
  assert (LZ : trpo_loss logp ent (cs f 0%nat) rows = fun _ => 0).
  { extensionality w. unfold trpo_loss. rewrite HC. rewrite (map_ext_in _ (fun _ => 0)) by (intros q Hq; rewrite (PZ q Hq); ring).
    unfold tmean. rewrite rsum_map_const. unfold Rdiv. ring. }
  unfold trpo_policy. rewrite LZ.
  set (M := fisher _ _ _ _).
  assert (DZ : forall u v : vec, (forall i, u i = 0) -> dot d u v = 0).
  { intros u v Hu. unfold dot. rewrite (rsum_map_ext _ _ (fun _ => 0)) by (intros i _; rewrite Hu; ring). rewrite rsum_map_const. ring. }
  assert (CG : cg d M tol n_cg (grad (fun _ => 0) (a_w g)) = None \/ cg d M tol n_cg (grad (fun _ => 0) (a_w g)) = Some (fun _ => 0, false)).
  { unfold cg. destruct n_cg as [|n]; [right; reflexivity|]. left. cbn [cg_loop]. rewrite DZ by (intros i; apply HG). destruct (Req_EM_T 0 0); [reflexivity|congruence]. }
  destruct CG as [->| ->].
  - destruct nan_ok; cbn [obind a_w]; auto.
  - rewrite DZ by reflexivity. destruct (Rlt_dec 0 0); [lra|]. destruct nan_ok; cbn [obind a_w]; auto.
Qed.

(** Two rows with actions 1 and -1 and advantages 1 and -1, weight 0, gradient and Fisher matrix 1,
    max_kl = 1/2: the full step to weight 1 has divergence 1/2 and is taken. *)
Definition tx_logp (w : vec) (x a : R) : R := - ((a - w 0%nat) * (a - w 0%nat)) / 2.
Definition tx_kl (w : vec) (x : R) (w' : vec) (x' : R) : R := (w 0%nat - w' 0%nat) * (w 0%nat - w' 0%nat) / 2.
Definition tx_rows : list (@prow R R) := [mkP 0 1 1 (- 1 / 2); mkP 0 (-1) (-1) (- 1 / 2)].
Example trpo_policy_ex : forall n m, exists w,
  trpo_policy 1 tx_logp (fun _ _ => 0) tx_kl (fun _ _ _ => 1) (fun _ _ _ _ => 1) true (1 / 2) 0 (/ 10 ^ 10) (S n) (S m) (fun _ => 0) tx_rows [0; 0] (fun _ => 0) = Some w /\
  w 0%nat = 1 /\ trpo_kl tx_kl (fun _ => 0) [0; 0] [0; 0] w = 1 / 2.
Proof.
  intros n m. unfold trpo_policy. set (M := fisher _ _ _ _).
  assert (ME : M 0%nat 0%nat = 1) by (unfold M, fisher; simpl; ring).
  assert (DM : forall u v : vec, dot 1 u v = u 0%nat * v 0%nat) by (intros; unfold dot; simpl; ring).
  assert (MM : forall v : vec, mulv 1 M v 0%nat = v 0%nat) by (intros; unfold mulv; simpl; rewrite ME; ring).
  assert (T : 0 < / 10 ^ 10) by (apply Rinv_0_lt_compat, pow_lt; lra). set (tol := / 10 ^ 10) in *. clearbody tol.
  assert (CG : exists s, cg 1 M tol (S m) (fun _ => 1) = Some (s, true) /\ s 0%nat = 1).
  { unfold cg. cbn [cg_loop]. rewrite !DM, !MM. destruct (Req_EM_T _ _); [lra|].
    destruct (Rlt_dec _ _) as [L|L]; [eexists; split; [reflexivity|cbv beta; lra]|]. exfalso. apply L. lra. }
  destruct CG as (s & -> & S0). rewrite DM, MM, S0. destruct (Rlt_dec 0 (1 * 1)); [|lra].
  assert (FS : full_step 1 M (1 / 2) s 0%nat = 1).
  { unfold full_step. rewrite DM, MM, S0. replace (/ 2 * (1 * 1) / (1 / 2)) with 1 by field. rewrite sqrt_1. field. }
  set (w1 := fun j => 0 + full_step 1 M (1 / 2) s j * 1).
  assert (W1 : w1 0%nat = 1) by (unfold w1; rewrite FS; ring). cbn [search]. fold w1.
  assert (KL : forall l, trpo_kl tx_kl (fun _ => 0) [0; 0] l w1 = 1 / 2 \/ length l <> 2%nat).
  { intros l. destruct l as [|a [|b [|c l]]]; try (right; simpl; lia). left. unfold trpo_kl, tmean, tx_kl. cbn. rewrite W1. field. }
  assert (LO : forall w, trpo_loss tx_logp (fun _ _ => 0) 0 tx_rows w = (exp (w 0%nat - w 0%nat * w 0%nat / 2) - exp (- w 0%nat - w 0%nat * w 0%nat / 2)) / 2).
  { intros w. unfold trpo_loss, tmean, ratio, tx_rows, tx_logp. cbn [map rsum length p_adv p_x p_a p_old INR].
    replace (- ((1 - w 0%nat) * (1 - w 0%nat)) / 2 - - 1 / 2) with (w 0%nat - w 0%nat * w 0%nat / 2) by field.
    replace (- ((-1 - w 0%nat) * (-1 - w 0%nat)) / 2 - - 1 / 2) with (- w 0%nat - w 0%nat * w 0%nat / 2) by field. field. }
  destruct (Rle_dec _ _) as [L1|L1].
  - destruct (Rle_dec _ _) as [L2|L2].
    + exists w1. split; [reflexivity|]. split; [exact W1|]. destruct (KL [0; 0]) as [K|K]; [exact K|]. exfalso. apply K. reflexivity.
    + exfalso. apply L2. rewrite !LO, W1.
      assert (exp (- (1) - 1 * 1 / 2) <= exp (1 - 1 * 1 / 2)) by (left; apply exp_increasing; lra).
      cbv beta. rewrite Ropp_0. lra.
  - exfalso. apply L1. destruct (KL (map p_x tx_rows)) as [->|K]; [lra|]. exfalso. apply K. reflexivity.
Qed.

(** Flat data: two steps without reward, critic zero. *)
Example trpo_flat_ex : forall d hess max_kl damping tol n_ls n_cg,
  trpo_upd d gp_logp (fun _ _ => 0) gp_kl (fun _ _ _ => 0) hess gp_call gp_upd (fun _ _ => 0) (fun c _ _ => c) false 0 1 max_kl damping tol n_ls n_cg (fun _ _ => 0) 0
    gp_agent (map c_read [gp_row 9 0; gp_row 11 0]) = None.
Proof.
  intros d hess max_kl damping tol n_ls n_cg.
  pose proof (trpo_flat_data_refuted d gp_logp (fun _ _ => 0) gp_kl (fun _ _ _ => 0) hess gp_call gp_upd (fun _ _ => 0) (fun c _ _ => c) false 0 1 max_kl damping tol n_ls n_cg (fun _ _ => 0) 0
    gp_agent [gp_row 9 0; gp_row 11 0] 0 (fun _ _ => eq_refl) ltac:(simpl; lia) ltac:(repeat constructor)) as H.
  destruct (trpo_upd _ _ _ _ _ _ _ _ _ _ _ _ _ _ _ _ _ _ _ _ _ _); [|reflexivity].
  destruct H as [H _]; [|reflexivity|discriminate].
  intros [|[|i]] Hi; [| |simpl in Hi; lia]; cbn; unfold AdvSpec.dsum, AdvSpec.td_error; cbn; ring.
Qed.

Print Assumptions trpo_step_correct.
Print Assumptions core_trpo_updates.
Print Assumptions vec_trpo_updates.
Print Assumptions trpo_trust_region_refuted.
Print Assumptions trpo_flat_data_refuted.

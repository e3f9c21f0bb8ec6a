(** C120: the direction of eNAC is the natural gradient of its episodes. *)
From Coq Require Import List Arith Lia Reals Lra Bool.
From Verif Require Import Common EpisodeSpec PgModel PgSpec PgProofs CorePgModel CorePgProps PgExpSpec PgExpProps Mat EnacModel EnacSpec EnacProofs EnacPinv.
From Verif Require CoreModel CoreSpec.
Import ListNotations.
Local Open Scope R_scope.

(** ** Under Core every fit takes the least squares fit of its episodes *)
Section Core.
Context {En Ob Ac Os : Type}.
Variable gamma : R.
Variable dlog : vec -> Ob -> Ac -> vec.
Variable phi : Ob -> list R.
Variable pol : vec -> nat -> Ob -> Ac.
Variable env_reset : En -> option Ob -> En * Ob.
Variable env_step : En -> Ac -> En * Ob * R * bool.
Variable hor : option nat.
Hypothesis Hhor : hor <> Some 0%nat.

Theorem core_enac_least_squares : forall pinv d c (opt : Os -> vec -> vec -> Os * vec) fuel e a l ns ne k r,
  (forall n m A, penrose n m A (pinv n m A)) -> (forall o, length (phi o) = c) ->
  let W := p_world gamma enac dlog phi pol (en_opt pinv d opt) env_reset env_step hor in
  reached gamma enac en0 dlog phi pol (en_opt pinv d opt) env_reset env_step hor a -> (2 <= k)%nat ->
  CoreModel.learn W fuel e a l ns ne None (Some k) = CoreModel.Done r ->
  p_ok (CoreModel.r_ag r) = true /\
  fits_right gamma enac dlog phi pol (en_opt pinv d opt) env_reset env_step hor
    (fun eps g => least_squares gamma d c eps (en_direction pinv d g)) e a k (CoreModel.r_log r).
Proof.
  intros pinv d c opt fuel e a l ns ne k r HP HC W H K HD.
  destruct (core_enac_updates gamma dlog phi pol env_reset env_step hor Hhor (en_opt pinv d opt) fuel e a l ns ne k r H K HD) as [OK FR].
  split; [exact OK|]. intros u ds v E. destruct (FR u ds v E) as (u0 & w & e1 & a1 & e2 & a2 & a3 & g & R1 & R2 & R3 & R4 & R5 & R6 & R7 & R8 & R9 & R10 & R11 & R12 & R13 & R14).
  exists u0, w, e1, a1, e2, a2, a3, g. repeat (split; [assumption|]). split; [|split; assumption].
  destruct R12 as (psi & -> & LP & RW).
  set (eps := map (map _) _) in *.
  assert (LE : length eps = k) by (unfold eps; rewrite map_length; exact R8).
  assert (NE : eps <> []) by (intros Z; rewrite Z in LE; cbn in LE; lia).
  apply direction_least; [|exact NE|apply HP].
  split; [exact LP|]. split; [|exact RW]. apply Forall_forall. intros ep IN. unfold eps in IN. apply in_map_iff in IN as (ro & <- & IN).
  pose proof (split_complete CoreModel.last (CoreModel.rows ds)) as SC. rewrite Forall_forall in SC. destruct (SC ro IN) as (b & x & -> & _).
  destruct b as [|y b]; cbn [app map]; eexists; eexists; (split; [reflexivity|]); cbn [phi_c]; apply HC.
Qed.
End Core.

(** ** Averages and covariances *)
Lemma average_ext : forall eps f g, (forall e, In e eps -> f e = g e) -> average eps f = average eps g.
Proof. intros. unfold average. f_equal. apply rsum_map_ext. auto. Qed.
Lemma average_plus : forall eps f g, average eps (fun e => f e + g e) = average eps f + average eps g.
Proof. intros. unfold average. rewrite rsum_map_plus. unfold Rdiv. ring. Qed.
Lemma average_scal : forall eps a f, average eps (fun e => a * f e) = a * average eps f.
Proof. intros. unfold average. rewrite rsum_map_scal. unfold Rdiv. ring. Qed.
Lemma average_const : forall eps a, eps <> [] -> average eps (fun _ => a) = a.
Proof. intros eps a H. unfold average. rewrite rsum_map_const. field. apply not_0_INR. destruct eps; [congruence|discriminate]. Qed.
Lemma average_sm : forall eps d (f : nat -> list sample -> R), average eps (fun e => sm d (fun j => f j e)) = sm d (fun j => average eps (f j)).
Proof.
  intros eps d f. induction d as [|d IH].
  - unfold sm. cbn. unfold average. rewrite rsum_map_const. unfold Rdiv. ring.
  - rewrite sm_S, <- IH, <- average_plus. apply average_ext. intros. rewrite sm_S. reflexivity.
Qed.
Lemma covariance_moments : forall eps f g, eps <> [] -> covariance eps f g = average eps (fun e => f e * g e) - average eps f * average eps g.
Proof.
  intros eps f g H. unfold covariance.
  rewrite (average_ext eps _ (fun e => f e * g e + (- average eps g * f e + (- average eps f * g e + average eps f * average eps g)))) by (intros; ring).
  rewrite !average_plus, !average_scal, average_const by exact H. ring.
Qed.

(** Episodes seen with the constant critic feature, the default of the constructor. *)
Definition constant_critic (eps : list (list sample)) : Prop := Forall (fun e => exists x t, e = x :: t /\ phi_c x = [1]) eps.

Lemma predicted_constant : forall gamma d w v e, (exists x t, e = x :: t /\ phi_c x = [1]) ->
  predicted gamma d 1 w v e = dot d (discounted_score gamma e) w + v 0%nat.
Proof. intros gamma d w v e (x & t & -> & E). unfold predicted. rewrite E. unfold sm at 1. cbn [seq map rsum nth]. ring. Qed.

(** With the default critic: the covariance matrix of the discounted scores times the direction is
    the covariance of scores and returns, that is the vanilla gradient estimate with the average
    return as baseline; and the direction never descends. *)
Theorem enac_natural_gradient : forall gamma d eps w, eps <> [] -> constant_critic eps -> least_squares gamma d 1 eps w ->
  let psi i e := discounted_score gamma e i in
  (forall i, (i < d)%nat -> sm d (fun j => covariance eps (psi i) (psi j) * w j) = covariance eps (psi i) (return_ gamma)) /\
  0 <= sm d (fun i => w i * covariance eps (psi i) (return_ gamma)) /\
  (sm d (fun i => w i * covariance eps (psi i) (return_ gamma)) = 0 -> forall i, (i < d)%nat -> covariance eps (psi i) (return_ gamma) = 0).
Proof.
  intros gamma d eps w NE CC (v & H) psi. pose proof (normal_equations gamma d 1 eps w v (fun a b => proj1 (H a b))) as NQ. clear H.
  unfold constant_critic in CC. rewrite Forall_forall in CC.
  set (rho := fun e => return_ gamma e - dot d (discounted_score gamma e) w).
  assert (A0 : average eps rho = v 0%nat).
  { pose proof (NQ (fun _ => 0) (fun _ => 1)) as Q.
    rewrite (rsum_map_ext _ _ (fun e => rho e + - v 0%nat)) in Q.
    - rewrite rsum_map_plus, rsum_map_const in Q. unfold average. assert (INR (length eps) <> 0) by (apply not_0_INR; destruct eps; [congruence|discriminate]).
      assert (Q' : rsum (map rho eps) = INR (length eps) * v 0%nat) by lra. rewrite Q'. field. assumption.
    - intros e Hin. rewrite !predicted_constant by auto. unfold dot at 1. rewrite sm_zero by (intros; ring). unfold rho. ring. }
  assert (A1 : forall i, (i < d)%nat -> average eps (fun e => psi i e * rho e) = average eps (psi i) * v 0%nat).
  { intros i Hi. pose proof (NQ (unit_v i) (fun _ => 0)) as Q.
    rewrite (rsum_map_ext _ _ (fun e => psi i e * rho e + - v 0%nat * psi i e)) in Q.
    - rewrite rsum_map_plus, rsum_map_scal in Q. unfold average. assert (Q' : rsum (map (fun e => psi i e * rho e) eps) = v 0%nat * rsum (map (psi i) eps)) by lra.
      rewrite Q'. unfold Rdiv. ring.
    - intros e Hin. rewrite !predicted_constant by auto. rewrite dot_comm, dot_unit_l by exact Hi. unfold rho, psi. ring. }
  assert (L : forall f, covariance eps f rho = covariance eps f (return_ gamma) - sm d (fun j => covariance eps f (psi j) * w j)).
  { intros f. rewrite !covariance_moments by exact NE.
    rewrite (sm_ext d _ (fun j => average eps (fun e => f e * psi j e) * w j - average eps f * (average eps (psi j) * w j))) by (intros; rewrite covariance_moments by exact NE; ring).
    rewrite sm_minus, sm_scal.
    rewrite (average_ext eps (fun e => f e * rho e) (fun e => f e * return_ gamma e + (-1) * sm d (fun j => w j * (f e * psi j e)))).
    2:{ intros e _. unfold rho, dot, psi. rewrite (sm_ext d (fun j => w j * (f e * discounted_score gamma e j)) (fun j => f e * (discounted_score gamma e j * w j))) by (intros; ring). rewrite sm_scal. ring. }
    rewrite (average_ext eps rho (fun e => return_ gamma e + (-1) * sm d (fun j => w j * psi j e))).
    2:{ intros e _. unfold rho, dot, psi. rewrite (sm_ext d (fun j => w j * discounted_score gamma e j) (fun j => discounted_score gamma e j * w j)) by (intros; ring). ring. }
    rewrite !average_plus, !average_scal.
    rewrite (average_sm eps d (fun j e => w j * (f e * psi j e))), (average_sm eps d (fun j e => w j * psi j e)).
    rewrite (sm_ext d (fun j => average eps (fun e => w j * (f e * psi j e))) (fun j => average eps (fun e => f e * psi j e) * w j)) by (intros; rewrite average_scal; ring).
    rewrite (sm_ext d (fun j => average eps (fun e => w j * psi j e)) (fun j => average eps (psi j) * w j)) by (intros; rewrite average_scal; ring).
    ring. }
  assert (Z : forall i, (i < d)%nat -> covariance eps (psi i) rho = 0).
  { intros i Hi. rewrite covariance_moments, A1, A0 by assumption. ring. }
  assert (F : forall i, (i < d)%nat -> sm d (fun j => covariance eps (psi i) (psi j) * w j) = covariance eps (psi i) (return_ gamma)).
  { intros i Hi. pose proof (L (psi i)) as Q. rewrite Z in Q by exact Hi. lra. }
  split; [exact F|].
  set (q := fun e => dot d (discounted_score gamma e) w).
  assert (V : sm d (fun i => w i * covariance eps (psi i) (return_ gamma)) = covariance eps q q).
  { rewrite (sm_ext d _ (fun i => w i * sm d (fun j => covariance eps (psi i) (psi j) * w j))) by (intros; rewrite F by assumption; reflexivity).
    assert (CQ : forall f, covariance eps f q = sm d (fun j => covariance eps f (psi j) * w j)).
    { intros f. rewrite covariance_moments by exact NE.
      rewrite (sm_ext d _ (fun j => average eps (fun e => f e * psi j e) * w j - average eps f * (average eps (psi j) * w j))) by (intros; rewrite covariance_moments by exact NE; ring).
      rewrite sm_minus, sm_scal.
      rewrite (average_ext eps (fun e => f e * q e) (fun e => sm d (fun j => w j * (f e * psi j e)))).
      2:{ intros e _. unfold q, dot, psi. rewrite <- sm_scal. apply sm_ext. intros. ring. }
      rewrite (average_ext eps q (fun e => sm d (fun j => w j * psi j e))).
      2:{ intros e _. unfold q, dot, psi. apply sm_ext. intros. ring. }
      rewrite (average_sm eps d (fun j e => w j * (f e * psi j e))), (average_sm eps d (fun j e => w j * psi j e)).
      f_equal; [|f_equal]; apply sm_ext; intros; rewrite average_scal; ring. }
    assert (SY : forall f g, covariance eps f g = covariance eps g f) by (intros; unfold covariance; apply average_ext; intros; ring).
    rewrite CQ. apply sm_ext. intros i Hi. rewrite <- CQ, (SY (psi i) q). ring. }
  rewrite V.
  assert (N : 0 < INR (length eps)) by (apply lt_0_INR; destruct eps; [congruence|cbn; lia]).
  assert (P : forall e, 0 <= (q e - average eps q) * (q e - average eps q)) by (intros; apply Rle_0_sqr).
  split.
  - unfold covariance, average at 1. apply Rmult_le_pos; [|left; apply Rinv_0_lt_compat; exact N].
    apply rsum_nonneg. intros y Hy. apply in_map_iff in Hy as (e & <- & _). apply P.
  - intros Q i Hi. rewrite <- F by exact Hi.
    assert (QE : forall e, In e eps -> q e = average eps q).
    { unfold covariance, average at 1 in Q. assert (S : rsum (map (fun e => (q e - average eps q) * (q e - average eps q)) eps) = 0).
      { apply (Rmult_eq_compat_r (INR (length eps))) in Q. unfold Rdiv in Q. rewrite Rmult_assoc, Rinv_l, Rmult_1_r, Rmult_0_l in Q by lra. exact Q. }
      intros e Hin. assert (B : (q e - average eps q) * (q e - average eps q) <= 0).
      { rewrite <- S. apply rsum_in_le; [|apply (in_map (fun e => (q e - average eps q) * (q e - average eps q)) eps e Hin)]. intros y Hy. apply in_map_iff in Hy as (z & <- & _). apply P. }
      specialize (P e). assert (Zq : (q e - average eps q) * (q e - average eps q) = 0) by lra. apply Rmult_integral in Zq as [?|?]; lra. }
    rewrite covariance_moments in V by exact NE.
    assert (CQ : sm d (fun j => covariance eps (psi i) (psi j) * w j) = covariance eps (psi i) q).
    { rewrite (covariance_moments eps (psi i) q) by exact NE.
      rewrite (sm_ext d _ (fun j => average eps (fun e => psi i e * psi j e) * w j - average eps (psi i) * (average eps (psi j) * w j))) by (intros; rewrite covariance_moments by exact NE; ring).
      rewrite sm_minus, sm_scal.
      rewrite (average_ext eps (fun e => psi i e * q e) (fun e => sm d (fun j => w j * (psi i e * psi j e)))).
      2:{ intros e _. unfold q, dot, psi. rewrite <- sm_scal. apply sm_ext. intros. ring. }
      rewrite (average_ext eps q (fun e => sm d (fun j => w j * psi j e))).
      2:{ intros e _. unfold q, dot, psi. apply sm_ext. intros. ring. }
      rewrite (average_sm eps d (fun j e => w j * (psi i e * psi j e))), (average_sm eps d (fun j e => w j * psi j e)).
      f_equal; [|f_equal]; apply sm_ext; intros; rewrite average_scal; ring. }
    rewrite CQ. unfold covariance. rewrite (average_ext eps _ (fun _ => 0)); [apply average_const; exact NE|].
    intros e Hin. rewrite (QE e Hin). ring.
Qed.

(** ** The direction does not depend on the parametrisation of the policy *)

(** The same episodes seen through weights [th'] with [th = B th']: the scores are multiplied by
    the transpose of [B]. *)
Definition reparametrised (d : nat) (B : mat) (x x' : sample) : Prop :=
  rew x' = rew x /\ phi_c x' = phi_c x /\ forall j, (j < d)%nat -> score x' j = sm d (fun i => B i j * score x i).

Lemma reparam_score : forall gamma d B e e', Forall2 (reparametrised d B) e e' ->
  forall j, (j < d)%nat -> discounted_score gamma e' j = sm d (fun i => B i j * discounted_score gamma e i).
Proof.
  intros gamma d B e e' F. induction F as [|x x' e e' (_ & _ & H) F IH]; intros j Hj.
  - unfold discounted_score. cbn. symmetry. apply sm_zero. intros. ring.
  - rewrite discounted_score_cons, (H j Hj), (IH j Hj), <- sm_scal, <- sm_plus. apply sm_ext. intros. rewrite discounted_score_cons. ring.
Qed.

Lemma reparam_return : forall gamma d B e e', Forall2 (reparametrised d B) e e' -> return_ gamma e' = return_ gamma e.
Proof. intros gamma d B e e' F. induction F as [|x x' e e' (H & _) F IH]; [reflexivity|]. rewrite !return_cons, IH, H. reflexivity. Qed.

Lemma reparam_predicted : forall gamma d c B e e' w v, Forall2 (reparametrised d B) e e' ->
  predicted gamma d c w v e' = predicted gamma d c (mv d B w) v e.
Proof.
  intros gamma d c B e e' w v F. unfold predicted. f_equal.
  - unfold dot, mv. rewrite (sm_ext d _ (fun j => sm d (fun i => discounted_score gamma e i * (B i j * w j)))).
    + rewrite sm_swap. apply sm_ext. intros i _. rewrite sm_scal. reflexivity.
    + intros j Hj. rewrite (reparam_score _ _ _ _ _ F j Hj), <- sm_scal_r. apply sm_ext. intros. ring.
  - destruct F as [|x x' e e' (_ & H & _) F]; [reflexivity|]. rewrite H. reflexivity.
Qed.

Lemma reparam_error : forall gamma d c B eps eps' w v, Forall2 (Forall2 (reparametrised d B)) eps eps' ->
  squared_error gamma d c eps' w v = squared_error gamma d c eps (mv d B w) v.
Proof.
  intros gamma d c B eps eps' w v F. unfold squared_error. induction F as [|e e' eps eps' H F IH]; [reflexivity|]. cbn [map rsum].
  rewrite IH, (reparam_predicted gamma d c B e e' w v H), (reparam_return gamma d B e e' H). reflexivity.
Qed.

Theorem enac_reparametrisation : forall gamma d c B B' eps eps' w w',
  (forall i j, (i < d)%nat -> (j < d)%nat -> mm d B B' i j = eye i j) -> Forall2 (Forall2 (reparametrised d B)) eps eps' ->
  identified gamma d c eps -> least_squares gamma d c eps w -> least_squares gamma d c eps' w' ->
  forall j, (j < d)%nat -> w j = mv d B w' j.
Proof.
  intros gamma d c B B' eps eps' w w' HB F ID (v & H) (v' & H') j Hj.
  assert (E : squared_error gamma d c eps (mv d B w') v' = squared_error gamma d c eps w v).
  { apply Rle_antisym; [|apply (H (mv d B w') v')]. rewrite <- (reparam_error gamma d c B eps eps' w' v' F).
    eapply Rle_trans; [apply (proj1 (H' (mv d B' w) v))|]. rewrite (reparam_error gamma d c B eps eps' _ v F). right. unfold squared_error. apply rsum_map_ext. intros e _.
    f_equal. f_equal. apply predicted_ext; [|reflexivity]. intros i Hi. rewrite <- mv_mm. rewrite (mv_ext d (mm d B B') eye w w i); [apply mv_eye; exact Hi| |reflexivity].
    intros l Hl. apply HB; assumption. }
  assert (Z : vsub w (mv d B w') j = 0).
  { apply (ID _ (vsub v v')); [|exact Hj]. intros e Hin. rewrite predicted_sub. rewrite (minimisers_agree gamma d c eps w v _ _ (fun a b => proj1 (H a b)) E e Hin). ring. }
  unfold vsub in Z. lra.
Qed.

(** ** Deterministic environments with a compatible advantage *)
Section Exact.
Context {Ob Ac : Type}.
Notation csample := (CoreModel.sample Ob Ac R unit).
Variable gamma : R.
Variable dlog : vec -> Ob -> Ac -> vec.
Variable phi : Ob -> list R.

(** The next state of a step is the state of the following one. *)
Fixpoint chained (l : list csample) : Prop :=
  match l with
  | [] => True
  | x :: t => match t with [] => True | y :: _ => CoreModel.next_state x = CoreModel.state y end /\ chained t
  end.

(** [V] is the value, and the advantage of every step is the product of the score with [w]. *)
Definition compatible (d : nat) (th : vec) (V : Ob -> R) (w : vec) (x : csample) : Prop :=
  CoreModel.reward x + gamma * (if CoreModel.absorbing x then 0 else V (CoreModel.next_state x)) - V (CoreModel.state x) =
  dot d (dlog th (CoreModel.state x) (CoreModel.action x)) w.

Lemma last_default : forall (l : list csample) y a b, List.last (y :: l) a = List.last (y :: l) b.
Proof. induction l as [|z l IH]; intros y a b; [reflexivity|]. change (List.last (z :: l) a = List.last (z :: l) b). apply IH. Qed.

Lemma exact_return : forall d th V w l x, chained (x :: l) -> Forall (compatible d th V w) (x :: l) ->
  Forall (fun y => CoreModel.absorbing y = CoreModel.last y) (x :: l) -> CoreModel.last (List.last (x :: l) x) = true -> Forall (fun y => CoreModel.last y = false) (removelast (x :: l)) ->
  return_ gamma (map (p_read dlog phi th) (x :: l)) = dot d (discounted_score gamma (map (p_read dlog phi th) (x :: l))) w + V (CoreModel.state x).
Proof.
  intros d th V w. induction l as [|y l IH]; intros x C K A LT NL; inversion K as [|? ? K1 K2]; subst; inversion A as [|? ? A1 A2]; subst; cbn [map]; rewrite return_cons.
  - cbn in LT. unfold compatible in K1. rewrite A1, LT in K1. cbn [rew p_read].
    assert (E : dot d (discounted_score gamma [p_read dlog phi th x]) w = dot d (dlog th (CoreModel.state x) (CoreModel.action x)) w).
    { apply dot_ext; [|reflexivity]. intros i _. rewrite discounted_score_cons. unfold discounted_score. cbn. ring. }
    rewrite E. unfold return_. cbn. lra.
  - destruct C as [C1 C2]. cbn [removelast] in NL. inversion NL as [|? ? N1 N2]; subst.
    assert (LT' : CoreModel.last (List.last (y :: l) y) = true).
    { rewrite (last_default l y y x). exact LT. }
    specialize (IH y C2 K2 A2 LT' N2). cbn [map] in IH. rewrite IH. unfold compatible in K1. rewrite A1, N1, C1 in K1. cbn [rew p_read].
    assert (E : dot d (discounted_score gamma (p_read dlog phi th x :: p_read dlog phi th y :: map (p_read dlog phi th) l)) w =
      dot d (dlog th (CoreModel.state x) (CoreModel.action x)) w + gamma * dot d (discounted_score gamma (p_read dlog phi th y :: map (p_read dlog phi th) l)) w).
    { unfold dot. rewrite <- sm_scal, <- sm_plus. apply sm_ext. intros i _. rewrite discounted_score_cons. cbn [score p_read]. ring. }
    rewrite E. lra.
Qed.

(** Episodes of a deterministic environment that all end in an absorbing state: when the
    advantage of the policy is a linear function of its score and its value at the start one of
    the critic features, eNAC finds exactly that function. *)
Theorem enac_compatible_advantage : forall d c th V w v rows dir,
  Forall (fun ep => chained ep /\ Forall (compatible d th V w) ep /\ Forall (fun y => CoreModel.absorbing y = CoreModel.last y) ep) (complete CoreModel.last rows) ->
  Forall (fun ep => forall x t, ep = x :: t -> V (CoreModel.state x) = sm c (fun j => nth j (phi (CoreModel.state x)) 0 * v j)) (complete CoreModel.last rows) ->
  let eps := map (map (p_read dlog phi th)) (complete CoreModel.last rows) in
  identified gamma d c eps -> least_squares gamma d c eps dir -> forall j, (j < d)%nat -> dir j = w j.
Proof.
  intros d c th V w v rows dir HF HV eps ID (u & H) j Hj.
  assert (Z : squared_error gamma d c eps w v = 0).
  { unfold squared_error. rewrite (rsum_map_ext _ _ (fun _ => 0)); [rewrite rsum_map_const; ring|]. intros e Hin. unfold eps in Hin. apply in_map_iff in Hin as (ep & <- & Hin).
    rewrite Forall_forall in HF, HV. destruct (HF ep Hin) as (C & K & A). pose proof (HV ep Hin) as HVe.
    pose proof (split_complete CoreModel.last rows) as SC. rewrite Forall_forall in SC. destruct (SC ep Hin) as (b & z & E & HZ & NZ).
    assert (E0 : exists x t, ep = x :: t) by (rewrite E; destruct b; cbn; eauto). destruct E0 as (x & t & ->).
    rewrite (exact_return d th V w t x C K A).
    - unfold predicted. cbn [map phi_c p_read]. rewrite (HVe x t eq_refl). ring.
    - rewrite E. rewrite last_last. assumption.
    - rewrite E, removelast_last. assumption. }
  assert (E : squared_error gamma d c eps w v = squared_error gamma d c eps dir u).
  { apply Rle_antisym; [|apply H]. rewrite Z. unfold squared_error. apply rsum_nonneg. intros y Hy. apply in_map_iff in Hy as (z & <- & _). apply pow2_ge_0. }
  assert (Q : vsub dir w j = 0).
  { apply (ID _ (vsub u v)); [|exact Hj]. intros e Hin. rewrite predicted_sub. rewrite (minimisers_agree gamma d c eps dir u w v (fun a b => proj1 (H a b)) E e Hin). ring. }
  unfold vsub in Q. lra.
Qed.
End Exact.

(** ** Episodes in proportion to their probabilities *)
Section Population.
Context {St Ac : Type}.
Variable acts : list Ac.
Variable kern : St -> Ac -> list (R * St * R * bool).
Variable pi : vec -> St -> Ac -> R.
Variable dlog : vec -> St -> Ac -> vec.
Variable starts : list (R * St).
Hypothesis PI1 : forall th s, rsum (map (pi th s) acts) = 1.
Hypothesis K1 : forall s a, In a acts -> rsum (map prob (kern s a)) = 1.
Hypothesis S1 : rsum (map fst starts) = 1.
Hypothesis SC : forall th i s a, In a acts -> derivable_pt_lim (fun t => pi (with_comp th i t) s a) (th i) (pi th s a * dlog th s a i).
Notation episodes := (episodes acts kern pi starts).
Notation seen := (seen dlog).
Notation objective := (objective acts kern pi starts).

(** Every statistic of the dataset is its expectation. *)
Definition proportional (th : vec) (h : nat) (eps : list (list (visit (St := St) (Ac := Ac)))) : Prop :=
  forall f, rsum (map f eps) / INR (length eps) = mean (episodes th h) f.

Lemma runs_nonempty : forall th h s w, ~ In (w, []) (runs acts kern pi th h s).
Proof.
  intros th h s w H. destruct h; cbn [runs] in H; apply in_flat_map in H as (a & _ & H); apply in_flat_map in H as ([[[p s'] r] ab] & _ & H).
  - destruct H as [H|[]]. discriminate.
  - destruct ab; [destruct H as [H|[]]; discriminate|]. apply in_map_iff in H as (we & H & _). discriminate.
Qed.

Lemma proportional_nonempty : forall th h eps, eps <> [] -> proportional th h eps -> ~ In [] eps.
Proof.
  intros th h eps NE HP HI. specialize (HP (fun e => match e with [] => 1 | _ => 0 end)).
  assert (M : mean (episodes th h) (fun e => match e with [] => 1 | _ => 0 end) = 0).
  { rewrite (mean_ext _ _ _ (fun _ => 0 * 0)); [rewrite mean_scal; ring|]. intros w e H. destruct e; [|ring]. exfalso.
    unfold PgExpSpec.episodes in H. apply in_flat_map in H as (ws & _ & H). apply in_map_iff in H as ([u e'] & E & H). cbn in E. injection E as _ ->. apply (runs_nonempty _ _ _ _ H). }
  rewrite M in HP. assert (N : 0 < INR (length eps)) by (apply lt_0_INR; destruct eps; [congruence|cbn; lia]).
  assert (G : 1 <= rsum (map (fun e : list (visit (St := St) (Ac := Ac)) => match e with [] => 1 | _ => 0 end) eps)).
  { apply rsum_in_le; [|apply in_map_iff; exists []; auto]. intros y Hy. apply in_map_iff in Hy as (e & <- & _). destruct e; lra. }
  apply (Rmult_eq_compat_r (INR (length eps))) in HP. unfold Rdiv in HP. rewrite Rmult_assoc, Rinv_l in HP by lra. lra.
Qed.

Lemma undiscounted_score : forall th e i, discounted_score 1 (seen th e) i = score_of (seen th e) i.
Proof.
  intros th e i. generalize (seen th e). induction l as [|x l IH]; [reflexivity|]. rewrite discounted_score_cons, IH. unfold score_of. cbn [map rsum]. ring.
Qed.

(** Undiscounted: the Fisher information of the episodes times the direction is the gradient of
    the expected return. *)
Theorem enac_population_natural_gradient : forall th h d eps w, eps <> [] -> proportional th h eps ->
  least_squares 1 d 1 (map (seen th) eps) w ->
  forall i, (i < d)%nat -> derivable_pt_lim (fun t => objective 1 h (with_comp th i t)) (th i)
    (sm d (fun j => mean (episodes th h) (fun e => score_of (seen th e) i * score_of (seen th e) j) * w j)).
Proof.
  intros th h d eps w NE HP LS i Hi. pose proof (proportional_nonempty th h eps NE HP) as NN.
  assert (AV : forall f, average (map (seen th) eps) f = mean (episodes th h) (fun e => f (seen th e))).
  { intros f. unfold average. rewrite map_map, map_length. apply (HP (fun e => f (seen th e))). }
  assert (CC : constant_critic (map (seen th) eps)).
  { apply Forall_forall. intros e He. apply in_map_iff in He as (z & <- & Hz). destruct z as [|[[[s a] r] l] z]; [contradiction|]. cbn. eauto. }
  assert (NE' : map (seen th) eps <> []) by (destruct eps; [congruence|discriminate]).
  destruct (enac_natural_gradient 1 d (map (seen th) eps) w NE' CC LS) as (F & _). specialize (F i Hi).
  assert (Z : forall j, average (map (seen th) eps) (fun e => discounted_score 1 e j) = 0).
  { intros j. rewrite AV. rewrite (mean_ext _ _ _ (fun e => score_of (seen th e) j)) by (intros; apply undiscounted_score). apply episodes_score_zero; assumption. }
  assert (D : derivable_pt_lim (fun t => objective 1 h (with_comp th i t)) (th i) (mean (episodes th h) (fun e => disc 1 e * score_of (seen th e) i))) by (apply objective_deriv; assumption).
  assert (E : sm d (fun j => mean (episodes th h) (fun e => score_of (seen th e) i * score_of (seen th e) j) * w j) = mean (episodes th h) (fun e => disc 1 e * score_of (seen th e) i)).
  { eapply eq_trans; [|eapply eq_trans; [exact F|]].
    - apply sm_ext. intros j _. f_equal. rewrite covariance_moments, !Z, AV by exact NE'. rewrite Rmult_0_l, Rminus_0_r. apply mean_ext. intros. rewrite !undiscounted_score. reflexivity.
    - rewrite covariance_moments, Z, AV by exact NE'. rewrite Rmult_0_l, Rminus_0_r. apply mean_ext. intros. rewrite undiscounted_score, return_disc. ring. }
  rewrite E. exact D.
Qed.
End Population.

(** What is assumed of [np.linalg.pinv] can be met. *)
Theorem pinv_exists : exists pinv, forall n m A, penrose n m A (pinv n m A).
Proof. exists greville. exact greville_penrose. Qed.

(** ** With a discount the direction is not the natural gradient of the discounted return *)
(** Two steps; the action of the first is fixed and has no effect, that of the second is drawn
    from a logistic policy and earns 1 or 0. *)
Definition dkern (s a : bool) : list (R * bool * R * bool) := if s then [(1, true, if a then 1 else 0, true)] else [(1, true, 0, false)].
Definition dpi (th : vec) (s a : bool) : R := if s then bpi th tt a else if a then 1 else 0.
Definition ddlog (th : vec) (s a : bool) : vec := if s then bdlog th tt a else vzero.
Definition deps : list (list (visit (St := bool) (Ac := bool))) :=
  [[(false, true, 0, false); (true, true, 1, true)]; [(false, true, 0, false); (true, false, 0, true)]].

Lemma dpi_score : forall th i s a, In a [true; false] -> derivable_pt_lim (fun t => dpi (with_comp th i t) s a) (th i) (dpi th s a * ddlog th s a i).
Proof.
  intros th i s a H. destruct s; cbn [dpi ddlog]; [apply bandit_score; exact H|]. unfold vzero. rewrite Rmult_0_r. apply derivable_pt_lim_const.
Qed.

Lemma deps_predicted : forall w v, map (predicted (1 / 2) 1 1 w v) (map (seen ddlog vzero) deps) = [1 / 4 * w 0%nat + v 0%nat; - (1 / 4) * w 0%nat + v 0%nat].
Proof.
  intros w v. unfold predicted, dot, sm, discounted_score, deps. cbn -[sigm]. unfold bdlog, vzero. cbn -[sigm]. rewrite sigm_0. f_equal; [field|f_equal; field].
Qed.

Theorem enac_discounted_refuted : exists D w,
  proportional [true; false] dkern dpi [(1, false)] vzero 1 deps /\
  identified (1 / 2) 1 1 (map (seen ddlog vzero) deps) /\ least_squares (1 / 2) 1 1 (map (seen ddlog vzero) deps) w /\
  derivable_pt_lim (fun t => objective [true; false] dkern dpi [(1, false)] (1 / 2) 1 (with_comp vzero 0 t)) 0 D /\
  mean (episodes [true; false] dkern dpi [(1, false)] vzero 1) (fun e => score_of (seen ddlog vzero e) 0 * score_of (seen ddlog vzero e) 0) * w 0%nat = 2 * D /\ D <> 0.
Proof.
  exists (mean (episodes [true; false] dkern dpi [(1, false)] vzero 1) (fun e => disc (1 / 2) e * score_of (seen ddlog vzero e) 0)), (fun _ => 1).
  split.
  { intros f. unfold deps, mean. cbn -[sigm]. unfold bpi, vzero. rewrite sigm_0. field. }
  assert (P : forall w v e, In e (map (seen ddlog vzero) deps) -> In (predicted (1 / 2) 1 1 w v e) (map (predicted (1 / 2) 1 1 w v) (map (seen ddlog vzero) deps))) by (intros; apply in_map; assumption).
  split.
  { intros w v H j Hj. assert (j = 0%nat) by lia. subst j.
    assert (H1 : forall y, In y (map (predicted (1 / 2) 1 1 w v) (map (seen ddlog vzero) deps)) -> y = 0) by (intros y Hy; apply in_map_iff in Hy as (e & <- & He); apply H; exact He).
    rewrite deps_predicted in H1. pose proof (H1 _ (or_introl eq_refl)). pose proof (H1 _ (or_intror (or_introl eq_refl))). lra. }
  assert (SE : forall w v, squared_error (1 / 2) 1 1 (map (seen ddlog vzero) deps) w v = (1 / 2 - (1 / 4 * w 0%nat + v 0%nat)) ^ 2 + (0 - (- (1 / 4) * w 0%nat + v 0%nat)) ^ 2).
  { intros w v. pose proof (deps_predicted w v) as Q. unfold deps in *. unfold squared_error. cbn [map] in *. pose proof (f_equal (fun l => nth 0 l 0) Q) as Q1. pose proof (f_equal (fun l => nth 1 l 0) Q) as Q2. cbn [nth] in Q1, Q2. cbn [map rsum]. rewrite Q1, Q2. unfold return_. cbn. field. }
  split.
  { exists (fun _ => 1 / 4). intros w' v'. rewrite !SE. pose proof (pow2_ge_0 (1 / 2 - (1 / 4 * w' 0%nat + v' 0%nat))). pose proof (pow2_ge_0 (0 - (- (1 / 4) * w' 0%nat + v' 0%nat))).
    split; [lra|]. intros E. assert (E1 : 1 / 2 - (1 / 4 * w' 0%nat + v' 0%nat) = 0) by nra. assert (E2 : 0 - (- (1 / 4) * w' 0%nat + v' 0%nat) = 0) by nra.
    unfold dot, sm. cbn. replace (w' 0%nat) with 1 by lra. replace (v' 0%nat) with (1 / 4) by lra. lra. }
  split; [apply (objective_deriv [true; false] dkern dpi ddlog [(1, false)] dpi_score (1 / 2) vzero 0 1)|].
  unfold mean, score_of. cbn -[sigm]. unfold bpi, bdlog, vzero. cbn -[sigm]. rewrite sigm_0. split; lra.
Qed.

(** ** With too few episodes the direction depends on the parametrisation *)
Definition one (s : R) : list sample := [{| score := fun _ => s; rew := 2; phi_c := [1]; lst := true |}].

Lemma one_ls : forall s, 0 < s -> least_squares 1 1 1 [one s; one s] (fun _ => 2 * s / (s * s + 1)).
Proof.
  intros s S.
  assert (SE : forall w v, squared_error 1 1 1 [one s; one s] w v = 2 * (2 - (s * w 0%nat + v 0%nat)) ^ 2).
  { intros. unfold squared_error, predicted, dot, sm, return_, discounted_score, one. cbn. ring. }
  exists (fun _ => 2 / (s * s + 1)). intros w' v'. rewrite !SE.
  assert (Z : 2 - (s * (2 * s / (s * s + 1)) + 2 / (s * s + 1)) = 0) by (field; nra). rewrite Z.
  pose proof (pow2_ge_0 (2 - (s * w' 0%nat + v' 0%nat))). split; [lra|]. intros E. assert (E1 : 2 - (s * w' 0%nat + v' 0%nat) = 0) by nra.
  unfold dot, sm. cbn. replace (v' 0%nat) with (2 - s * w' 0%nat) by lra.
  replace (2 * s / (s * s + 1) * (2 * s / (s * s + 1)) + 0 + (2 / (s * s + 1) * (2 / (s * s + 1)) + 0)) with (4 / (s * s + 1)) by (field; nra).
  assert (Q : w' 0%nat * w' 0%nat + 0 + ((2 - s * w' 0%nat) * (2 - s * w' 0%nat) + 0) - 4 / (s * s + 1) = (s * s + 1) * (w' 0%nat - 2 * s / (s * s + 1)) ^ 2) by (field; nra).
  pose proof (pow2_ge_0 (w' 0%nat - 2 * s / (s * s + 1))). assert (0 <= (s * s + 1) * (w' 0%nat - 2 * s / (s * s + 1)) ^ 2) by (apply Rmult_le_pos; [nra|assumption]). lra.
Qed.

Theorem enac_few_episodes_refuted : exists B B' eps eps' w w',
  (forall i j, (i < 1)%nat -> (j < 1)%nat -> mm 1 B B' i j = eye i j) /\ Forall2 (Forall2 (reparametrised 1 B)) eps eps' /\
  (2 <= length eps)%nat /\ least_squares 1 1 1 eps w /\ least_squares 1 1 1 eps' w' /\ w 0%nat <> mv 1 B w' 0%nat.
Proof.
  exists (fun _ _ => 2), (fun _ _ => / 2), [one 1; one 1], [one 2; one 2], (fun _ => 2 * 1 / (1 * 1 + 1)), (fun _ => 2 * 2 / (2 * 2 + 1)).
  split. { intros i j Hi Hj. assert (i = 0%nat) by lia. assert (j = 0%nat) by lia. subst. unfold mm, sm, eye. cbn. lra. }
  split. { assert (Q : Forall2 (reparametrised 1 (fun _ _ => 2)) (one 1) (one 2)). { constructor; [|constructor]. split; [reflexivity|]. split; [reflexivity|]. intros j _. unfold sm. cbn. ring. }
    constructor; [exact Q|constructor; [exact Q|constructor]]. }
  split; [cbn; lia|]. split; [apply one_ls; lra|]. split; [apply one_ls; lra|]. unfold mv, sm. cbn. lra.
Qed.

(** ** Concrete case: a fit on two one-step episodes of the bandit above *)
Example enac_ex : let ds := [{| score := fun _ => / 2; rew := 1; phi_c := [1]; lst := true |}; {| score := fun _ => - / 2; rew := 0; phi_c := [1]; lst := true |}] in
  exists g P, snd (pg_fit 1 enac en0 ds) = Some g /\ penrose 2 2 (en_mat 1 (fst g)) P /\ en_direction (fun _ _ _ => P) 1 g 0%nat = 1.
Proof.
  intros ds. eexists. exists (fun i j => match i, j with 0%nat, 0%nat => 1 | 0%nat, _ => -1 | _, _ => / 2 end).
  split; [reflexivity|]. split.
  - repeat split; intros i j Hi Hj; destruct i as [|[|i]]; try lia; destruct j as [|[|j]]; try lia; unfold mm, sm, en_mat, en_row, vadd, vscale, vzero; cbn; unfold PgModel.vadd, PgModel.vscale, PgModel.vzero; field.
  - unfold en_direction, mv, sm. cbn. field.
Qed.

Print Assumptions core_enac_least_squares.
Print Assumptions enac_natural_gradient.
Print Assumptions enac_reparametrisation.
Print Assumptions enac_compatible_advantage.
Print Assumptions enac_population_natural_gradient.
Print Assumptions pinv_exists.
Print Assumptions enac_discounted_refuted.
Print Assumptions enac_few_episodes_refuted.

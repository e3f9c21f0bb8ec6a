(** C123: with linear regressors BoostedFQI computes what FQI computes; DoubleFQI overestimates no
    more than the data, but need not converge. *)
From Coq Require Import List Arith Lia Reals Lra Bool.
From Verif Require Import Common TdModel DqnModel DqnSpec DqnProofs BatchModel BatchProps ApproxModel Mat EnacSpec EnacProofs EnacPinv EnacProps FqiLinModel FqiLinSpec FqiLinProofs FqiLinProps EnsFqiModel EnsFqiProofs.
Import ListNotations.
Local Open Scope R_scope.

(** * BoostedFQI *)
(** Any features, any matrix in place of the pseudo-inverse: after [n + 1] iterations the sum of the
    models predicts what one model trained by FQI predicts *)
Theorem boosted_linear_is_fqi : forall (X : Type) p nA (phi : X -> vec) pinv gamma n (D : list (bsample X)) ms,
  (0 < nA)%nat -> (n < length ms)%nat -> (forall m, In m ms -> forall a c, m a c = 0) ->
  exists st, boosted_lin p nA phi pinv gamma (S n) D (boosted_init ms) = Some st /\
    length (f_models st) = length ms /\
    forall x, ens_q p nA phi ESum (f_models st) x = reg_pred p nA phi (fst (fqi_lin p nA phi pinv gamma (S n) D (fun _ _ => 0, None))) x.
Proof. intros X p nA phi pinv gamma n D ms HA Hn HZ. exact (ens_sum_fqi p nA phi pinv gamma HA n D ms Hn HZ). Qed.

(** So on a table it is value iteration on the data *)
Theorem boosted_table_value_iteration : forall (X : Type) p nA cell (phi : X -> vec) pinv gamma n (D : list (bsample X)) ms K,
  one_hot p cell phi -> (forall n m A, penrose n m A (pinv n m A)) -> (0 < nA)%nat -> 0 <= gamma < 1 ->
  0 <= K -> (forall x, In x D -> Rabs (b_r x) + gamma * K <= K) ->
  (n < length ms)%nat -> (forall m, In m ms -> forall a c, m a c = 0) ->
  exists st Q, boosted_lin p nA phi pinv gamma (S n) D (boosted_init ms) = Some st /\
    empirical p nA cell gamma D (fun _ _ => 0) Q /\
    (forall c a, (c < p)%nat -> (a < nA)%nat -> Rabs (Q c a) <= K) /\
    forall x a, (a < nA)%nat -> Rabs (nth a (ens_q p nA phi ESum (f_models st) x) 0 - Q (cell x) a) <= gamma ^ S n * (2 * K).
Proof.
  intros X p nA cell phi pinv gamma n D ms K OH HP HA HG HK Hr Hn HZ.
  destruct (boosted_linear_is_fqi X p nA phi pinv gamma n D ms HA Hn HZ) as (st & E & _ & S0).
  destruct (fqi_table_value_iteration X p nA cell phi pinv gamma D (fun _ _ => 0) None K OH HP HA HG HK Hr (fun _ _ _ _ => eq_ind_r (fun z => z <= K) HK Rabs_R0)) as (Q & EQ & _ & B & G).
  exists st, Q. split; [exact E|]. split; [exact EQ|]. split; [exact B|]. intros x a Ha. rewrite S0. apply (G n x a Ha).
Qed.

(** The mean of the models, the default of the ensemble, ranks the actions in the same way ... *)
Lemma ens_mean_nth : forall (X : Type) p nA (phi : X -> vec) ms x a, (a < nA)%nat ->
  nth a (ens_q p nA phi EMean ms x) 0 = nth a (ens_q p nA phi ESum ms x) 0 / INR (length ms).
Proof.
  intros X p nA phi ms x a Ha. unfold ens_q. rewrite !(nth_seq_map nA) by exact Ha. unfold ens_predict. rewrite map_length. reflexivity.
Qed.
Theorem boosted_mean_greedy : forall (X : Type) p nA (phi : X -> vec) ms x a, ms <> [] -> (a < nA)%nat ->
  (is_max (ens_q p nA phi EMean ms x) (nth a (ens_q p nA phi EMean ms x) 0) <-> is_max (ens_q p nA phi ESum ms x) (nth a (ens_q p nA phi ESum ms x) 0)).
Proof.
  intros X p nA phi ms x a NE Ha. assert (P : 0 < INR (length ms)) by (apply lt_0_INR; destruct ms; [congruence|simpl; lia]).
  assert (LEN : forall md, length (ens_q p nA phi md ms x) = nA) by (intros; unfold ens_q; rewrite map_length, seq_length; reflexivity).
  assert (E : forall md v, In v (ens_q p nA phi md ms x) -> exists b, (b < nA)%nat /\ v = nth b (ens_q p nA phi md ms x) 0).
  { intros md v I. destruct (In_nth _ _ 0 I) as (b & Hb & <-). rewrite LEN in Hb. eauto. }
  split; intros [_ M]; (split; [apply nth_In; rewrite LEN; exact Ha|]); intros v I; destruct (E _ _ I) as (b & Hb & ->).
  - pose proof (M _ (nth_In _ 0 (eq_ind_r (fun k => (b < k)%nat) Hb (LEN EMean)))) as L. rewrite !ens_mean_nth in L by assumption.
    apply Rmult_le_reg_r with (/ INR (length ms)); [apply Rinv_0_lt_compat; exact P|exact L].
  - pose proof (M _ (nth_In _ 0 (eq_ind_r (fun k => (b < k)%nat) Hb (LEN ESum)))) as L. rewrite !ens_mean_nth by assumption.
    apply Rmult_le_compat_r; [left; apply Rinv_0_lt_compat; exact P|exact L].
Qed.
(** ... but as values they are useless: whatever the data, they tend to zero with the number of
    iterations, which the constructor requires to be the number of models *)
Theorem boosted_mean_refuted : forall (X : Type) p nA cell (phi : X -> vec) pinv gamma n (D : list (bsample X)) ms K,
  one_hot p cell phi -> (forall n m A, penrose n m A (pinv n m A)) -> (0 < nA)%nat -> 0 <= gamma < 1 ->
  0 <= K -> (forall x, In x D -> Rabs (b_r x) + gamma * K <= K) ->
  length ms = S n -> (forall m, In m ms -> forall a c, m a c = 0) ->
  exists st, boosted_lin p nA phi pinv gamma (S n) D (boosted_init ms) = Some st /\
    forall x a, (a < nA)%nat -> Rabs (nth a (ens_q p nA phi EMean (f_models st) x) 0) <= 3 * K / INR (S n).
Proof.
  intros X p nA cell phi pinv gamma n D ms K OH HP HA HG HK Hr Hn HZ.
  destruct (boosted_linear_is_fqi X p nA phi pinv gamma n D ms HA ltac:(lia) HZ) as (st0 & E0 & L & _).
  destruct (boosted_table_value_iteration X p nA cell phi pinv gamma n D ms K OH HP HA HG HK Hr ltac:(lia) HZ) as (st & Q & E & _ & B & G).
  assert (st0 = st) by congruence. subst st0. exists st. split; [exact E|]. intros x a Ha. rewrite ens_mean_nth by exact Ha. rewrite L, Hn.
  assert (P : 0 < INR (S n)) by (apply lt_0_INR; lia). unfold Rdiv. rewrite Rabs_mult. rewrite (Rabs_right (/ INR (S n))) by (apply Rle_ge; left; apply Rinv_0_lt_compat; exact P).
  apply Rmult_le_compat_r; [left; apply Rinv_0_lt_compat; exact P|].
  specialize (G x a Ha). specialize (B (cell x) a (proj1 (OH x)) Ha).
  set (v := nth a (ens_q p nA phi ESum (f_models st) x) 0) in *. assert (G1 : gamma ^ S n <= 1) by (rewrite <- (pow1 (S n)); apply pow_incr; lra).
  assert (G2 : gamma ^ S n * (2 * K) <= 2 * K) by (rewrite <- (Rmult_1_l (2 * K)) at 2; apply Rmult_le_compat_r; lra).
  replace v with ((v - Q (cell x) a) + Q (cell x) a) by ring. eapply Rle_trans; [apply Rabs_triang|]. lra.
Qed.

(** * DoubleFQI *)
(** When the second half of the dataset repeats the first it is FQI on that half (any regressor) *)
Theorem double_same_halves : forall (X M : Type) (pred : M -> X -> list R) fit gamma n (D : list (bsample X)) m t,
  (forall m x, pred m x <> []) -> dfqi_part D 1 = dfqi_part D 0 ->
  let r := fqi_fit pred fit gamma n (dfqi_part D 0) (m, t) in
  dfqi_fit pred fit gamma n D ((m, m), option_map (fun t => (t, t)) t) = ((fst r, fst r), option_map (fun t => (t, t)) (snd r)).
Proof.
  intros X M pred fit gamma n D m t HP HD. cbv zeta. revert m t.
  assert (ONE : forall m t, dfqi_iter pred fit gamma D ((m, m), option_map (fun t => (t, t)) t)
    = let r := fqi_iter pred fit gamma (dfqi_part D 0) (m, t) in ((fst r, fst r), option_map (fun t => (t, t)) (snd r))).
  { intros m t. cbv zeta. unfold dfqi_iter, fqi_iter. rewrite HD. destruct t as [t|]; cbn [option_map fst snd]; [|reflexivity].
    rewrite double_map, next_map, !add_targets_map.
    assert (E : map (fun x => b_r x + gamma * (if b_abs x then 0 else nth (argmax (pred m (b_s' x))) (pred m (b_s' x)) 0)) (dfqi_part D 0)
              = map (fun x => b_r x + gamma * (if b_abs x then 0 else rowmax (pred m (b_s' x)))) (dfqi_part D 0)).
    { apply map_ext. intros x. f_equal. f_equal. destruct (b_abs x); [reflexivity|].
      eapply max_uniq; [apply argmax_spec|apply rowmax_spec]; apply HP. }
    rewrite E. reflexivity. }
  induction n as [|n IH]; intros m t; [reflexivity|].
  cbn [dfqi_fit fqi_fit]. rewrite ONE. cbv zeta. destruct (fqi_iter pred fit gamma (dfqi_part D 0) (m, t)) as [m' t']. cbn [fst snd]. apply IH.
Qed.

(** Tables.  Both halves represent a decision process with the values [Qs] up to [e]. *)
Definition represents {X : Type} p nA (cell : X -> nat) gamma (Di : list (bsample X)) (Qs : nat -> nat -> R) (e : R) : Prop :=
  forall c a, (c < p)%nat -> (a < nA)%nat -> here cell Di c a <> [] /\
    exists ys, Forall2 (backup nA cell gamma Qs) (here cell Di c a) ys /\ Rabs (mean ys - Qs c a) <= e.

(** Neither model overestimates by more than the error of the data allows *)
Theorem double_table_over : forall (X : Type) p nA cell (phi : X -> vec) pinv gamma n (D : list (bsample X)) w0 w1 t Qs e B x a,
  one_hot p cell phi -> (forall n m A, penrose n m A (pinv n m A)) -> (0 < nA)%nat -> 0 <= gamma < 1 -> 0 <= e ->
  represents p nA cell gamma (dfqi_part D 0) Qs e -> represents p nA cell gamma (dfqi_part D 1) Qs e ->
  (forall c b, (c < p)%nat -> (b < nA)%nat -> Rabs (Qs c b) <= B /\ Rabs (w0 b c) <= B /\ Rabs (w1 b c) <= B) ->
  (a < nA)%nat ->
  let '((v0, v1), _) := double_lin p nA phi pinv gamma n D ((w0, w1), t) in
  forall v, v = v0 \/ v = v1 -> (0 < n)%nat ->
    nth a (reg_pred p nA phi v x) 0 <= Qs (cell x) a + (e / (1 - gamma) + gamma ^ n * (2 * B)).
Proof.
  intros X p nA cell phi pinv gamma n D w0 w1 t Qs e B x a OH HP HA HG He H0 H1 HB Ha.
  assert (B0 : 0 <= B) by (destruct (HB (cell x) a (proj1 (OH x)) Ha) as [Q _]; pose proof (Rabs_pos (Qs (cell x) a)); lra).
  assert (E0 : 0 <= e / (1 - gamma)) by (apply Rmult_le_pos; [exact He|left; apply Rinv_0_lt_compat; lra]).
  unfold double_lin.
  assert (INV : forall k, let st := dfqi_fit (reg_pred p nA phi) (reg_fit p phi pinv) gamma k D ((w0, w1), t) in
    let u := e / (1 - gamma) + gamma ^ k * (2 * B) in
    (forall c b, (c < p)%nat -> (b < nA)%nat -> dstart (fst (fst st)) (snd st) c b <= Qs c b + u) /\
    (forall c b, (c < p)%nat -> (b < nA)%nat -> dstart (snd (fst st)) (snd st) c b <= Qs c b + u) /\
    ((0 < k)%nat -> exists t', snd st = Some t')).
  { induction k as [|k IH]; cbv zeta in *.
    - cbn [dfqi_fit fst snd pow]. split; [|split; [|lia]]; intros c b Hc Hb; destruct (HB c b Hc Hb) as (Q1 & Q2 & Q3);
        apply BatchProps.Rabs_le_inv in Q1; apply BatchProps.Rabs_le_inv in Q2; apply BatchProps.Rabs_le_inv in Q3; unfold dstart; destruct t; lra.
    - rewrite dfqi_S. destruct (dfqi_fit (reg_pred p nA phi) (reg_fit p phi pinv) gamma k D ((w0, w1), t)) as [[m0 m1] tk]. cbn [fst snd] in IH. destruct IH as (I0 & I1 & _).
      set (u := e / (1 - gamma) + gamma ^ k * (2 * B)) in *.
      assert (U0 : 0 <= u) by (unfold u; pose proof (pow_le gamma k (proj1 HG)); nra).
      assert (EU : e + gamma * u = e / (1 - gamma) + gamma ^ S k * (2 * B)) by (unfold u; cbn [pow]; field; lra).
      pose proof (fun c b Hc => diter_step p nA cell phi pinv gamma OH HP HA D m0 m1 tk c b Hc) as ST. cbv zeta in ST.
      destruct (dfqi_iter (reg_pred p nA phi) (reg_fit p phi pinv) gamma D (m0, m1, tk)) as [[n0 n1] tn]. cbn [fst snd] in *.
      destruct (ST _ 0%nat (proj1 (OH x))) as (_ & _ & t' & T'). rewrite T'. split; [|split; [|eauto]]; intros c b Hc Hb; unfold dstart at 1; destruct (ST c b Hc) as (S0 & S1 & _); rewrite ?S0, ?S1, <- EU.
      + apply (over_step p nA cell phi gamma OH HA (dfqi_part D 0) m0 Qs e (proj1 HG) H0 _ _ u I1); assumption.
      + apply (over_step p nA cell phi gamma OH HA (dfqi_part D 1) m1 Qs e (proj1 HG) H1 _ _ u I0); assumption. }
  specialize (INV n). cbv zeta in INV. destruct (dfqi_fit (reg_pred p nA phi) (reg_fit p phi pinv) gamma n D (w0, w1, t)) as [[v0 v1] tn]. cbn [fst snd] in INV.
  intros v Hv Hn. destruct INV as (I0 & I1 & T). destruct (T Hn) as (t' & ->). rewrite reg_pred_nth by exact Ha. rewrite (phi_dot p cell phi OH).
  destruct Hv as [-> | ->]; [apply I0|apply I1]; try exact Ha; apply (OH x).
Qed.

(** With a discount factor below one half it does not underestimate for ever either *)
Theorem double_table_near_optimal_partial : forall (X : Type) p nA cell (phi : X -> vec) pinv gamma n (D : list (bsample X)) w0 w1 t Qs e B x a,
  one_hot p cell phi -> (forall n m A, penrose n m A (pinv n m A)) -> (0 < nA)%nat -> 0 <= gamma < 1 / 2 -> 0 <= e ->
  represents p nA cell gamma (dfqi_part D 0) Qs e -> represents p nA cell gamma (dfqi_part D 1) Qs e ->
  (forall c b, (c < p)%nat -> (b < nA)%nat -> Rabs (Qs c b) <= B /\ Rabs (w0 b c) <= B /\ Rabs (w1 b c) <= B) ->
  (a < nA)%nat ->
  let '((v0, v1), _) := double_lin p nA phi pinv gamma n D ((w0, w1), t) in
  forall v, v = v0 \/ v = v1 -> (0 < n)%nat ->
    Rabs (nth a (reg_pred p nA phi v x) 0 - Qs (cell x) a) <= e / ((1 - gamma) * (1 - 2 * gamma)) + 4 * B * (2 * gamma) ^ n.
Proof.
  intros X p nA cell phi pinv gamma n D w0 w1 t Qs e B x a OH HP HA HG He H0 H1 HB Ha.
  assert (HG' : 0 <= gamma < 1) by lra.
  pose proof (double_table_over X p nA cell phi pinv gamma n D w0 w1 t Qs e B x a OH HP HA HG' He H0 H1 HB Ha) as OV.
  assert (B0 : 0 <= B) by (destruct (HB (cell x) a (proj1 (OH x)) Ha) as [Q _]; pose proof (Rabs_pos (Qs (cell x) a)); lra).
  set (L := e / ((1 - gamma) * (1 - 2 * gamma))).
  assert (E0 : 0 <= e / (1 - gamma)) by (apply Rmult_le_pos; [exact He|left; apply Rinv_0_lt_compat; lra]).
  assert (EL : e / (1 - gamma) <= L).
  { unfold L. replace (e / ((1 - gamma) * (1 - 2 * gamma))) with (e / (1 - gamma) * / (1 - 2 * gamma)) by (field; lra).
    rewrite <- (Rmult_1_r (e / (1 - gamma))) at 1. apply Rmult_le_compat_l; [exact E0|]. rewrite <- Rinv_1 at 1. apply Rinv_le_contravar; lra. }
  unfold double_lin in *.
  assert (INV : forall k, let st := dfqi_fit (reg_pred p nA phi) (reg_fit p phi pinv) gamma k D ((w0, w1), t) in
    let u := e / (1 - gamma) + gamma ^ k * (2 * B) in let l := L + 2 * B * (2 * (2 * gamma) ^ k - gamma ^ k) in
    (forall c b, (c < p)%nat -> (b < nA)%nat -> dstart (fst (fst st)) (snd st) c b <= Qs c b + u /\ Qs c b - l <= dstart (fst (fst st)) (snd st) c b) /\
    (forall c b, (c < p)%nat -> (b < nA)%nat -> dstart (snd (fst st)) (snd st) c b <= Qs c b + u /\ Qs c b - l <= dstart (snd (fst st)) (snd st) c b) /\
    ((0 < k)%nat -> exists t', snd st = Some t')).
  { induction k as [|k IH]; cbv zeta in *.
    - cbn [dfqi_fit fst snd pow]. split; [|split; [|lia]]; intros c b Hc Hb; destruct (HB c b Hc Hb) as (Q1 & Q2 & Q3);
        apply BatchProps.Rabs_le_inv in Q1; apply BatchProps.Rabs_le_inv in Q2; apply BatchProps.Rabs_le_inv in Q3; unfold dstart; destruct t; split; lra.
    - rewrite dfqi_S. destruct (dfqi_fit (reg_pred p nA phi) (reg_fit p phi pinv) gamma k D ((w0, w1), t)) as [[m0 m1] tk]. cbn [fst snd] in IH. destruct IH as (I0 & I1 & _).
      set (u := e / (1 - gamma) + gamma ^ k * (2 * B)) in *. set (l := L + 2 * B * (2 * (2 * gamma) ^ k - gamma ^ k)) in *.
      assert (PG : 0 <= gamma ^ k <= (2 * gamma) ^ k) by (split; [apply pow_le; lra|apply pow_incr; lra]).
      assert (U0 : 0 <= u) by (unfold u; nra).
      assert (L0 : 0 <= l) by (unfold l; nra).
      assert (EU : e + gamma * u = e / (1 - gamma) + gamma ^ S k * (2 * B)) by (unfold u; cbn [pow]; field; lra).
      assert (ELL : e + gamma * (2 * l + u) = L + 2 * B * (2 * (2 * gamma) ^ S k - gamma ^ S k)) by (unfold l, u, L; cbn [pow]; field; lra).
      pose proof (fun c b Hc => diter_step p nA cell phi pinv gamma OH HP HA D m0 m1 tk c b Hc) as ST. cbv zeta in ST.
      destruct (dfqi_iter (reg_pred p nA phi) (reg_fit p phi pinv) gamma D (m0, m1, tk)) as [[n0 n1] tn]. cbn [fst snd] in *.
      assert (I0u := fun c b Hc Hb => proj1 (I0 c b Hc Hb)). assert (I0l := fun c b Hc Hb => proj2 (I0 c b Hc Hb)).
      assert (I1u := fun c b Hc Hb => proj1 (I1 c b Hc Hb)). assert (I1l := fun c b Hc Hb => proj2 (I1 c b Hc Hb)).
      destruct (ST _ 0%nat (proj1 (OH x))) as (_ & _ & t' & T'). rewrite T'. split; [|split; [|eauto]]; intros c b Hc Hb; unfold dstart at 1 2; destruct (ST c b Hc) as (S0 & S1 & _); rewrite ?S0, ?S1, <- EU, <- ELL; split.
      + apply (over_step p nA cell phi gamma OH HA (dfqi_part D 0) m0 Qs e (proj1 HG) H0 _ _ u I1u); assumption.
      + apply (under_step p nA cell phi gamma OH HA (dfqi_part D 0) m0 Qs e (proj1 HG) H0 _ _ u l I0u I0l I1l); assumption.
      + apply (over_step p nA cell phi gamma OH HA (dfqi_part D 1) m1 Qs e (proj1 HG) H1 _ _ u I0u); assumption.
      + apply (under_step p nA cell phi gamma OH HA (dfqi_part D 1) m1 Qs e (proj1 HG) H1 _ _ u l I1u I1l I0l); assumption. }
  specialize (INV n). cbv zeta in INV. destruct (dfqi_fit (reg_pred p nA phi) (reg_fit p phi pinv) gamma n D (w0, w1, t)) as [[v0 v1] tn]. cbn [fst snd] in INV.
  intros v Hv Hn. specialize (OV v Hv Hn). destruct INV as (I0 & I1 & T). destruct (T Hn) as (t' & ->). rewrite reg_pred_nth in * by exact Ha. rewrite (phi_dot p cell phi OH) in *.
  assert (PG : 0 <= gamma ^ n <= (2 * gamma) ^ n) by (split; [apply pow_le; lra|apply pow_incr; lra]).
  assert (LW : Qs (cell x) a - (L + 2 * B * (2 * (2 * gamma) ^ n - gamma ^ n)) <= v a (cell x)).
  { destruct Hv as [-> | ->]; [apply (I0 (cell x) a (proj1 (OH x)) Ha)|apply (I1 (cell x) a (proj1 (OH x)) Ha)]. }
  apply Rabs_le. split; nra.
Qed.

(** When all samples of a pair agree on the reward, the end of the episode and the next part (a
    deterministic environment seen through the partition), it converges for every discount factor *)
Definition agree {X : Type} p nA (cell : X -> nat) (Di : list (bsample X)) (rew : nat -> nat -> R) (nxt : nat -> nat -> option nat) : Prop :=
  forall c a, (c < p)%nat -> (a < nA)%nat -> (exists x, In x Di /\ cell (b_s x) = c /\ b_a x = a) /\
    forall x, In x Di -> cell (b_s x) = c -> b_a x = a ->
      b_r x = rew c a /\ (if b_abs x then None else Some (cell (b_s' x))) = nxt c a.
Theorem double_table_deterministic : forall (X : Type) p nA cell (phi : X -> vec) pinv gamma n (D : list (bsample X)) w0 w1 t rew nxt Qs B x a,
  one_hot p cell phi -> (forall n m A, penrose n m A (pinv n m A)) -> (0 < nA)%nat -> 0 <= gamma < 1 ->
  agree p nA cell (dfqi_part D 0) rew nxt -> agree p nA cell (dfqi_part D 1) rew nxt ->
  (** [Qs] solves the optimality equation *)
  (forall c b, (c < p)%nat -> (b < nA)%nat -> match nxt c b with None => Qs c b = rew c b
     | Some c' => exists v, is_max (map (Qs c') (seq 0 nA)) v /\ Qs c b = rew c b + gamma * v end) ->
  (forall c b, (c < p)%nat -> (b < nA)%nat -> Rabs (Qs c b) <= B /\ Rabs (w0 b c) <= B /\ Rabs (w1 b c) <= B) ->
  (a < nA)%nat ->
  let '((v0, v1), _) := double_lin p nA phi pinv gamma n D ((w0, w1), t) in
  forall v, v = v0 \/ v = v1 -> (0 < n)%nat ->
    Rabs (nth a (reg_pred p nA phi v x) 0 - Qs (cell x) a) <= gamma ^ n * (2 * B) * (1 + INR n).
Proof.
  intros X p nA cell phi pinv gamma n D w0 w1 t rew nxt Qs B x a OH HP HA HG H0 H1 HQ HB Ha.
  assert (B0 : 0 <= B) by (destruct (HB (cell x) a (proj1 (OH x)) Ha) as [Q _]; pose proof (Rabs_pos (Qs (cell x) a)); lra).
  assert (TB : forall Di m own other c b, agree p nA cell Di rew nxt -> (c < p)%nat -> (b < nA)%nat ->
    table cell Di m (dbk nA cell gamma own other) c b = rew c b + gamma * (match nxt c b with None => 0 | Some c' => other c' (best nA own c') end)).
  { intros Di m own other c b AG Hc Hb. destruct (AG c b Hc Hb) as ((y & Iy & Cy & Ay) & AL).
    assert (F : forall z, In z (here cell Di c b) -> dbk nA cell gamma own other z = rew c b + gamma * (match nxt c b with None => 0 | Some c' => other c' (best nA own c') end)).
    { intros z I. unfold here in I. apply filter_In in I as [I F]. apply andb_true_iff in F as [F1 F2]. apply Nat.eqb_eq in F1, F2. destruct (AL z I F1 F2) as (R1 & N1).
      unfold dbk. rewrite R1, <- N1. destruct (b_abs z); reflexivity. }
    assert (Y : In y (here cell Di c b)) by (unfold here; apply filter_In; split; [exact Iy|]; rewrite Cy, Ay, !Nat.eqb_refl; reflexivity).
    unfold table. destruct (here cell Di c b) as [|z h] eqn:E; [destruct Y|]. rewrite <- E in *.
    set (k := rew c b + gamma * (match nxt c b with None => 0 | Some c' => other c' (best nA own c') end)) in *.
    rewrite (map_ext_in _ (fun _ => k)) by exact F. unfold mean. rewrite map_length.
    assert (P : INR (length (here cell Di c b)) <> 0) by (apply not_0_INR; rewrite E; discriminate).
    assert (S : rsum (map (fun _ : bsample X => k) (here cell Di c b)) = INR (length (here cell Di c b)) * k).
    { generalize (here cell Di c b). intros l. induction l as [|q l IH]; [simpl; ring|]. cbn [map rsum length]. rewrite S_INR, IH. ring. }
    rewrite S. field. exact P. }
  assert (NX : forall c b c', (c < p)%nat -> (b < nA)%nat -> nxt c b = Some c' -> (c' < p)%nat).
  { intros c b c' Hc Hb E. destruct (H0 c b Hc Hb) as ((y & Iy & Cy & Ay) & AL). destruct (AL y Iy Cy Ay) as (_ & N). rewrite E in N.
    destruct (b_abs y); [discriminate|]. injection N as <-. apply (OH (b_s' y)). }
  unfold double_lin.
  assert (INV : forall k, let st := dfqi_fit (reg_pred p nA phi) (reg_fit p phi pinv) gamma k D ((w0, w1), t) in
    let q0 := dstart (fst (fst st)) (snd st) in let q1 := dstart (snd (fst st)) (snd st) in
    let u := gamma ^ k * (2 * B) in let l := gamma ^ k * (2 * B) * (1 + INR k) in
    (forall c b, (c < p)%nat -> (b < nA)%nat -> - u <= q0 c b - q1 c b <= u /\ q0 c b <= Qs c b + u /\ q1 c b <= Qs c b + u /\ Qs c b - l <= q0 c b /\ Qs c b - l <= q1 c b) /\
    ((0 < k)%nat -> exists t', snd st = Some t')).
  { induction k as [|k IH]; cbv zeta in *.
    - cbn [dfqi_fit fst snd pow INR]. split; [|lia]. intros c b Hc Hb; destruct (HB c b Hc Hb) as (Q1 & Q2 & Q3);
        apply BatchProps.Rabs_le_inv in Q1; apply BatchProps.Rabs_le_inv in Q2; apply BatchProps.Rabs_le_inv in Q3; unfold dstart; destruct t; repeat split; lra.
    - rewrite dfqi_S. destruct (dfqi_fit (reg_pred p nA phi) (reg_fit p phi pinv) gamma k D ((w0, w1), t)) as [[m0 m1] tk]. cbn [fst snd] in IH. destruct IH as (I & _).
      set (q0 := dstart m0 tk) in *. set (q1 := dstart m1 tk) in *.
      set (u := gamma ^ k * (2 * B)) in *. assert (U0 : 0 <= u) by (unfold u; pose proof (pow_le gamma k (proj1 HG)); nra).
      assert (K0 : 0 <= INR k) by apply pos_INR.
      assert (EU : gamma ^ S k * (2 * B) = gamma * u) by (unfold u; cbn [pow]; ring). rewrite EU. rewrite S_INR.
      pose proof (fun c b Hc => diter_step p nA cell phi pinv gamma OH HP HA D m0 m1 tk c b Hc) as ST. cbv zeta in ST. fold q0 q1 in ST.
      destruct (dfqi_iter (reg_pred p nA phi) (reg_fit p phi pinv) gamma D (m0, m1, tk)) as [[n0 n1] tn]. cbn [fst snd] in *.
      destruct (ST _ 0%nat (proj1 (OH x))) as (_ & _ & t' & T'). rewrite T'. split; [|eauto]. intros c b Hc Hb. destruct (ST c b Hc) as (S0 & S1 & _). unfold dstart. rewrite S0, S1.
      rewrite !TB by assumption. specialize (HQ c b Hc Hb). pose proof (NX c b) as NXc. destruct (nxt c b) as [c'|].
      + specialize (NXc c' Hc Hb eq_refl). destruct HQ as (v & [IV MV] & ->). apply in_map_iff in IV as (av & <- & Iav). apply in_seq in Iav. assert (Av : (av < nA)%nat) by lia.
        destruct (best_spec nA HA q0 c') as [L0 M0]. destruct (best_spec nA HA q1 c') as [L1 M1]. set (b0 := best nA q0 c') in *. set (b1 := best nA q1 c') in *.
        destruct (I c' b0 NXc L0) as (D0 & U00 & U01 & _). destruct (I c' b1 NXc L1) as (D1 & U10 & U11 & _). destruct (I c' av NXc Av) as (_ & _ & _ & V0 & V1).
        pose proof (M0 b1 L1). pose proof (M1 b0 L0). pose proof (M0 av Av). pose proof (M1 av Av).
        assert (MV0 : Qs c' b0 <= Qs c' av) by (apply MV, in_map, in_seq; lia). assert (MV1 : Qs c' b1 <= Qs c' av) by (apply MV, in_map, in_seq; lia).
        repeat split.
        * assert (- u <= q1 c' b0 - q0 c' b1) by lra. nra.
        * assert (q1 c' b0 - q0 c' b1 <= u) by lra. nra.
        * assert (q1 c' b0 <= Qs c' av + u) by lra. nra.
        * assert (q0 c' b1 <= Qs c' av + u) by lra. nra.
        * assert (Qs c' av - u * (1 + INR k) - u <= q1 c' b0) by lra. nra.
        * assert (Qs c' av - u * (1 + INR k) - u <= q0 c' b1) by lra. nra.
      + rewrite HQ. assert (0 <= gamma * u * (1 + (INR k + 1))) by (apply Rmult_le_pos; nra). repeat split; nra. }
  specialize (INV n). cbv zeta in INV. destruct (dfqi_fit (reg_pred p nA phi) (reg_fit p phi pinv) gamma n D (w0, w1, t)) as [[v0 v1] tn]. cbn [fst snd] in INV.
  intros v Hv Hn. destruct INV as (I & T). destruct (T Hn) as (t' & ->). rewrite reg_pred_nth by exact Ha. rewrite (phi_dot p cell phi OH).
  destruct (I (cell x) a (proj1 (OH x)) Ha) as (_ & A1 & A2 & A3 & A4). unfold dstart in *.
  assert (PU : 0 <= gamma ^ n * (2 * B) * INR n) by (apply Rmult_le_pos; [pose proof (pow_le gamma n (proj1 HG)); nra|apply pos_INR]).
  apply Rabs_le. destruct Hv as [-> | ->]; split; lra.
Qed.

(** ** DoubleFQI need not converge *)
(** Two states.  In [true] action 0 ends and earned 0 in the first half and 1 in the second; action 1
    earned 0 and stayed in the first half and ended with -1 in the second.  In [false] action 0 leads to
    [true] and action 1 ends, without reward.  All samples are outcomes of one stochastic environment. *)
Definition swing : list (bsample bool) :=
  let s x a r y ab := {| b_s := x; b_a := a; b_r := r; b_s' := y; b_abs := ab |} in
  [s true 0%nat 0 true true; s true 1%nat 0 true false; s false 0%nat 0 true false; s false 1%nat 0 false true;
   s true 0%nat 1 true true; s true 1%nat (-1) true true; s false 0%nat 0 true false; s false 1%nat 0 false true].
Definition bcell (x : bool) : nat := if x then 1%nat else 0%nat.
Definition bphi (x : bool) : vec := fun j => if Nat.eqb j (bcell x) then 1 else 0.
Lemma bphi_hot : one_hot 2 bcell bphi.
Proof.
  intros x. split; [destruct x; cbn; lia|]. split; [unfold bphi; rewrite Nat.eqb_refl; reflexivity|].
  intros j _ N. unfold bphi. destruct (Nat.eqb j (bcell x)) eqn:E; [apply Nat.eqb_eq in E; congruence|reflexivity].
Qed.

(** The predictions of the ensemble in [false] jump between gamma / 2 and - gamma / 2 for action 0, with
    0 for action 1, so the greedy action changes at every iteration, for ever *)
Theorem double_table_refuted : forall pinv gamma n, (forall n m A, penrose n m A (pinv n m A)) -> 0 < gamma < 1 ->
  let '((v0, v1), _) := double_lin 2 2 bphi pinv gamma (S (S n)) swing ((fun _ _ => 0, fun _ _ => 0), None) in
  ens_q 2 2 bphi EMean [v0; v1] false = [(-1) ^ n * gamma / 2; 0].
Proof.
  intros pinv gamma n HP HG. unfold double_lin.
  assert (HA : (0 < 2)%nat) by lia.
  assert (INV : let st := dfqi_fit (reg_pred 2 2 bphi) (reg_fit 2 bphi pinv) gamma (S (S n)) swing ((fun _ _ => 0, fun _ _ => 0), None) in
    let v0 := fst (fst st) in let v1 := snd (fst st) in
    (v0 0%nat 1%nat = 0 /\ v0 1%nat 1%nat = (-1) ^ n * gamma /\ v0 0%nat 0%nat = (-1) ^ n * gamma /\ v0 1%nat 0%nat = 0) /\
    (v1 0%nat 1%nat = 1 /\ v1 1%nat 1%nat = -1 /\ v1 0%nat 0%nat = 0 /\ v1 1%nat 0%nat = 0) /\
    exists t', snd st = Some t').
  { assert (P0 : dfqi_part swing 0 = firstn 4 swing) by reflexivity. assert (P1 : dfqi_part swing 1 = skipn 4 swing) by reflexivity.
    assert (T0 : forall m own other c a, (c < 2)%nat -> (a < 2)%nat -> table bcell (firstn 4 swing) m (dbk 2 bcell gamma own other) c a =
      match c, a with 0%nat, 0%nat | 1%nat, 1%nat => gamma * other 1%nat (best 2 own 1%nat) | _, _ => 0 end).
    { intros m own other c a Hc Ha. destruct c as [|[|]]; [| |lia]; destruct a as [|[|]]; try lia; unfold table, swing, here;
        cbn [firstn filter b_s b_a bcell Nat.eqb andb map]; unfold mean, dbk; cbn [rsum length b_r b_abs b_s' INR bcell]; field. }
    assert (T1 : forall m own other c a, (c < 2)%nat -> (a < 2)%nat -> table bcell (skipn 4 swing) m (dbk 2 bcell gamma own other) c a =
      match c, a with 0%nat, 0%nat => gamma * other 1%nat (best 2 own 1%nat) | 1%nat, 0%nat => 1 | 1%nat, 1%nat => -1 | _, _ => 0 end).
    { intros m own other c a Hc Ha. destruct c as [|[|]]; [| |lia]; destruct a as [|[|]]; try lia; unfold table, swing, here;
        cbn [skipn filter b_s b_a bcell Nat.eqb andb map]; unfold mean, dbk; cbn [rsum length b_r b_abs b_s' INR bcell]; field. }
    assert (BEST : forall Q c, best 2 Q c = if Rlt_dec (Q c 0%nat) (Q c 1%nat) then 1%nat else 0%nat).
    { intros Q c. unfold best, argmax. cbn [seq map argmaxl]. destruct (Rlt_dec (Q c 0%nat) (Q c 1%nat)); reflexivity. }
    assert (STEP : forall m0 m1 t c a, (c < 2)%nat -> (a < 2)%nat ->
      let st := dfqi_iter (reg_pred 2 2 bphi) (reg_fit 2 bphi pinv) gamma swing ((m0, m1), t) in
      fst (fst st) a c = match c, a with 0%nat, 0%nat | 1%nat, 1%nat => gamma * dstart m1 t 1%nat (best 2 (dstart m0 t) 1%nat) | _, _ => 0 end /\
      snd (fst st) a c = match c, a with 0%nat, 0%nat => gamma * dstart m0 t 1%nat (best 2 (dstart m1 t) 1%nat) | 1%nat, 0%nat => 1 | 1%nat, 1%nat => -1 | _, _ => 0 end /\
      exists t', snd st = Some t').
    { intros m0 m1 t c a Hc Ha. cbv zeta. destruct (diter_step 2 2 bcell bphi pinv gamma bphi_hot HP HA swing m0 m1 t c a Hc) as (S0 & S1 & S2).
      rewrite P0 in S0. rewrite P1 in S1. rewrite T0 in S0 by assumption. rewrite T1 in S1 by assumption. auto. }
    assert (ALL : forall m0 m1 t, let st := dfqi_iter (reg_pred 2 2 bphi) (reg_fit 2 bphi pinv) gamma swing ((m0, m1), t) in
      let v0 := fst (fst st) in let v1 := snd (fst st) in
      let g := gamma * dstart m1 t 1%nat (best 2 (dstart m0 t) 1%nat) in
      (v0 0%nat 1%nat = 0 /\ v0 1%nat 1%nat = g /\ v0 0%nat 0%nat = g /\ v0 1%nat 0%nat = 0) /\
      (v1 0%nat 1%nat = 1 /\ v1 1%nat 1%nat = -1 /\ v1 0%nat 0%nat = gamma * dstart m0 t 1%nat (best 2 (dstart m1 t) 1%nat) /\ v1 1%nat 0%nat = 0) /\
      exists t', snd st = Some t').
    { intros m0 m1 t. cbv zeta.
      destruct (STEP m0 m1 t 0%nat 0%nat ltac:(lia) ltac:(lia)) as (A1 & B1 & C1). destruct (STEP m0 m1 t 0%nat 1%nat ltac:(lia) ltac:(lia)) as (A2 & B2 & _).
      destruct (STEP m0 m1 t 1%nat 0%nat ltac:(lia) ltac:(lia)) as (A3 & B3 & _). destruct (STEP m0 m1 t 1%nat 1%nat ltac:(lia) ltac:(lia)) as (A4 & B4 & _). repeat split; assumption. }
    assert (ONE : let st := dfqi_fit (reg_pred 2 2 bphi) (reg_fit 2 bphi pinv) gamma 1 swing ((fun _ _ => 0, fun _ _ => 0), None) in
      let v0 := fst (fst st) in let v1 := snd (fst st) in
      (v0 0%nat 1%nat = 0 /\ v0 1%nat 1%nat = 0) /\ (v1 0%nat 1%nat = 1 /\ v1 1%nat 1%nat = -1) /\ exists t', snd st = Some t').
    { cbv zeta. cbn [dfqi_fit]. destruct (ALL (fun _ _ => 0) (fun _ _ => 0) None) as ((A & B & _) & (C & E & _) & T). cbv zeta in *. unfold dstart at 1 in B. rewrite Rmult_0_r in B. auto. }
    assert (NEXT : forall m0 m1 t z, m0 0%nat 1%nat = 0 -> m0 1%nat 1%nat = z -> m1 0%nat 1%nat = 1 -> m1 1%nat 1%nat = -1 ->
      let st := dfqi_iter (reg_pred 2 2 bphi) (reg_fit 2 bphi pinv) gamma swing ((m0, m1), Some t) in
      let v0 := fst (fst st) in let v1 := snd (fst st) in let g := gamma * (if Rlt_dec 0 z then -1 else 1) in
      (v0 0%nat 1%nat = 0 /\ v0 1%nat 1%nat = g /\ v0 0%nat 0%nat = g /\ v0 1%nat 0%nat = 0) /\
      (v1 0%nat 1%nat = 1 /\ v1 1%nat 1%nat = -1 /\ v1 0%nat 0%nat = 0 /\ v1 1%nat 0%nat = 0) /\
      exists t', snd st = Some t').
    { intros m0 m1 t z E0 E1 F0 F1. cbv zeta.
      destruct (ALL m0 m1 (Some t)) as ((A1 & A2 & A3 & A4) & (C1 & C2 & C3 & C4) & T). cbv zeta in *.
      rewrite BEST in A2, A3, C3. unfold dstart in A2, A3, C3. rewrite E0, E1 in A2, A3. rewrite F0, F1 in C3.
      destruct (Rlt_dec 1 (-1)); [lra|]. rewrite E0, Rmult_0_r in C3.
      destruct (Rlt_dec 0 z); rewrite ?F0, ?F1 in A2, A3; repeat split; assumption. }
    induction n as [|n IH]; cbv zeta in *.
    - rewrite (dfqi_S 2 2 bphi pinv gamma 1). destruct (dfqi_fit (reg_pred 2 2 bphi) (reg_fit 2 bphi pinv) gamma 1 swing ((fun _ _ => 0, fun _ _ => 0), None)) as [[m0 m1] t1].
      cbn [fst snd] in ONE. destruct ONE as ((A & B) & (C & E) & t' & ->). destruct (NEXT m0 m1 t' 0 A B C E) as (R1 & R2 & R3). destruct (Rlt_dec 0 0) as [Z|_]; [lra|].
      cbn [pow]. rewrite Rmult_1_r in R1. rewrite Rmult_1_l. auto.
    - rewrite (dfqi_S 2 2 bphi pinv gamma (S (S n))). destruct (dfqi_fit (reg_pred 2 2 bphi) (reg_fit 2 bphi pinv) gamma (S (S n)) swing ((fun _ _ => 0, fun _ _ => 0), None)) as [[m0 m1] t1].
      cbn [fst snd] in IH. destruct IH as ((A & B & _) & (C & E & _) & t' & ->). destruct (NEXT m0 m1 t' _ A B C E) as (R1 & R2 & R3).
      assert (G : gamma * (if Rlt_dec 0 ((-1) ^ n * gamma) then -1 else 1) = (-1) ^ S n * gamma).
      { cbn [pow]. assert (Z : (-1) ^ n = 1 \/ (-1) ^ n = -1) by (clear; induction n as [|n [IH|IH]]; cbn [pow]; [left; reflexivity| |]; rewrite IH; [right|left]; ring).
        destruct (Rlt_dec 0 ((-1) ^ n * gamma)); destruct Z as [Z|Z]; rewrite Z in *; lra. }
      rewrite G in R1. auto. }
  cbv zeta in INV. destruct (dfqi_fit (reg_pred 2 2 bphi) (reg_fit 2 bphi pinv) gamma (S (S n)) swing ((fun _ _ => 0, fun _ _ => 0), None)) as [[v0 v1] t']. cbn [fst snd] in INV.
  destruct INV as ((A1 & A2 & A3 & A4) & (C1 & C2 & C3 & C4) & _).
  unfold ens_q. cbn [seq map]. rewrite !reg_pred_nth by lia. rewrite !(phi_dot 2 bcell bphi bphi_hot). cbn [bcell]. rewrite A3, A4, C3, C4.
  unfold ens_predict. cbn [rsum length INR]. f_equal; [field|f_equal; field].
Qed.

(** * Cases *)
(** Boosting on the data of [few], and DoubleFQI on the same data twice: both approach its values *)
Example ens_fqi_ex : exists pinv, (forall n m A, penrose n m A (pinv n m A)) /\
  forall n x a, (a < 2)%nat ->
  (exists st, boosted_lin 2 2 side_phi pinv (1 / 2) (S n) few (boosted_init (repeat (fun _ _ => 0) (S n))) = Some st /\
    Rabs (nth a (ens_q 2 2 side_phi ESum (f_models st) x) 0 - few_Q (side x) a) <= (1 / 2) ^ S n * 12) /\
  (let st := double_lin 2 2 side_phi pinv (1 / 2) (S n) (few ++ few) ((fun _ _ => 0, fun _ _ => 0), None) in
    Rabs (nth a (reg_pred 2 2 side_phi (fst (fst st)) x) 0 - few_Q (side x) a) <= (1 / 2) ^ S n * 12).
Proof.
  destruct fqi_table_ex as (_ & pinv & HP & B). exists pinv. split; [exact HP|]. intros n x a Ha. split.
  - destruct (boosted_linear_is_fqi nat 2 2 side_phi pinv (1 / 2) n few (repeat (fun _ _ => 0) (S n))) as (st & E & _ & S0).
    + lia.
    + rewrite repeat_length. lia.
    + intros m I c b. rewrite (repeat_spec _ _ _ I). reflexivity.
    + exists st. split; [exact E|]. rewrite S0. apply B. exact Ha.
  - cbv zeta. specialize (B n x a Ha).
    pose proof (double_same_halves nat lreg (reg_pred 2 2 side_phi) (reg_fit 2 side_phi pinv) (1 / 2) (S n) (few ++ few) (fun _ _ => 0) None
      ltac:(intros m y E; discriminate E) eq_refl) as H. cbv zeta in H.
    assert (H1 := f_equal (fun r => fst (fst r)) H). cbn [fst] in H1. unfold double_lin. cbn [option_map] in H1.
    eapply Rle_trans; [|exact B]. right. f_equal. f_equal. exact (f_equal (fun m => nth a (reg_pred 2 2 side_phi m x) 0) H1).
Qed.
(** The data of the oscillating case in numbers: after 2 and after 3 iterations *)
Example double_swing_ex : exists pinv, (forall n m A, penrose n m A (pinv n m A)) /\
  let q k := let '((v0, v1), _) := double_lin 2 2 bphi pinv (1 / 2) k swing ((fun _ _ => 0, fun _ _ => 0), None) in ens_q 2 2 bphi EMean [v0; v1] false in
  q 2%nat = [1 / 4; 0] /\ q 3%nat = [- (1 / 4); 0].
Proof.
  destruct pinv_exists as (pinv & HP). exists pinv. split; [exact HP|]. cbv zeta.
  assert (Q : forall k z, (let '((v0, v1), _) := double_lin 2 2 bphi pinv (1 / 2) k swing ((fun _ _ => 0, fun _ _ => 0), None) in ens_q 2 2 bphi EMean [v0; v1] false = z) ->
    (let '((v0, v1), _) := double_lin 2 2 bphi pinv (1 / 2) k swing ((fun _ _ => 0, fun _ _ => 0), None) in ens_q 2 2 bphi EMean [v0; v1] false) = z).
  { intros k z. match goal with |- context[double_lin ?a ?b ?c ?d ?e ?f ?g ?h] => destruct (double_lin a b c d e f g h) as [[v0 v1] tv] end. intros H. exact H. }
  split; (eapply eq_trans; [apply Q|]).
  - exact (double_table_refuted pinv (1 / 2) 0 HP ltac:(lra)).
  - cbn [pow]. f_equal. field.
  - exact (double_table_refuted pinv (1 / 2) 1 HP ltac:(lra)).
  - cbn [pow]. f_equal. field.
Qed.

Print Assumptions boosted_linear_is_fqi.
Print Assumptions boosted_table_value_iteration.
Print Assumptions boosted_mean_greedy.
Print Assumptions boosted_mean_refuted.
Print Assumptions double_same_halves.
Print Assumptions double_table_over.
Print Assumptions double_table_near_optimal_partial.
Print Assumptions double_table_deterministic.
Print Assumptions double_table_refuted.

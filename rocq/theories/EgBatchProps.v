(** C134: epsilon-greedy on a batch of states. *)
From Coq Require Import List Arith Lia Reals Bool Lra.
From Verif Require Import Common PolicyModel PolicyProofs EgBatchModel.
Import ListNotations.

(** Entries of the matrix, and the largest ones *)
Definition inside (q : list (list R)) (i j : nat) : Prop := i < length q /\ j < length (nth i q []).
Definition best (q : list (list R)) (i j : nat) : Prop := inside q i j /\ forall i' j', inside q i' j' -> (entry q i' j' <= entry q i j)%R.

Lemma inside_concat : forall q i j, inside q i j -> In (entry q i j) (concat q).
Proof.
  intros q i j [H1 H2]. apply in_concat. exists (nth i q []). split; [apply nth_In; exact H1|]. apply nth_In. exact H2.
Qed.
Lemma concat_inside : forall q x, In x (concat q) -> exists i j, inside q i j /\ entry q i j = x.
Proof.
  intros q x H. apply in_concat in H as (l & Hl & Hx). destruct (In_nth _ _ [] Hl) as (i & Hi & Ei). destruct (In_nth _ _ 0%R Hx) as (j & Hj & Ej).
  exists i, j. unfold inside, entry. rewrite Ei. auto.
Qed.

Lemma fold_max_ge : forall l x, (x <= fold_left Rmax l x)%R /\ forall y, In y l -> (y <= fold_left Rmax l x)%R.
Proof.
  induction l as [|z l IH]; intros x; cbn; [split; [lra|intros y []]|]. destruct (IH (Rmax x z)) as [H1 H2].
  pose proof (Rmax_l x z). pose proof (Rmax_r x z). split; [lra|]. intros y [->|Hy]; [lra|auto].
Qed.
Lemma fold_max_in : forall l x, fold_left Rmax l x = x \/ In (fold_left Rmax l x) l.
Proof.
  induction l as [|z l IH]; intros x; cbn; [auto|]. destruct (IH (Rmax x z)) as [E|H]; [|auto]. rewrite E.
  unfold Rmax. destruct (Rle_dec x z); auto.
Qed.
Lemma best_max : forall q i j, inside q i j -> (entry q i j = mat_max q <-> best q i j).
Proof.
  intros q i j HI. unfold mat_max, qmax. pose proof (inside_concat q i j HI) as IC. destruct (concat q) as [|x l] eqn:E; [destruct IC|].
  destruct (fold_max_ge l x) as [G1 G2].
  assert (UP : forall i' j', inside q i' j' -> (entry q i' j' <= fold_left Rmax l x)%R).
  { intros i' j' H'. apply inside_concat in H'. rewrite E in H'. destruct H' as [<-|H']; auto. }
  split.
  - intros H. split; [exact HI|]. intros. rewrite H. auto.
  - intros [_ B]. apply Rle_antisym; [apply UP; exact HI|].
    assert (IM : In (fold_left Rmax l x) (concat q)) by (rewrite E; destruct (fold_max_in l x) as [->|]; [left|right]; auto).
    destruct (concat_inside _ _ IM) as (i' & j' & H' & <-). apply B. exact H'.
Qed.

Lemma in_argwhere : forall q a, In a (argwhere_ravel q) <-> exists i j, best q i j /\ (a = i \/ a = j).
Proof.
  intros q a. unfold argwhere_ravel. rewrite in_flat_map. split.
  - intros (i & Hi & H). apply in_flat_map in H as (j & Hj & H). apply in_seq in Hi, Hj.
    destruct (Req_EM_T (entry q i j) (mat_max q)) as [E|_]; [|destruct H]. exists i, j. split; [|cbn in H; intuition].
    apply best_max; [split; lia|exact E].
  - intros (i & j & B & H). exists i. pose proof B as [[I1 I2] _]. split; [apply in_seq; lia|]. apply in_flat_map. exists j. split; [apply in_seq; lia|].
    destruct (Req_EM_T (entry q i j) (mat_max q)) as [_|N]; [cbn; intuition|]. destruct N. apply best_max; [split; auto|exact B].
Qed.

Lemma argwhere_two : forall q i j, inside q i j -> 2 <= length (argwhere_ravel q).
Proof.
  intros q i j HI.
  assert (exists i' j', best q i' j') as (i' & j' & B).
  { pose proof (inside_concat q i j HI) as IC.
    assert (IM : In (mat_max q) (concat q)).
    { unfold mat_max, qmax. destruct (concat q) as [|x l]; [destruct IC|]. destruct (fold_max_in l x) as [->|]; [left|right]; auto. }
    destruct (concat_inside _ _ IM) as (i' & j' & H' & E). exists i', j'. apply best_max; auto. }
  pose proof B as [[I1 I2] _]. unfold argwhere_ravel.
  assert (G : forall (f : nat -> list nat) l x, In x l -> length (f x) <= length (flat_map f l)).
  { intros f l x Hx. induction l as [|y l IH]; [destruct Hx|]. cbn. rewrite app_length. destruct Hx as [->|Hx]; [lia|]. apply IH in Hx. lia. }
  assert (N1 : In i' (seq 0 (length q))) by (apply in_seq; lia). assert (N2 : In j' (seq 0 (length (nth i' q [])))) by (apply in_seq; lia).
  set (f := fun i j => if Req_EM_T (entry q i j) (mat_max q) then [i; j] else []).
  pose proof (G (fun i => flat_map (f i) (seq 0 (length (nth i q [])))) (seq 0 (length q)) i' N1) as G1.
  pose proof (G (f i') (seq 0 (length (nth i' q []))) j' N2) as G2. cbv beta in G1.
  assert (G3 : length (f i' j') = 2); [|rewrite G3 in G2; exact (Nat.le_trans _ _ _ G2 G1)]. unfold f.
  destruct (Req_EM_T (entry q i' j') (mat_max q)) as [_|N]; [reflexivity|]. destruct N. apply best_max; [split; auto|exact B].
Qed.

(** One number, whatever the number of states.  Without exploration it is the number of a row or
    of a column of a largest entry of the whole matrix, and each of these can come out. *)
Theorem eps_greedy_batch : forall q eps u r i j, inside q i j ->
  (forall c, length (eg_draw_batch q eps u c r) = 1) /\
  (~ (u < eps)%R -> forall a, (exists c, c < length (argwhere_ravel q) /\ eg_draw_batch q eps u c r = [a]) <-> exists i j, best q i j /\ (a = i \/ a = j)).
Proof.
  intros q eps u r i j HI. pose proof (argwhere_two q i j HI) as L. unfold eg_draw_batch.
  assert (B : (1 <? length (argwhere_ravel q)) = true) by (apply Nat.ltb_lt; lia). cbv zeta. rewrite B. split.
  - intros c. destruct (Rlt_dec u eps); reflexivity.
  - intros NU a. destruct (Rlt_dec u eps) as [Y|_]; [contradiction|]. rewrite <- in_argwhere. split.
    + intros (c & Hc & E). injection E as <-. apply nth_In. exact Hc.
    + intros H. destruct (In_nth _ _ 0 H) as (c & Hc & E). exists c. split; [exact Hc|]. rewrite E. reflexivity.
Qed.

Lemma one_best : forall row a, a < length row -> (forall b, b < length row -> b <> a -> (nth b row 0 < nth a row 0)%R) -> argmaxs row = [a].
Proof.
  intros row a Ha HB. assert (NE : row <> []) by (intros ->; cbn in Ha; lia).
  assert (AM : forall b, b < length row -> (nth b row 0%R = qmax row <-> b = a)).
  { intros b Hb. destruct (qmax_spec row NE) as [_ M]. destruct (qmax_nth row NE) as (m & Lm & Em).
    assert (m = a). { destruct (Nat.eq_dec m a) as [|N]; [assumption|]. specialize (HB m Lm N). pose proof (M (nth a row 0%R) (nth_In _ _ Ha)). lra. }
    subst m. split; [|intros ->; exact Em]. intros E. destruct (Nat.eq_dec b a) as [|N]; [assumption|]. specialize (HB b Hb N). lra. }
  unfold argmaxs.
  assert (G : forall n s, (forall j, s <= j < s + n -> j < length row) ->
    filter (fun j => if Req_EM_T (nth j row 0%R) (qmax row) then true else false) (seq s n) = if (s <=? a) && (a <? s + n) then [a] else []).
  { induction n as [|n IH]; intros s Hs; cbn [seq filter].
    - destruct (s <=? a) eqn:E1, (a <? s + 0) eqn:E2; try reflexivity. apply Nat.leb_le in E1. apply Nat.ltb_lt in E2. lia.
    - rewrite IH by (intros; apply Hs; lia). assert (Ls : s < length row) by (apply Hs; lia).
      destruct (Req_EM_T (nth s row 0%R) (qmax row)) as [E|N].
      + apply AM in E; [|exact Ls]. subst s. replace (S a <=? a) with false by (symmetry; apply Nat.leb_gt; lia). rewrite Nat.leb_refl.
        replace (a <? a + S n) with true by (symmetry; apply Nat.ltb_lt; lia). reflexivity.
      + assert (s <> a) by (intros ->; apply N; apply AM; auto).
        replace (S s + n) with (s + S n) by lia. destruct (S s <=? a) eqn:E1, (s <=? a) eqn:E2; try reflexivity;
        [apply Nat.leb_le in E1; apply Nat.leb_gt in E2; lia|apply Nat.leb_gt in E1; apply Nat.leb_le in E2; lia]. }
  rewrite G by (intros; lia). cbn [Nat.leb andb]. change (0 + length row) with (length row). replace (a <? length row) with true by (symmetry; apply Nat.ltb_lt; lia). reflexivity.
Qed.

(** A batch of one state whose only best action is [a]: the draw is uniform on the two positions
    of [0; a], so without exploration the action is 0 half of the times. *)
Theorem eps_greedy_one_state_refuted : forall row a eps u r, a < length row -> (forall b, b < length row -> b <> a -> (nth b row 0 < nth a row 0)%R) -> ~ (u < eps)%R ->
  length (argwhere_ravel [row]) = 2 /\ eg_draw_batch [row] eps u 0 r = [0] /\ eg_draw_batch [row] eps u 1 r = [a] /\ eg_draw row eps u 0 r = a.
Proof.
  intros row a eps u r Ha HB NU.
  assert (BB : forall j, best [row] 0 j <-> j = a).
  { intros j. split.
    - intros [[_ I2] B]. cbn in I2. destruct (Nat.eq_dec j a) as [|N]; [assumption|]. specialize (B 0 a). cbn in B.
      assert (inside [row] 0 a) as HI by (split; cbn; lia). specialize (B HI). unfold entry in B. cbn in B. specialize (HB j I2 N). lra.
    - intros ->. split; [split; cbn; lia|]. intros i' j' [H1 H2]. cbn in H1. assert (i' = 0) as -> by lia. cbn in H2. unfold entry. cbn.
      destruct (Nat.eq_dec j' a) as [->|N]; [lra|]. specialize (HB j' H2 N). lra. }
  assert (EA : argwhere_ravel [row] = [0; a]).
  { unfold argwhere_ravel. cbn [length seq flat_map nth]. rewrite app_nil_r.
    assert (G : forall n s, (forall j, s <= j < s + n -> j < length row) ->
      flat_map (fun j => if Req_EM_T (entry [row] 0 j) (mat_max [row]) then [0; j] else []) (seq s n) = if (s <=? a) && (a <? s + n) then [0; a] else []).
    { induction n as [|n IH]; intros s Hs; cbn [seq flat_map].
      - destruct (s <=? a) eqn:E1, (a <? s + 0) eqn:E2; try reflexivity. apply Nat.leb_le in E1. apply Nat.ltb_lt in E2. lia.
      - rewrite IH by (intros; apply Hs; lia).
        assert (HI : inside [row] 0 s) by (split; cbn; [lia|apply Hs; lia]).
        destruct (Req_EM_T (entry [row] 0 s) (mat_max [row])) as [E|N].
        + apply best_max, BB in E; [|exact HI]. subst s. replace (S a <=? a) with false by (symmetry; apply Nat.leb_gt; lia). rewrite Nat.leb_refl.
          replace (a <? a + S n) with true by (symmetry; apply Nat.ltb_lt; lia). reflexivity.
        + assert (s <> a) by (intros ->; apply N; apply best_max; [exact HI|apply BB; reflexivity]). cbn [app].
          replace (S s + n) with (s + S n) by lia. destruct (S s <=? a) eqn:E1, (s <=? a) eqn:E2; try reflexivity;
          [apply Nat.leb_le in E1; apply Nat.leb_gt in E2; lia|apply Nat.leb_gt in E1; apply Nat.leb_le in E2; lia]. }
    rewrite G by (intros; lia). cbn [Nat.leb andb]. change (0 + length row) with (length row). replace (a <? length row) with true by (symmetry; apply Nat.ltb_lt; lia). reflexivity. }
  unfold eg_draw_batch, eg_draw. cbv zeta. rewrite EA. destruct (Rlt_dec u eps) as [Y|_]; [contradiction|]. cbn [length Nat.ltb Nat.leb nth].
  do 3 (split; [reflexivity|]).
  rewrite (one_best row a Ha HB). reflexivity.
Qed.

(** The chance of each action under the draw: exploration, or a uniform position *)
Definition chance (eps : R) (n : nat) (positions : list nat) (b : nat) : R :=
  (eps * (if b <? n then 1 / INR n else 0) + (1 - eps) * (INR (count_occ Nat.eq_dec positions b) / INR (length positions)))%R.
(** policy(state, a), which adds the batch dimension itself and flattens the prediction, gives the
    best action 1 - eps + eps / n; the draw takes it with (1 - eps) / 2 less if it is not 0. *)
Theorem eps_greedy_call_disagrees_refuted : forall row a eps, a < length row -> a <> 0 -> (forall b, b < length row -> b <> a -> (nth b row 0 < nth a row 0)%R) ->
  (eg_prob row eps a = 1 - eps + eps / INR (length row) /\
   chance eps (length row) (argwhere_ravel [row]) a = eg_prob row eps a - (1 - eps) / 2 /\
   chance eps (length row) (argwhere_ravel [row]) 0 = eg_prob row eps 0 + (1 - eps) / 2)%R.
Proof.
  intros row a eps Ha NZ HB.
  destruct (eps_greedy_one_state_refuted row a 0 0 0 Ha HB ltac:(lra)) as (L & D0 & D1 & _).
  assert (EA : argwhere_ravel [row] = [0; a]).
  { unfold eg_draw_batch in D0, D1. destruct (Rlt_dec 0 0); [exfalso; lra|]. cbv zeta in D0, D1. rewrite L in D0, D1. cbn [Nat.ltb Nat.leb] in D0, D1.
    destruct (argwhere_ravel [row]) as [|x [|y [|z t]]]; try discriminate. cbn in D0, D1. congruence. }
  assert (EM : argmaxs row = [a]) by (apply one_best; auto).
  rewrite EA. unfold chance, eg_prob. rewrite EM. cbn [existsb length]. rewrite Nat.eqb_refl, orb_true_l.
  replace (a <? length row) with true by (symmetry; apply Nat.ltb_lt; lia). replace (0 <? length row) with true by (symmetry; apply Nat.ltb_lt; lia).
  replace (0 =? a) with false by (symmetry; apply Nat.eqb_neq; lia). cbn [orb].
  assert (C1 : count_occ Nat.eq_dec [0; a] a = 1) by (rewrite count_occ_cons_neq, count_occ_cons_eq by lia; reflexivity).
  assert (C0 : count_occ Nat.eq_dec [0; a] 0 = 1) by (rewrite count_occ_cons_eq, count_occ_cons_neq by lia; reflexivity).
  rewrite C1, C0. assert (INR (length row) <> 0%R) by (apply not_0_INR; lia). cbn [INR]. repeat split; field; auto.
Qed.

(** No step of a MultiprocessEnvironment is possible with it. *)
Theorem eps_greedy_vector_step_refuted : forall q eps u c r mask, In true mask -> eg_vector_step q eps u c r mask = None.
Proof.
  intros q eps u c r mask H. unfold eg_vector_step. generalize 0 as i. induction mask as [|b t IH]; intros i; [destruct H|].
  cbn [step_all]. destruct H as [->|H]; [reflexivity|]. destruct (if b then _ else _); [|reflexivity]. rewrite IH; auto.
Qed.

(** Three states, two actions, the best value in the third row: the action can be 2, which does
    not exist *)
Example batch_ex : eg_draw_batch [[1; 0]; [0; 1]; [0; 5]]%R 0 (1/2) 0 0 = [2] /\ eg_draw_batch [[1; 0]; [0; 1]; [0; 5]]%R 0 (1/2) 1 0 = [1].
Proof.
  assert (EA : argwhere_ravel [[1; 0]; [0; 1]; [0; 5]]%R = [2; 1]).
  { assert (EM : mat_max [[1; 0]; [0; 1]; [0; 5]]%R = 5%R) by (unfold mat_max, qmax; cbn; unfold Rmax; repeat (destruct (Rle_dec _ _)); lra).
    unfold argwhere_ravel. rewrite EM. unfold entry. cbn. repeat (destruct (Req_EM_T _ _); try (exfalso; lra)). reflexivity. }
  unfold eg_draw_batch. rewrite EA. destruct (Rlt_dec (1/2) 0); [exfalso; lra|]. split; reflexivity.
Qed.
(** An action array with one row per environment is sent row by row *)
Example sent_ex : step_all (TwoDim [[4]; [5]]) 0 [true; false] = Some [Some [4]; None] /\ step_all (OneDim [4]) 0 [true; true] = None.
Proof. split; reflexivity. Qed.

Print Assumptions eps_greedy_batch.
Print Assumptions eps_greedy_one_state_refuted.
Print Assumptions eps_greedy_vector_step_refuted.
Print Assumptions eps_greedy_call_disagrees_refuted.

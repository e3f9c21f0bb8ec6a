(** Lemmas for C111: the prioritised memory as a list of rows with their priorities. *)
From Coq Require Import List Arith Lia Bool Reals Lra Permutation.
From Verif Require Import Common ReplayModel ReplaySpec ReplayProofs SumTreeModel SumTreeSpec SumTreeProofs SumTreeProps DqnModel CoreDqnModel CoreDqnProps CorePerModel.
From Verif Require CoreModel.
Import ListNotations.

(** ** Rings *)
Definition chron {A} (f : bool) (i : nat) (l : list A) : list A := if f then skipn i l ++ firstn i l else l.

Lemma chron_map : forall A B (g : A -> B) f i l, chron f i (map g l) = map g (chron f i l).
Proof. intros A B g [] i l; unfold chron; [|reflexivity]. rewrite map_app, skipn_map, firstn_map. reflexivity. Qed.

Lemma chron_perm : forall A f i (l : list A), Permutation (chron f i l) l.
Proof. intros A [] i l; unfold chron; [|reflexivity]. rewrite Permutation_app_comm, firstn_skipn. reflexivity. Qed.

Lemma chron_len : forall A f i (l : list A), length (chron f i l) = length l.
Proof. intros. apply Permutation_length, chron_perm. Qed.

Lemma chron_nth : forall A f i (l : list A) j,
  nth_error (chron f i l) j = match nth_error (chron f i (seq 0 (length l))) j with Some k => nth_error l k | None => None end.
Proof.
  intros A f i l j. destruct l as [|d l0] eqn:E.
  - cbn [length seq]. replace (chron f i (@nil A)) with (@nil A) by (symmetry; apply length_zero_iff_nil; rewrite chron_len; reflexivity).
    replace (chron f i (@nil nat)) with (@nil nat) by (symmetry; apply length_zero_iff_nil; rewrite chron_len; reflexivity). destruct j; reflexivity.
  - rewrite <- E. assert (EL : l = map (fun k => nth k l d) (seq 0 (length l))).
    { apply (nth_ext _ _ d d); [rewrite map_length, seq_length; reflexivity|]. intros k Hk.
      rewrite (nth_indep (map _ _) d ((fun k => nth k l d) 0)) by (rewrite map_length, seq_length; exact Hk). rewrite (map_nth (fun k => nth k l d)), seq_nth by exact Hk. reflexivity. }
    rewrite EL at 1. rewrite chron_map, nth_error_map.
    destruct (nth_error (chron f i (seq 0 (length l))) j) as [k|] eqn:EK; [|reflexivity]. cbn [option_map].
    assert (Hk : k < length l).
    { apply nth_error_In in EK. apply (Permutation_in _ (chron_perm _ _ _ _)) in EK. apply in_seq in EK. lia. }
    symmetry. apply List.nth_error_nth'. exact Hk.
Qed.

Lemma chron_order : forall f i n, NoDup (chron f i (seq 0 n)) /\ length (chron f i (seq 0 n)) = n /\ (forall k, k < n -> exists j, nth_error (chron f i (seq 0 n)) j = Some k) /\
  (forall j k, nth_error (chron f i (seq 0 n)) j = Some k -> k < n /\ j < n).
Proof.
  intros f i n. split; [apply (Permutation_NoDup (Permutation_sym (chron_perm _ f i (seq 0 n)))), seq_NoDup|].
  split; [rewrite chron_len; apply seq_length|]. split.
  - intros k Hk. apply In_nth_error. apply (Permutation_in _ (Permutation_sym (chron_perm _ f i (seq 0 n)))). apply in_seq. lia.
  - intros j k H. split.
    + apply nth_error_In in H. apply (Permutation_in _ (chron_perm _ _ _ _)) in H. apply in_seq in H. lia.
    + assert (j < length (chron f i (seq 0 n))) by (apply nth_error_Some; congruence). rewrite chron_len, seq_length in H0. exact H0.
Qed.

Lemma nth_error_combine : forall A B (l1 : list A) (l2 : list B) k,
  nth_error (combine l1 l2) k = match nth_error l1 k, nth_error l2 k with Some a, Some b => Some (a, b) | _, _ => None end.
Proof.
  induction l1 as [|a l1 IH]; intros l2 k; [destruct k; reflexivity|]. destruct l2 as [|b l2].
  - cbn [combine]. destruct k; [reflexivity|]. cbn [nth_error]. destruct (nth_error l1 k); reflexivity.
  - destruct k; [reflexivity|]. cbn [combine nth_error]. apply IH.
Qed.

Lemma list_ext : forall A (l l' : list A), (forall i, nth_error l i = nth_error l' i) -> l = l'.
Proof.
  induction l as [|x l IH]; intros [|y l'] H; auto; try (specialize (H 0); discriminate).
  pose proof (H 0) as H0. injection H0 as ->. f_equal. apply IH. intros i. apply (H (S i)).
Qed.

Lemma chron_push : forall A (n i : nat) (f : bool) (l : list A) y, 1 <= n -> i < n ->
  (if f then length l = n else length l = i) ->
  let l' := if f then setnth l i y else l ++ [y] in
  (if i + 1 =? n then chron true 0 l' else chron f (i + 1) l') = lastn n (chron f i l ++ [y]).
Proof.
  intros A n i f l y H1 H2 H3. cbv zeta. destruct f; unfold chron.
  - assert (E : skipn (i + 1) (setnth l i y) = skipn (S i) l).
    { rewrite setnth_split by lia. replace (i + 1) with (length (firstn i l) + 1) at 1 by (rewrite firstn_length; lia).
      rewrite skipn_app. rewrite skipn_all2 by lia. replace (length (firstn i l) + 1 - length (firstn i l)) with 1 by lia. reflexivity. }
    assert (E2 : firstn (i + 1) (setnth l i y) = firstn i l ++ [y]).
    { rewrite setnth_split by lia. replace (i + 1) with (length (firstn i l) + 1) at 1 by (rewrite firstn_length; lia). rewrite firstn_app_2. reflexivity. }
    assert (C : lastn n ((skipn i l ++ firstn i l) ++ [y]) = skipn (S i) l ++ firstn i l ++ [y]).
    { unfold lastn. rewrite (skipn_S_nth _ l i y) by lia.
      match goal with |- skipn ?k _ = _ => replace k with 1 by (rewrite !app_length; cbn [length]; rewrite skipn_length, firstn_length; lia) end.
      cbn [skipn app]. rewrite <- app_assoc. reflexivity. }
    rewrite C. destruct (i + 1 =? n) eqn:E3.
    + apply Nat.eqb_eq in E3. rewrite (skipn_all2 (n:=S i)) by lia. cbn [skipn firstn app]. rewrite app_nil_r, <- E2.
      rewrite firstn_all2; [reflexivity|]. rewrite Common.setnth_length. lia.
    + rewrite E, E2. reflexivity.
  - rewrite lastn_all by (rewrite app_length; cbn [length]; lia). destruct (i + 1 =? n); [|reflexivity]. cbn [skipn firstn]. rewrite app_nil_r. reflexivity.
Qed.

(** ** Rows with their priorities *)
Section Held.
Context {St Ac Ps : Type}.
Notation sample := (sample St Ac Ps).
Notation stree := (stree St Ac Ps).
Variable n : nat.
Hypothesis Hn : 2 <= n.
Implicit Types (t : stree).

(** The rows of the memory from the oldest to the newest, each with the priority of its leaf. *)
Definition held (t : stree) : list (sample * R) := chron (m_full (t_mem t)) (m_idx (t_mem t)) (combine (m_data (t_mem t)) (leaves t)).

Lemma leaves_eq : forall t, st_wf n t -> leaves t = map (leaf n (t_arr t)) (seq 0 n).
Proof.
  intros t (W1 & W2 & W3). change (map (leaf n (t_arr t)) (seq 0 n)) with (leaf_list n (t_arr t)).
  unfold leaves, lastn. rewrite leaf_list_skipn by (try apply W3; lia). rewrite W2. f_equal. destruct W3 as [-> _]. lia.
Qed.

Lemma nth_leaves : forall t k, st_wf n t -> nth_error (leaves t) k = if k <? n then Some (leaf n (t_arr t) k) else None.
Proof.
  intros t k W. rewrite (leaves_eq t W), nth_error_map. destruct (k <? n) eqn:E.
  - apply Nat.ltb_lt in E. rewrite (List.nth_error_nth' _ 0) by (rewrite seq_length; exact E). rewrite seq_nth by exact E. reflexivity.
  - apply Nat.ltb_ge in E. rewrite (proj2 (nth_error_None _ _)) by (rewrite seq_length; exact E). reflexivity.
Qed.

Lemma data_len : forall t, st_wf n t -> length (m_data (t_mem t)) = st_size t /\ st_size t <= n.
Proof.
  intros t ((A & B & C) & M & _). unfold st_size, size. destruct (m_full (t_mem t)); lia.
Qed.

Lemma nth_cells : forall t k, st_wf n t ->
  nth_error (combine (m_data (t_mem t)) (leaves t)) k = match nth_error (m_data (t_mem t)) k with Some x => Some (x, leaf n (t_arr t) k) | None => None end.
Proof.
  intros t k W. rewrite nth_error_combine, nth_leaves by exact W. destruct (nth_error (m_data (t_mem t)) k) as [x|] eqn:E; [|reflexivity].
  assert (k < length (m_data (t_mem t))) by (apply nth_error_Some; congruence). destruct (data_len t W). rewrite (proj2 (Nat.ltb_lt _ _)) by lia. reflexivity.
Qed.

Lemma cells_len : forall t, st_wf n t -> length (combine (m_data (t_mem t)) (leaves t)) = st_size t.
Proof.
  intros t W. destruct (data_len t W). rewrite combine_length, (leaves_eq t W), map_length, seq_length. lia.
Qed.

Lemma held_len : forall t, st_wf n t -> length (held t) = st_size t.
Proof. intros t W. unfold held. rewrite chron_len. apply cells_len, W. Qed.

Lemma held_store : forall t x p t', st_wf n t -> st_store t x p = Some t' -> held t' = lastn n (held t ++ [(x, p)]).
Proof.
  intros t x p t' W S. destruct (st_store_spec n t x p Hn W) as (m' & t1 & A & B & W' & EM & L). rewrite S in B. injection B as <-.
  pose proof W as ((A1 & A2 & A3) & M & H). subst m'.
  assert (LC := cells_len t W). unfold st_size, size in LC. rewrite M in *.
  unfold held at 2. rewrite <- (chron_push _ n (m_idx (t_mem t)) (m_full (t_mem t)) (combine (m_data (t_mem t)) (leaves t)) (x, p)) by (try lia; destruct (m_full (t_mem t)); lia).
  assert (CE : combine (m_data (t_mem t')) (leaves t') =
     if m_full (t_mem t) then setnth (combine (m_data (t_mem t)) (leaves t)) (m_idx (t_mem t)) (x, p) else combine (m_data (t_mem t)) (leaves t) ++ [(x, p)]).
  { apply list_ext. intros k. rewrite nth_cells by exact W'. unfold store in A. destruct (m_full (t_mem t)) eqn:F.
    - rewrite upd_Some in A by lia. cbn [obind] in A.
      assert (D : m_data (t_mem t') = setnth (m_data (t_mem t)) (m_idx (t_mem t)) x) by (destruct (m_idx (t_mem t) + 1 =? m_max (t_mem t)); injection A as <-; reflexivity).
      rewrite D, !nth_error_setnth, nth_cells by exact W. rewrite LC, A3, (proj2 (Nat.ltb_lt _ _)) by lia. rewrite !andb_true_r.
      destruct (k =? m_idx (t_mem t)) eqn:Q.
      + apply Nat.eqb_eq in Q. rewrite L, Q, Nat.eqb_refl by lia. reflexivity.
      + destruct (nth_error (m_data (t_mem t)) k) as [y|] eqn:EY; [|reflexivity]. rewrite L, Q; [reflexivity|].
        assert (k < length (m_data (t_mem t))) by (apply nth_error_Some; congruence). lia.
    - unfold ds_append in A. rewrite (proj2 (Nat.ltb_lt _ _)) in A by lia. cbn [obind] in A.
      assert (D : m_data (t_mem t') = m_data (t_mem t) ++ [x]) by (destruct (m_idx (t_mem t) + 1 =? m_max (t_mem t)); injection A as <-; reflexivity).
      rewrite D. destruct (Nat.lt_trichotomy k (m_idx (t_mem t))) as [Q|[Q|Q]].
      + rewrite !nth_error_app1 by lia. rewrite nth_cells by exact W. destruct (nth_error (m_data (t_mem t)) k); [|reflexivity].
        rewrite L, (proj2 (Nat.eqb_neq _ _)) by lia. reflexivity.
      + rewrite !nth_error_app2 by lia. rewrite LC, A3, Q, Nat.sub_diag. cbn [nth_error]. rewrite L, Nat.eqb_refl by lia. reflexivity.
      + rewrite !(proj2 (nth_error_None _ _)); [reflexivity| |]; rewrite app_length; cbn [length]; lia. }
  cbv zeta. rewrite <- CE. unfold held. unfold store in A.
  destruct (if m_full (t_mem t) then upd (m_data (t_mem t)) (m_idx (t_mem t)) x else ds_append (m_max (t_mem t)) (m_data (t_mem t)) x) as [d|]; [|discriminate].
  cbn [obind] in A. rewrite M in A. destruct (m_idx (t_mem t) + 1 =? n); injection A as A; rewrite <- A; reflexivity.
Qed.

(** Adding with one-step returns. *)
Lemma held_add_loop : forall fuel ds prio g i t, st_wf n t -> prio_inv n t -> length prio = length ds -> Forall (fun p => 0 < p)%R prio ->
  i <= length ds -> length ds - i < fuel ->
  exists t', st_add_loop fuel ds prio 1 g i (map s_reward ds) t = Some (t', map s_reward ds) /\ st_wf n t' /\ prio_inv n t' /\
    held t' = lastn n (held t ++ combine (skipn i ds) (skipn i prio)).
Proof.
  induction fuel as [|f IH]; intros ds prio g i t W PI LP FP LI LF; [lia|]. cbn [st_add_loop].
  destruct (i + 1 <? length ds + 1) eqn:E.
  - apply Nat.ltb_lt in E. cbn [Nat.sub inner obind]. unfold obind at 1.
    destruct (nth_error ds i) as [x|] eqn:EX; [|apply nth_error_None in EX; lia].
    destruct (nth_error prio i) as [p|] eqn:EP; [|apply nth_error_None in EP; lia].
    assert (MR : mk_row ds (map s_reward ds) i 0 = Some x).
    { unfold mk_row. rewrite Nat.add_0_r, nth_error_map, EX. cbn [obind option_map]. destruct x; reflexivity. }
    rewrite MR. cbn [obind].
    destruct (st_store_spec n t x p Hn W) as (m1 & t1 & A & B & W1 & _). rewrite B. cbn [obind].
    assert (P1 : prio_inv n t1). { apply (st_store_prio n t t1 x p Hn W PI); [|exact B]. rewrite Forall_forall in FP. apply FP. eapply nth_error_In; eauto. }
    destruct (IH ds prio g (i + 1) t1 W1 P1 LP FP ltac:(lia) ltac:(lia)) as (t' & C1 & C2 & C3 & C4).
    exists t'. split; [exact C1|]. split; [exact C2|]. split; [exact C3|]. rewrite C4, (held_store t x p t1 W B).
    rewrite (skipn_S_nth _ ds i x) by lia. rewrite (skipn_S_nth _ prio i p) by lia. cbn [combine].
    rewrite (nth_error_nth _ _ _ EX), (nth_error_nth _ _ _ EP), !Nat.add_1_r.
    replace (held t ++ (x, p) :: combine (skipn (S i) ds) (skipn (S i) prio)) with ((held t ++ [(x, p)]) ++ combine (skipn (S i) ds) (skipn (S i) prio)) by (rewrite <- app_assoc; reflexivity).
    apply lastn_app.
  - apply Nat.ltb_ge in E. exists t. rewrite (skipn_all2 ds) by lia. cbn [combine]. rewrite app_nil_r. split; [reflexivity|]. split; [exact W|]. split; [exact PI|].
    symmetry. apply lastn_all. rewrite (held_len t W). apply (data_len t W).
Qed.

Lemma held_add : forall ds p g t, st_wf n t -> prio_inv n t -> (0 < p)%R ->
  exists t' r, st_add t ds (repeat p (length ds)) 1 g = Some (t', r) /\ st_wf n t' /\ prio_inv n t' /\
    held t' = lastn n (held t ++ map (fun x => (x, p)) ds).
Proof.
  intros ds p g t W PI Hp.
  assert (FP : Forall (fun q => 0 < q)%R (repeat p (length ds))) by (apply Forall_forall; intros q Hq; apply repeat_spec in Hq; subst; exact Hp).
  destruct (held_add_loop (length ds + 2) ds (repeat p (length ds)) g 0 t W PI) as (t' & A & B & C & D); auto; try lia. { apply repeat_length. }
  exists t', (map s_reward ds). split.
  - unfold st_add. replace (forallb _ (repeat p (length ds))) with true.
    2:{ symmetry. apply forallb_forall. intros q Hq. apply repeat_spec in Hq. subst q. destruct (Rlt_dec 0 p); [reflexivity|lra]. }
    exact A.
  - split; [exact B|]. split; [exact C|]. rewrite D. cbn [skipn]. f_equal. f_equal. clear. induction ds as [|x ds IH]; [reflexivity|]. cbn [length repeat combine map]. rewrite IH. reflexivity.
Qed.

(** Totals and maxima over the rows. *)
Lemma held_prios : forall t, st_wf n t -> Permutation (map snd (held t)) (map (leaf n (t_arr t)) (seq 0 (st_size t))).
Proof.
  intros t W. unfold held. rewrite (Permutation_map snd (chron_perm _ _ _ _)).
  replace (map snd (combine (m_data (t_mem t)) (leaves t))) with (map (leaf n (t_arr t)) (seq 0 (st_size t))); [reflexivity|].
  apply list_ext. intros k. rewrite !nth_error_map, nth_cells by exact W. destruct (data_len t W) as [DL DN].
  destruct (Nat.lt_ge_cases k (st_size t)) as [Q|Q].
  - rewrite (List.nth_error_nth' _ 0) by (rewrite seq_length; exact Q). rewrite seq_nth by exact Q.
    destruct (nth_error (m_data (t_mem t)) k) eqn:E; [reflexivity|]. apply nth_error_None in E. lia.
  - rewrite !(proj2 (nth_error_None _ _)); [reflexivity| |]; [lia|rewrite seq_length; lia].
Qed.

Lemma held_total : forall t, st_wf n t -> prio_inv n t -> total_p t = rsum (map snd (held t)).
Proof.
  intros t W PI. rewrite (rsum_perm _ _ (held_prios t W)). destruct (data_len t W) as [_ SZ]. pose proof W as (W1 & W2 & W3).
  unfold total_p. rewrite (heap_total n (t_arr t)) by (try exact W3; lia). unfold leaf_list.
  replace n with (st_size t + (n - st_size t)) at 2 by lia. rewrite seq_app, map_app, rsum_app. cbn [Nat.add].
  assert (Z : forall m s, st_size t <= s -> s + m <= n -> rsum (map (leaf n (t_arr t)) (seq s m)) = 0%R).
  { induction m as [|m IH]; intros s L1 L2; [reflexivity|]. cbn [seq map]. unfold rsum in *. cbn [fold_right]. rewrite IH by lia.
    pose proof (PI s ltac:(lia)) as Q. rewrite (proj2 (Nat.ltb_ge _ _)) in Q by lia. rewrite Q. ring. }
  rewrite (Z (n - st_size t) (st_size t)) by lia. ring.
Qed.

Lemma held_positive : forall t, st_wf n t -> prio_inv n t -> Forall (fun p => 0 < p)%R (map snd (held t)).
Proof.
  intros t W PI. apply Forall_forall. intros p Hp. apply (Permutation_in _ (held_prios t W)) in Hp. apply in_map_iff in Hp as (k & <- & Hk). apply in_seq in Hk.
  destruct (data_len t W) as [_ SZ]. pose proof (PI k ltac:(lia)) as Q. rewrite (proj2 (Nat.ltb_lt _ _)) in Q by lia. exact Q.
Qed.

Lemma held_max : forall t, st_wf n t -> prio_inv n t -> 0 < st_size t -> In (max_p t) (map snd (held t)) /\ forall p, In p (map snd (held t)) -> (p <= max_p t)%R.
Proof.
  intros t W PI SZ. destruct (data_len t W) as [_ SN].
  assert (MX : In (max_p t) (leaves t) /\ forall p, In p (leaves t) -> (p <= max_p t)%R).
  { unfold max_p. destruct (leaves t) as [|x l] eqn:E; [|apply fold_Rmax_spec]. rewrite (leaves_eq t W) in E. destruct n; [lia|discriminate]. }
  destruct MX as [M1 M2]. rewrite (leaves_eq t W) in M1, M2.
  assert (IN : forall p, In p (map snd (held t)) -> (p <= max_p t)%R).
  { intros p Hp. apply M2. apply (Permutation_in _ (held_prios t W)) in Hp. apply in_map_iff in Hp as (k & <- & Hk). apply in_map. apply in_seq in Hk. apply in_seq. lia. }
  split; [|exact IN]. apply in_map_iff in M1 as (k & EK & Hk). apply in_seq in Hk.
  apply (Permutation_in _ (Permutation_sym (held_prios t W))). destruct (Nat.lt_ge_cases k (st_size t)) as [Q|Q].
  - rewrite <- EK. apply in_map. apply in_seq. lia.
  - exfalso. pose proof (PI k ltac:(lia)) as Z. rewrite (proj2 (Nat.ltb_ge _ _)) in Z by lia.
    pose proof (PI 0 ltac:(lia)) as Z0. rewrite (proj2 (Nat.ltb_lt _ _)) in Z0 by lia.
    assert (leaf n (t_arr t) 0 <= max_p t)%R by (apply M2, in_map, in_seq; lia). lra.
Qed.

(** Updating leaves with priorities that depend on the leaf only. *)
Lemma update_values : forall (V : nat -> R -> Prop), (forall i p p', V i p -> V i p' -> p = p') -> forall idx ps (t t' : list R),
  heap_ok n t -> Forall2 V idx ps -> Forall (fun i => n - 1 <= i < 2 * n - 1) idx -> update t idx ps = Some t' ->
  forall j, In j idx -> V j (at_ t' j).
Proof.
  intros V VF idx ps t t' HO F2. revert t HO. induction F2 as [|i p it pt HV F2 IH]; intros t HO FR U j Hj; [destruct Hj|].
  inversion FR as [|? ? R1 R2]; subst. cbn [update] in U. destruct (update1_spec n t i p Hn HO R1) as (t1 & A & B & C). rewrite A in U. cbn [obind] in U.
  destruct (in_dec Nat.eq_dec j it) as [I|I]; [apply (IH t1 B R2 U j I)|]. destruct Hj as [->|Hj]; [|contradiction].
  destruct (update_spec n Hn it pt t1 B) as (t2 & A2 & _ & C2); [clear -F2; induction F2; cbn; auto|exact R2|].
  rewrite U in A2. injection A2 as <-. rewrite C2 by (auto; lia). rewrite C, Nat.eqb_refl by lia. exact HV.
Qed.
End Held.

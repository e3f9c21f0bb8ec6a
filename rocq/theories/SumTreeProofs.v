(** Lemmas on the sum tree. *)
From Coq Require Import List Arith Lia Reals Bool Lra Permutation.
From Verif Require Import Common ReplayModel ReplaySpec ReplayProofs SumTreeModel SumTreeSpec.
Import ListNotations.

Lemma at_setnth_same : forall t i x, i < length t -> at_ (setnth t i x) i = x.
Proof. unfold at_. induction t; destruct i; simpl; intros; try lia; auto. apply IHt; lia. Qed.

Lemma at_setnth_other : forall t i j x, i <> j -> at_ (setnth t i x) j = at_ t j.
Proof. unfold at_. induction t; destruct i, j; simpl; intros; try lia; auto. Qed.

Lemma len_setnth : forall A (l : list A) i x, length (setnth l i x) = length l.
Proof. induction l; destruct i; simpl; auto. Qed.

(** [defect t i]: what is missing at node i. *)
Definition defect (t : list R) (i : nat) : R := (at_ t (2 * i + 1) + at_ t (2 * i + 2) - at_ t i)%R.

Lemma half_parent : forall k, k / 2 = (S k - 1) / 2.
Proof. intros. f_equal. lia. Qed.

Lemma parent_child : forall k i, (S k = 2 * i + 1 \/ S k = 2 * i + 2) <-> k / 2 = i.
Proof.
  intros. split.
  - intros [H|H].
    + replace k with (i * 2) by lia. apply Nat.div_mul. lia.
    + replace k with (1 + i * 2) by lia. rewrite Nat.div_add by lia. reflexivity.
  - intros <-. pose proof (Nat.div_mod k 2 ltac:(lia)). pose proof (Nat.mod_upper_bound k 2 ltac:(lia)). lia.
Qed.

(** Changing one node. *)
Lemma defect_setnth : forall t j x i, j < length t -> 
  defect (setnth t j x) i =
  (defect t i + (if (j =? 2 * i + 1) || (j =? 2 * i + 2) then x - at_ t j else 0)
   - (if j =? i then x - at_ t j else 0))%R.
Proof.
  intros t j x i H. unfold defect.
  assert (A : forall k, at_ (setnth t j x) k = (at_ t k + if j =? k then x - at_ t j else 0)%R).
  { intros k. destruct (j =? k) eqn:E.
    - apply Nat.eqb_eq in E. subst. rewrite at_setnth_same by auto. lra.
    - apply Nat.eqb_neq in E. rewrite at_setnth_other by auto. lra. }
  rewrite !A. destruct (j =? 2 * i + 1) eqn:E1; destruct (j =? 2 * i + 2) eqn:E2; simpl; try lra.
  apply Nat.eqb_eq in E1. apply Nat.eqb_eq in E2. lia.
Qed.

Lemma propagate_spec : forall fuel n t delta idx,
  length t = 2 * n - 1 -> 1 <= idx < 2 * n - 1 -> idx <= fuel ->
  (forall i, i < n - 1 -> defect t i = if (idx - 1) / 2 =? i then delta else 0%R) ->
  exists t', propagate fuel t delta idx = Some t' /\ length t' = length t /\
    (forall i, i < n - 1 -> defect t' i = 0%R) /\
    (forall i, n - 1 <= i -> at_ t' i = at_ t i).
Proof.
  induction fuel as [|f IH]; intros n t delta idx HL HI HF HD; [lia|].
  destruct idx as [|k]; [lia|]. cbn [propagate]. replace (S k - 1) with k in HD by lia.
  set (p := k / 2) in *.
  assert (Hp : p < n - 1 /\ p <= k).
  { unfold p. pose proof (Nat.div_mod k 2 ltac:(lia)). pose proof (Nat.mod_upper_bound k 2 ltac:(lia)). lia. }
  rewrite upd_Some by lia. unfold obind. set (t1 := setnth t p (at_ t p + delta)%R).
  assert (L1 : length t1 = length t) by apply len_setnth.
  assert (D1 : forall i, i < n - 1 -> defect t1 i = if (p =? 2 * i + 1) || (p =? 2 * i + 2) then delta else 0%R).
  { intros i Hi. unfold t1. rewrite defect_setnth by lia. rewrite HD by auto.
    destruct (p =? i) eqn:Ei; destruct ((p =? 2 * i + 1) || (p =? 2 * i + 2)) eqn:E; lra. }
  assert (O1 : forall i, n - 1 <= i -> at_ t1 i = at_ t i).
  { intros i Hi. unfold t1. apply at_setnth_other. lia. }
  destruct (p =? 0) eqn:E0.
  - apply Nat.eqb_eq in E0. exists t1. split; [reflexivity|]. split; auto. split; auto.
    intros i Hi. rewrite D1 by auto. rewrite E0. destruct (0 =? 2 * i + 1) eqn:A; [apply Nat.eqb_eq in A; lia|].
    destruct (0 =? 2 * i + 2) eqn:B; [apply Nat.eqb_eq in B; lia|]. reflexivity.
  - apply Nat.eqb_neq in E0. destruct (IH n t1 delta p) as (t' & A & B & C & D); try lia.
    + intros i Hi. rewrite D1 by auto. destruct p as [|p']; [lia|].
      replace (S p' - 1) with p' by lia. destruct (p' / 2 =? i) eqn:E.
      * apply Nat.eqb_eq in E. apply parent_child in E. destruct E as [E|E].
        -- rewrite (proj2 (Nat.eqb_eq _ _) E). reflexivity.
        -- rewrite (proj2 (Nat.eqb_eq _ _) E). rewrite orb_true_r. reflexivity.
      * apply Nat.eqb_neq in E. destruct ((S p' =? 2 * i + 1) || (S p' =? 2 * i + 2)) eqn:Q; auto.
        exfalso. apply E. apply parent_child. apply orb_true_iff in Q.
        destruct Q as [Q|Q]; apply Nat.eqb_eq in Q; auto.
    + exists t'. split; auto. split; [lia|]. split; auto. intros i Hi. rewrite D by auto. apply O1; auto.
Qed.

Lemma heap_defect : forall n t, length t = 2 * n - 1 ->
  (heap_ok n t <-> forall i, i < n - 1 -> defect t i = 0%R).
Proof.
  intros n t HL. unfold heap_ok, defect. split.
  - intros [_ H] i Hi. rewrite (H i Hi). lra.
  - intros H. split; auto. intros i Hi. specialize (H i Hi). lra.
Qed.

Lemma update1_spec : forall n t i p, 2 <= n -> heap_ok n t -> n - 1 <= i < 2 * n - 1 ->
  exists t', update1 t i p = Some t' /\ heap_ok n t' /\
    forall j, n - 1 <= j -> at_ t' j = if j =? i then p else at_ t j.
Proof.
  intros n t i p Hn H Hi. pose proof H as [HL _]. unfold update1.
  rewrite (nth_error_nth' _ t _ 0%R) by lia. unfold obind. rewrite upd_Some by lia.
  destruct (propagate_spec (length t) n (setnth t i p) (p - nth i t 0%R)%R i) as (t' & A & B & C & D).
  - rewrite len_setnth; auto.
  - lia.
  - lia.
  - intros k Hk. rewrite defect_setnth by lia. rewrite (proj1 (heap_defect n t HL) H k Hk).
    replace (i =? k) with false by (symmetry; apply Nat.eqb_neq; lia).
    destruct i as [|i']; [lia|]. replace (S i' - 1) with i' by lia.
    destruct (i' / 2 =? k) eqn:E.
    + apply Nat.eqb_eq in E. apply parent_child in E. unfold at_. destruct E as [E|E]; rewrite (proj2 (Nat.eqb_eq _ _) E).
      * simpl. lra.
      * rewrite orb_true_r. lra.
    + apply Nat.eqb_neq in E. destruct ((S i' =? 2 * k + 1) || (S i' =? 2 * k + 2)) eqn:Q; [|lra].
      exfalso. apply E. apply parent_child. apply orb_true_iff in Q. destruct Q as [Q|Q]; apply Nat.eqb_eq in Q; auto.
  - exists t'. split; auto. rewrite len_setnth in B. split.
    + apply heap_defect; auto. lia.
    + intros j Hj. rewrite D by auto. destruct (j =? i) eqn:E.
      * apply Nat.eqb_eq in E. subst. apply at_setnth_same. lia.
      * apply Nat.eqb_neq in E. apply at_setnth_other. auto.
Qed.

(** The leaves, as a list. *)
Definition leaf_list (n : nat) (t : list R) : list R := map (leaf n t) (seq 0 n).

Lemma leaf_list_skipn : forall n t, 1 <= n -> length t = 2 * n - 1 -> leaf_list n t = skipn (n - 1) t.
Proof.
  intros n t Hn HL. apply (nth_ext _ _ 0%R 0%R).
  - unfold leaf_list. rewrite map_length, seq_length, skipn_length. lia.
  - intros k Hk. unfold leaf_list in *. rewrite map_length, seq_length in Hk.
    rewrite (nth_indep _ 0%R (leaf n t 0)) by (rewrite map_length, seq_length; lia).
    rewrite map_nth, seq_nth by lia. rewrite nth_skipn. reflexivity.
Qed.

(** total = sum of the leaves, by counting every node once. *)
Lemma sum_all_nodes : forall t, rsum (map (at_ t) (seq 0 (length t))) = rsum t.
Proof.
  intros t. f_equal. apply (nth_ext _ _ 0%R 0%R).
  - rewrite map_length, seq_length. reflexivity.
  - intros k Hk. rewrite map_length, seq_length in Hk.
    rewrite (nth_indep _ 0%R (at_ t 0)) by (rewrite map_length, seq_length; lia).
    rewrite map_nth, seq_nth by lia. reflexivity.
Qed.

Lemma sum_children : forall (f : nat -> R) m,
  rsum (map (fun i => (f (2 * i + 1)%nat + f (2 * i + 2)%nat)%R) (seq 0 m)) = rsum (map f (seq 1 (2 * m))).
Proof.
  intros f. induction m as [|m IH]; [reflexivity|].
  rewrite seq_S, map_app, rsum_app, IH.
  replace (2 * S m) with (2 * m + 2) by lia. rewrite seq_app, map_app, rsum_app. f_equal. simpl.
  replace (m + (m + 0) + 1) with (S (m + (m + 0))) by lia.
  replace (m + (m + 0) + 2) with (S (S (m + (m + 0)))) by lia. lra.
Qed.

Lemma heap_total : forall n t, 1 <= n -> heap_ok n t -> at_ t 0 = rsum (leaf_list n t).
Proof.
  intros n t Hn [HL H].
  assert (A : rsum (map (at_ t) (seq 0 (n - 1))) = rsum (map (at_ t) (seq 1 (2 * (n - 1))))).
  { rewrite <- sum_children. apply rsum_map_ext. intros i Hi. apply in_seq in Hi. apply H. lia. }
  assert (B : rsum (map (at_ t) (seq 0 (2 * n - 1))) =
              (at_ t 0 + rsum (map (at_ t) (seq 1 (2 * (n - 1)))))%R).
  { replace (2 * n - 1) with (S (2 * (n - 1))) by lia. reflexivity. }
  assert (C : rsum (map (at_ t) (seq 0 (2 * n - 1))) =
              (rsum (map (at_ t) (seq 0 (n - 1))) + rsum (leaf_list n t))%R).
  { replace (2 * n - 1) with ((n - 1) + n) by lia. rewrite seq_app, map_app, rsum_app. f_equal.
    unfold leaf_list, leaf. simpl. f_equal.
    replace (seq (n - 1) n) with (map (fun k => n - 1 + k) (seq 0 n)).
    - rewrite map_map. reflexivity.
    - clear. generalize (n - 1) as a. intros a. 
      transitivity (seq (a + 0) n); [|f_equal; lia]. generalize 0 as b. induction n; intros b; simpl; auto.
      f_equal. rewrite IHn. f_equal. lia. }
  lra.
Qed.

(** ** order of leaves *)
Lemma lu_fuel : forall n f g i, 2 * n - 1 <= f + i -> 2 * n - 1 <= g + i -> i < 2 * n - 1 ->
  leaves_under f n i = leaves_under g n i.
Proof.
  intros n. induction f as [|f IH]; intros g i Hf Hg Hi; [lia|]. destruct g as [|g]; [lia|].
  cbn [leaves_under]. destruct (i <? n - 1) eqn:E; auto. apply Nat.ltb_lt in E.
  f_equal; apply IH; lia.
Qed.

Lemma lu_sum : forall n t, heap_ok n t -> forall f i, 2 * n - 1 <= f + i -> i < 2 * n - 1 ->
  rsum (map (at_ t) (leaves_under f n i)) = at_ t i.
Proof.
  intros n t [HL H]. induction f as [|f IH]; intros i Hf Hi; [lia|]. cbn [leaves_under].
  destruct (i <? n - 1) eqn:E.
  - apply Nat.ltb_lt in E. rewrite map_app, rsum_app, !IH by lia. symmetry. apply H. auto.
  - simpl. lra.
Qed.

Lemma lu_range : forall n f i, i < 2 * n - 1 -> Forall (fun j => n - 1 <= j < 2 * n - 1) (leaves_under f n i).
Proof.
  intros n. induction f as [|f IH]; intros i Hi; [constructor|]. cbn [leaves_under].
  destruct (i <? n - 1) eqn:E.
  - apply Nat.ltb_lt in E. apply Forall_app. split; apply IH; lia.
  - apply Nat.ltb_ge in E. constructor; [lia|constructor].
Qed.

(** A counting tree: every leaf weighs one. *)
Definition count_node (n i : nat) : R := INR (length (leaves_under (2 * n) n i)).
Definition count_tree (n : nat) : list R := map (count_node n) (seq 0 (2 * n - 1)).

Lemma at_count : forall n i, i < 2 * n - 1 -> at_ (count_tree n) i = count_node n i.
Proof.
  intros. unfold at_, count_tree. rewrite (nth_indep _ 0%R (count_node n 0)) by (rewrite map_length, seq_length; lia).
  rewrite map_nth, seq_nth by lia. reflexivity.
Qed.

Lemma count_heap : forall n, heap_ok n (count_tree n).
Proof.
  intros n. split; [unfold count_tree; rewrite map_length, seq_length; reflexivity|].
  intros i Hi. rewrite !at_count by lia. unfold count_node.
  rewrite (lu_fuel n (2 * n) (S (2 * n)) i) by lia. cbn [leaves_under].
  rewrite (proj2 (Nat.ltb_lt _ _)) by lia. rewrite app_length, plus_INR. reflexivity.
Qed.

Lemma order_length : forall n, 1 <= n -> length (leaf_order n) = n.
Proof.
  intros n Hn. apply INR_eq. change (INR (length (leaf_order n))) with (count_node n 0).
  rewrite <- at_count by lia. rewrite (heap_total n _ Hn (count_heap n)).
  unfold leaf_list. rewrite (rsum_map_ext _ (leaf n (count_tree n)) (fun _ => 1%R)).
  - rewrite rsum_map_const, seq_length. lra.
  - intros k Hk. apply in_seq in Hk. unfold leaf. rewrite at_count by lia. unfold count_node.
    destruct (2 * n) as [|m] eqn:E; [lia|]. cbn [leaves_under]. rewrite (proj2 (Nat.ltb_ge _ _)) by lia. reflexivity.
Qed.

Lemma lu_parent : forall n k j, S k < 2 * n - 1 ->
  In j (leaves_under (2 * n) n (S k)) -> In j (leaves_under (2 * n) n (k / 2)).
Proof.
  intros n k j Hk H.
  assert (Hp : k / 2 < n - 1).
  { pose proof (Nat.div_mod k 2 ltac:(lia)). pose proof (Nat.mod_upper_bound k 2 ltac:(lia)). lia. }
  rewrite (lu_fuel n (2 * n) (S (2 * n)) (k / 2)) by lia. cbn [leaves_under].
  rewrite (proj2 (Nat.ltb_lt _ _)) by lia. apply in_app_iff.
  destruct (proj2 (parent_child k (k / 2)) eq_refl) as [E|E]; rewrite <- E; auto.
Qed.

Lemma lu_root : forall n i j, i < 2 * n - 1 -> In j (leaves_under (2 * n) n i) -> In j (leaf_order n).
Proof.
  intros n. induction i as [i IH] using lt_wf_ind. intros j Hi H. destruct i as [|k]; auto.
  assert (Q : k / 2 <= k) by (apply Nat.div_le_upper_bound; lia).
  apply (IH (k / 2)); try lia. apply lu_parent; auto.
Qed.

Lemma order_perm : forall n, 1 <= n -> Permutation (leaf_order n) (seq (n - 1) n).
Proof.
  intros n Hn. symmetry. apply NoDup_Permutation_bis.
  - apply seq_NoDup.
  - rewrite order_length, seq_length; auto.
  - intros j Hj. apply in_seq in Hj. apply (lu_root n j j); [lia|].
    destruct (2 * n) as [|m] eqn:E; [lia|]. cbn [leaves_under]. rewrite (proj2 (Nat.ltb_ge _ _)) by lia. simpl; auto.
Qed.

(** ** retrieval *)
Lemma retrieve_leaf : forall n t choice, length t = 2 * n - 1 -> forall f s i,
  2 * n - 1 <= f + i -> i < 2 * n - 1 ->
  exists j, retrieve f t choice s i = Some j /\ In j (leaves_under f n i).
Proof.
  intros n t choice HL. induction f as [|f IH]; intros s i Hf Hi; [lia|].
  cbn [retrieve leaves_under]. rewrite HL. destruct (i <? n - 1) eqn:E.
  - apply Nat.ltb_lt in E. rewrite (proj2 (Nat.leb_gt _ _)) by lia.
    replace (2 * i + 1 + 1) with (2 * i + 2) by lia.
    destruct (Req_EM_T _ _).
    + destruct (choice i).
      * destruct (IH s (2 * i + 1)) as (j & A & B); try lia. exists j. split; auto. apply in_app_iff; auto.
      * destruct (IH s (2 * i + 2)) as (j & A & B); try lia. exists j. split; auto. apply in_app_iff; auto.
    + destruct (Rle_dec _ _).
      * destruct (IH s (2 * i + 1)) as (j & A & B); try lia. exists j. split; auto. apply in_app_iff; auto.
      * destruct (IH (s - at_ t (2 * i + 1))%R (2 * i + 2)) as (j & A & B); try lia. exists j. split; auto. apply in_app_iff; auto.
  - apply Nat.ltb_ge in E. rewrite (proj2 (Nat.leb_le _ _)) by lia. exists i. simpl; auto.
Qed.

Lemma retrieve_mass : forall n t choice, heap_ok n t -> no_ties n t -> forall f s i,
  2 * n - 1 <= f + i -> i < 2 * n - 1 -> (0 < s <= at_ t i)%R ->
  exists j pre post, retrieve f t choice s i = Some j /\ leaves_under f n i = pre ++ j :: post /\
    (rsum (map (at_ t) pre) < s <= rsum (map (at_ t) pre) + at_ t j)%R.
Proof.
  intros n t choice H NT. pose proof H as [HL HH]. induction f as [|f IH]; intros s i Hf Hi Hs; [lia|].
  cbn [retrieve leaves_under]. rewrite HL. destruct (i <? n - 1) eqn:E.
  - apply Nat.ltb_lt in E. rewrite (proj2 (Nat.leb_gt _ _)) by lia.
    replace (2 * i + 1 + 1) with (2 * i + 2) by lia.
    destruct (Req_EM_T _ _) as [Q|Q]; [exfalso; apply (NT i E Q)|].
    rewrite (HH i E) in Hs. destruct (Rle_dec _ _) as [L|L].
    + destruct (IH s (2 * i + 1)) as (j & pre & post & A & B & C); try lia; try lra.
      exists j, pre, (post ++ leaves_under f n (2 * i + 2)). split; auto. split; auto.
      rewrite B, <- app_assoc. reflexivity.
    + destruct (IH (s - at_ t (2 * i + 1))%R (2 * i + 2)) as (j & pre & post & A & B & C); try lia; try lra.
      exists j, (leaves_under f n (2 * i + 1) ++ pre), post. split; auto. split.
      * rewrite B, <- app_assoc. reflexivity.
      * rewrite map_app, rsum_app, (lu_sum n t H) by lia. lra.
  - apply Nat.ltb_ge in E. rewrite (proj2 (Nat.leb_le _ _)) by lia. exists i, [], []. simpl. repeat split; auto; lra.
Qed.

Lemma retrieve_toss : forall n t choice, heap_ok n t -> leaf_ties n t -> forall f s i,
  2 * n - 1 <= f + i -> i < 2 * n - 1 -> (0 < s <= at_ t i)%R ->
  (i = 0 -> 2 <= n) -> (0 < i -> at_ t (2 * ((i - 1) / 2) + 1) <> at_ t (2 * ((i - 1) / 2) + 2)) ->
  exists j pre post, retrieve f t choice s i = Some (toss t choice j) /\ leaves_under f n i = pre ++ j :: post /\
    (rsum (map (at_ t) pre) < s <= rsum (map (at_ t) pre) + at_ t j)%R /\ at_ t (toss t choice j) = at_ t j.
Proof.
  intros n t choice H NT. pose proof H as [HL HH]. induction f as [|f IH]; intros s i Hf Hi Hs I0 IP; [lia|].
  cbn [retrieve leaves_under]. rewrite HL. destruct (i <? n - 1) eqn:E.
  - apply Nat.ltb_lt in E. rewrite (proj2 (Nat.leb_gt _ _)) by lia.
    replace (2 * i + 1 + 1) with (2 * i + 2) by lia.
    assert (P1 : (2 * i + 1 - 1) / 2 = i) by (replace (2 * i + 1 - 1) with (i * 2) by lia; apply Nat.div_mul; lia).
    assert (P2 : (2 * i + 2 - 1) / 2 = i) by (replace (2 * i + 2 - 1) with (1 + i * 2) by lia; rewrite Nat.div_add by lia; reflexivity).
    rewrite (HH i E) in Hs. destruct (Req_EM_T (at_ t (2 * i + 1)) (at_ t (2 * i + 2))) as [Q|Q].
    + pose proof (NT i E Q) as LF. destruct f as [|f]; [lia|]. cbn [leaves_under].
      rewrite (proj2 (Nat.ltb_ge (2 * i + 1) (n - 1)) LF), (proj2 (Nat.ltb_ge (2 * i + 2) (n - 1))) by lia.
      assert (RT : retrieve (S f) t choice s (if choice i then 2 * i + 1 else 2 * i + 2) = Some (if choice i then 2 * i + 1 else 2 * i + 2)).
      { cbn [retrieve]. rewrite HL. rewrite (proj2 (Nat.leb_le _ _)) by (destruct (choice i); lia). reflexivity. }
      rewrite RT. destruct (Rle_dec s (at_ t (2 * i + 1))) as [L|L].
      * exists (2 * i + 1), [], [2 * i + 2]. unfold toss. rewrite P1. destruct (Req_EM_T (at_ t (2 * i + 1)) (at_ t (2 * i + 2))); [|contradiction].
        cbn [map rsum app]. destruct (choice i); repeat split; auto; lra.
      * exists (2 * i + 2), [2 * i + 1], []. unfold toss. rewrite P2. destruct (Req_EM_T (at_ t (2 * i + 1)) (at_ t (2 * i + 2))); [|contradiction].
        cbn [map rsum app]. destruct (choice i); repeat split; auto; lra.
    + destruct (Rle_dec s (at_ t (2 * i + 1))) as [L|L].
      * destruct (IH s (2 * i + 1)) as (j & pre & post & A & B & C & D); try lia; try lra; [rewrite P1; auto|].
        exists j, pre, (post ++ leaves_under f n (2 * i + 2)). split; auto. split; auto.
        rewrite B, <- app_assoc. reflexivity.
      * destruct (IH (s - at_ t (2 * i + 1))%R (2 * i + 2)) as (j & pre & post & A & B & C & D); try lia; try lra; [rewrite P2; auto|].
        exists j, (leaves_under f n (2 * i + 1) ++ pre), post. split; auto. split; [|split; auto].
        -- rewrite B, <- app_assoc. reflexivity.
        -- rewrite map_app, rsum_app, (lu_sum n t H) by lia. lra.
  - apply Nat.ltb_ge in E. rewrite (proj2 (Nat.leb_le _ _)) by lia. exists i, [], []. unfold toss.
    destruct (Req_EM_T (at_ t (2 * ((i - 1) / 2) + 1)) (at_ t (2 * ((i - 1) / 2) + 2))) as [Q|Q].
    + destruct i as [|i]; [lia|]. exfalso. apply IP; [lia|exact Q].
    + simpl. repeat split; auto; lra.
Qed.

(** ** histories *)
Section H.
Context {St Ac Ps : Type}.
Notation sample := (sample St Ac Ps).
Notation stree := (stree St Ac Ps).

Definition st_wf (n : nat) (t : stree) : Prop :=
  wf _ _ _ (t_mem t) /\ m_max (t_mem t) = n /\ heap_ok n (t_arr t).

Lemma st_init_wf : forall n, 1 <= n -> st_wf n (st_init n).
Proof.
  intros n H. split; [apply wf_init; auto|]. split; [reflexivity|]. split; [apply repeat_length|].
  assert (Z : forall m k, at_ (repeat 0%R m) k = 0%R).
  { unfold at_. induction m; destruct k; simpl; auto. }
  intros i Hi. simpl t_arr. rewrite !Z. lra.
Qed.

Lemma wf_idx : forall m : memory St Ac Ps, wf _ _ _ m -> m_idx m < m_max m.
Proof. intros m (A & B & C). destruct (m_full m); lia. Qed.

Lemma st_store_spec : forall n t x p, 2 <= n -> st_wf n t ->
  exists m' t', store (t_mem t) x = Some m' /\ st_store t x p = Some t' /\ st_wf n t' /\ t_mem t' = m' /\
    (forall k, k < n -> leaf n (t_arr t') k = if k =? m_idx (t_mem t) then p else leaf n (t_arr t) k).
Proof.
  intros n t x p Hn (W & M & H). unfold st_store.
  destruct (store_spec _ _ _ (t_mem t) x W) as (m' & A & W' & M' & _). rewrite A. unfold obind.
  pose proof (wf_idx _ W) as HI. cbn [update]. 
  destruct (update1_spec n (t_arr t) (m_idx (t_mem t) + m_max (t_mem t) - 1) p Hn H ltac:(lia)) as (a & E & H' & V).
  rewrite E. unfold obind. exists m', (mkST m' a). split; auto. split; auto. split.
  - split; [exact W'|]. split; auto. simpl. congruence.
  - split; auto. intros k Hk. unfold leaf. simpl t_arr. rewrite V by lia.
    destruct (k =? m_idx (t_mem t)) eqn:Q.
    + apply Nat.eqb_eq in Q. rewrite (proj2 (Nat.eqb_eq _ _)) by lia. reflexivity.
    + apply Nat.eqb_neq in Q. rewrite (proj2 (Nat.eqb_neq _ _)) by lia. reflexivity.
Qed.

Lemma update_spec : forall n, 2 <= n -> forall idx ps t, heap_ok n t -> length idx = length ps ->
  Forall (fun i => n - 1 <= i < 2 * n - 1) idx ->
  exists t', update t idx ps = Some t' /\ heap_ok n t' /\
    forall j, n - 1 <= j -> ~ In j idx -> at_ t' j = at_ t j.
Proof.
  intros n Hn. induction idx as [|i it IH]; intros ps t H HL F; destruct ps as [|p pt]; simpl in HL; try lia.
  - exists t. simpl. auto.
  - inversion F; subst. cbn [update]. destruct (update1_spec n t i p Hn H H2) as (t1 & A & B & C).
    rewrite A. unfold obind. destruct (IH pt t1 B ltac:(lia) H3) as (t2 & D & E & G).
    exists t2. split; auto. split; auto. intros j Hj Hin. rewrite G by (auto; intros Q; apply Hin; right; auto).
    rewrite C by auto. destruct (j =? i) eqn:Q; auto. apply Nat.eqb_eq in Q. subst. exfalso. apply Hin. left; auto.
Qed.

(** Adding to the tree stores the same rows as a plain replay memory. *)
Lemma st_add_loop_refines : forall n, 2 <= n -> forall fuel ds prio k g i rew t m' rew',
  st_wf n t -> length prio = length ds ->
  add_loop fuel ds k g i rew (t_mem t) = Some (m', rew') ->
  exists t', st_add_loop fuel ds prio k g i rew t = Some (t', rew') /\ t_mem t' = m' /\ st_wf n t'.
Proof.
  intros n Hn. induction fuel as [|f IH]; intros ds prio k g i rew t m' rew' W LP H; [discriminate|].
  cbn [add_loop st_add_loop] in *. destruct (i + k <? length ds + 1) eqn:E.
  - unfold obind at 1 in H. unfold obind at 1. destruct (inner (map s_last ds) g i 0 (k - 1) rew) as [[r1 [i'|]]|]; [|  |discriminate].
    + eapply IH; eauto.
    + destruct (mk_row ds r1 i (k - 1)) as [x|] eqn:MR; [|discriminate]. cbn [obind] in *.
      assert (Hi : i < length ds).
      { unfold mk_row in MR. destruct (nth_error ds i) eqn:Q; [|discriminate]. apply nth_error_Some. congruence. }
      rewrite (nth_error_nth' _ prio _ 0%R) by lia. cbn [obind].
      destruct (st_store_spec n t x (nth i prio 0%R) Hn W) as (m1 & t1 & A & B & C & D & _).
      rewrite A in H. rewrite B. cbn [obind] in *. subst m1. eapply IH; eauto.
  - inversion H; subst. eauto.
Qed.

Lemma st_add_refines : forall n t ds prio k g, 2 <= n -> st_wf n t -> 1 <= k ->
  length prio = length ds -> Forall (fun p => 0 < p)%R prio ->
  exists t' m' rew', st_add t ds prio k g = Some (t', rew') /\ add (t_mem t) ds k g = Some (m', rew') /\
    t_mem t' = m' /\ st_wf n t'.
Proof.
  intros n t ds prio k g Hn W Hk LP FP. destruct (add_spec _ _ _ (t_mem t) ds k g (proj1 W) Hk) as (m' & rew' & A & _).
  unfold st_add. replace (forallb _ prio) with true.
  2:{ symmetry. apply forallb_forall. intros p Hp. rewrite Forall_forall in FP. specialize (FP p Hp).
      destruct (Rlt_dec 0 p); auto; lra. }
  pose proof A as A0. unfold add in A. rewrite (proj2 (Nat.ltb_lt 0 k)) in * by lia.
  destruct (st_add_loop_refines n Hn _ _ prio _ _ _ _ t _ _ W LP A) as (t' & B & C & D).
  exists t', m', rew'. repeat split; auto; apply D.
Qed.

Lemma st_run_wf : forall n ops t, 2 <= n -> st_wf n t -> Forall (op_ok n) ops ->
  exists t', st_run t ops = Some t' /\ st_wf n t'.
Proof.
  intros n. induction ops as [|o ops IH]; intros t Hn W F; [simpl; eauto|]. inversion F; subst.
  destruct o as [ds prio k g|idx ps]; cbn [st_run op_ok] in *.
  - destruct H1 as (A & B & C). destruct (st_add_refines n t ds prio k g Hn W A B C) as (t' & m' & r' & D & _ & _ & E).
    rewrite D. cbn [obind fst]. apply IH; auto.
  - destruct H1 as (A & B). destruct W as (W1 & W2 & W3).
    destruct (update_spec n Hn idx ps _ W3 A B) as (a & D & E & _). rewrite D. cbn [obind].
    apply IH; auto. split; auto.
Qed.

(** positive leaves exactly at the stored rows *)
Definition prio_inv (n : nat) (t : stree) : Prop :=
  forall k, k < n -> (if k <? st_size t then 0 < leaf n (t_arr t) k else leaf n (t_arr t) k = 0)%R.

Lemma store_size : forall (m m' : memory St Ac Ps) x, wf _ _ _ m -> store m x = Some m' ->
  size m' = if m_full m then m_max m else m_idx m + 1.
Proof.
  intros m m' x (A & B & C) H. unfold store in H.
  destruct (if m_full m then upd (m_data m) (m_idx m) x else ds_append (m_max m) (m_data m) x) as [d|] eqn:E;
    [|discriminate]. cbn [obind] in H.
  destruct (m_idx m + 1 =? m_max m) eqn:Q; inversion H; subst; unfold size; simpl.
  - apply Nat.eqb_eq in Q. destruct (m_full m); auto.
  - destruct (m_full m); auto.
Qed.

Lemma st_store_prio : forall n t t' x p, 2 <= n -> st_wf n t -> prio_inv n t -> (0 < p)%R ->
  st_store t x p = Some t' -> prio_inv n t'.
Proof.
  intros n t t' x p Hn W PI Hp H. destruct (st_store_spec n t x p Hn W) as (m1 & t1 & A & B & C & D & E).
  rewrite B in H. inversion H; subst t1. intros k Hk. rewrite E by auto. 
  destruct W as (W1 & W2 & W3). unfold st_size. rewrite D, (store_size _ _ _ W1 A).
  pose proof (wf_idx _ W1). specialize (PI k Hk). unfold st_size, size in PI.
  destruct (m_full (t_mem t)).
  - rewrite W2 in *. rewrite (proj2 (Nat.ltb_lt k n)) in * by auto. destruct (k =? m_idx (t_mem t)); auto.
  - destruct (k =? m_idx (t_mem t)) eqn:Q.
    + apply Nat.eqb_eq in Q. rewrite (proj2 (Nat.ltb_lt _ _)) by lia. auto.
    + apply Nat.eqb_neq in Q. destruct (k <? m_idx (t_mem t)) eqn:L.
      * apply Nat.ltb_lt in L. rewrite (proj2 (Nat.ltb_lt _ _)) by lia. auto.
      * apply Nat.ltb_ge in L. rewrite (proj2 (Nat.ltb_ge _ _)) by lia. auto.
Qed.

(** An invariant preserved by every stored row is preserved by add. *)
Lemma st_add_loop_inv : forall n (I : stree -> Prop) ds prio (k : nat) (g : R),
  (forall t t' x i p r, st_wf n t -> I t -> nth_error prio i = Some p -> mk_row ds r i (k - 1) = Some x ->
     st_store t x p = Some t' -> st_wf n t' /\ I t') ->
  forall fuel i rew t t' rew', st_wf n t -> I t ->
  st_add_loop fuel ds prio k g i rew t = Some (t', rew') -> I t'.
Proof.
  intros n I ds prio k g HS. induction fuel as [|f IH]; intros i rew t t' rew' W H0 H; [discriminate|].
  cbn [st_add_loop] in H. destruct (i + k <? length ds + 1).
  - unfold obind at 1 in H. destruct (inner (map s_last ds) g i 0 (k - 1) rew) as [[r1 [i'|]]|]; [| |discriminate].
    + eapply IH; eauto.
    + destruct (mk_row ds r1 i (k - 1)) as [x|] eqn:MR; [|discriminate]. cbn [obind] in H.
      destruct (nth_error prio i) as [p|] eqn:NP; [|discriminate]. cbn [obind] in H.
      destruct (st_store t x p) as [t1|] eqn:SS; [|discriminate]. cbn [obind] in H.
      destruct (HS t t1 x i p r1 W H0 NP MR SS) as [W1 I1]. eapply IH; eauto.
  - inversion H; subst; auto.
Qed.

Lemma update_prio : forall n t idx ps a, 2 <= n -> st_wf n t -> prio_inv n t ->
  length idx = length ps ->
  Forall (fun i => n - 1 <= i < n - 1 + st_size t) idx -> Forall (fun p => 0 < p)%R ps ->
  update (t_arr t) idx ps = Some a -> prio_inv n (mkST (t_mem t) a).
Proof.
  intros n [m arr] idx ps a Hn W PI HL F FP H. destruct W as (W1 & W2 & W3). unfold st_size in F. cbn [t_mem t_arr] in *.
  assert (SZ : size m <= n).
  { destruct W1 as (A & B & C). unfold size. destruct (m_full m); lia. }
  revert ps arr W3 PI HL FP H. induction idx as [|i it IH]; intros ps arr W3 PI HL FP H; destruct ps as [|p pt]; simpl in HL; try lia.
  - inversion H; subst. exact PI.
  - apply Forall_cons_iff in F. destruct F as [Fi Ft]. cbn [update] in H. apply Forall_cons_iff in FP. destruct FP as [Fp Fpt].
    destruct (update1_spec n arr i p Hn W3 ltac:(lia)) as (t1 & A & B & C).
    rewrite A in H. cbn [obind] in H. apply (IH Ft pt t1); auto.
    + intros k Hk. specialize (PI k Hk). unfold leaf in *. simpl in *. rewrite C by lia.
      unfold st_size in *; simpl in *.
      destruct (n - 1 + k =? i) eqn:Q; auto. apply Nat.eqb_eq in Q.
      rewrite (proj2 (Nat.ltb_lt _ _)) by lia. auto.
Qed.

(** Leaf of a slot = priority recorded for the sample stored there. *)
Definition tag_inv (f : St -> Ac -> Ps -> R) (n : nat) (t : stree) : Prop :=
  forall k x, nth_error (m_data (t_mem t)) k = Some x ->
    leaf n (t_arr t) k = f (s_state x) (s_action x) (s_ps x).

Lemma nth_error_setnth : forall A (l : list A) i x j,
  nth_error (setnth l i x) j = if (j =? i) && (i <? length l) then Some x else nth_error l j.
Proof.
  induction l as [|a l IHl]; destruct i, j; simpl; auto; try (destruct (j =? i); reflexivity).
  rewrite IHl. reflexivity.
Qed.

Lemma store_data : forall (m m' : memory St Ac Ps) x, wf _ _ _ m -> store m x = Some m' ->
  forall k y, nth_error (m_data m') k = Some y -> 
    (k = m_idx m /\ y = x) \/ (k <> m_idx m /\ nth_error (m_data m) k = Some y).
Proof.
  intros m m' x (A & B & C) H k y HY. unfold store in H.
  destruct (if m_full m then upd (m_data m) (m_idx m) x else ds_append (m_max m) (m_data m) x) as [d|] eqn:E;
    [|discriminate]. cbn [obind] in H.
  assert (HD : m_data m' = d) by (destruct (m_idx m + 1 =? m_max m); inversion H; reflexivity).
  rewrite HD in HY. destruct (m_full m).
  - rewrite upd_Some in E by lia. injection E as E. rewrite <- E in HY. rewrite nth_error_setnth in HY.
    destruct (k =? m_idx m) eqn:Q.
    + apply Nat.eqb_eq in Q. left. rewrite (proj2 (Nat.ltb_lt _ _)) in HY by lia. simpl in HY.
      inversion HY; auto.
    + apply Nat.eqb_neq in Q. right. auto.
  - unfold ds_append in E. rewrite (proj2 (Nat.ltb_lt _ _)) in E by lia. injection E as E. rewrite <- E in HY.
    destruct (Nat.lt_ge_cases k (length (m_data m))).
    + rewrite nth_error_app1 in HY by auto. right. split; auto. lia.
    + rewrite nth_error_app2 in HY by auto. destruct (k - length (m_data m)) as [|z] eqn:Z.
      * simpl in HY. inversion HY; subst. left. split; auto. lia.
      * simpl in HY. destruct z; discriminate.
Qed.
End H.

(** ** maxima *)
Lemma fold_Rmax_spec : forall t x, In (fold_left Rmax t x) (x :: t) /\
  forall z, In z (x :: t) -> (z <= fold_left Rmax t x)%R.
Proof.
  induction t as [|y t IH]; intros x; simpl.
  - split; [auto|]. intros z [->|[]]. lra.
  - destruct (IH (Rmax x y)) as [I L]. split.
    + destruct I as [I|I]; [|right; right; exact I].
      rewrite <- I. unfold Rmax. destruct (Rle_dec x y); simpl; auto.
    + intros z [->|[->|Hz]].
      * eapply Rle_trans; [apply Rmax_l|apply L; left; reflexivity].
      * eapply Rle_trans; [apply Rmax_r|apply L; left; reflexivity].
      * apply L. right; auto.
Qed.

Lemma Rpower_pos : forall x y, (0 < Rpower x y)%R.
Proof. intros. unfold Rpower. apply exp_pos. Qed.

(** ** sequences *)
Lemma last_true_spec : forall l, match last_true l with
  | None => Forall (fun b => b = false) l
  | Some k => nth_error l k = Some true /\ Forall (fun b => b = false) (skipn (S k) l)
  end.
Proof.
  induction l as [|b t IH]; simpl; auto. destruct (last_true t) as [k|].
  - exact IH.
  - destruct b; simpl; auto.
Qed.

Lemma slice_map : forall A B (f : A -> B) l a b, slice a b (map f l) = map f (slice a b l).
Proof. intros. unfold slice. rewrite skipn_map, firstn_map. reflexivity. Qed.

Lemma slice_skipn : forall A (l : list A) a b k, k <= b - a -> skipn k (slice a b l) = slice (a + k) b l.
Proof.
  intros. unfold slice. rewrite skipn_firstn_comm, skipn_skipn'. f_equal. lia.
Qed.

Lemma nth_error_slice : forall A (l : list A) a b k, a + k < b -> nth_error (slice a b l) k = nth_error l (a + k).
Proof.
  intros. unfold slice. revert a b k H. induction l as [|x l IH]; intros a b k H.
  - rewrite skipn_nil, firstn_nil. rewrite !(proj2 (nth_error_None _ _)) by (simpl; lia). reflexivity.
  - destruct a.
    + simpl skipn. rewrite Nat.sub_0_r. simpl. clear IH. revert b k H. generalize (x :: l) as m.
      induction m as [|y m IHm]; intros b k H; [rewrite firstn_nil; auto|]. destruct b; [lia|]. destruct k; auto. simpl. apply IHm. lia.
    + simpl skipn. replace (b - S a) with ((b - 1) - a) by lia. rewrite IH by lia. reflexivity.
Qed.

(** Theorems C11, C12, C55: dataset statistics and containers. *)
From Coq Require Import List Arith ZArith Lia Reals Bool Lra.
From Verif Require Import Common EpisodeSpec DatasetModel DatasetSpec DatasetProofs.
Import ListNotations.

(** ** C11: statistics *)
Section C11.
Context {St Ac : Type}.
Implicit Types l : list (row St Ac).

(** compute_J returns one discounted sum per episode, the unfinished tail
    counting as one; an empty dataset gives [0]. *)
Theorem dataset_compute_J : forall g l,
  compute_J g l = match l with [] => [0%R] | _ => map (ret g) (episodes l) end.
Proof. exact compute_J_episodes. Qed.

(** The episodes referred to partition the dataset. *)
Theorem dataset_episodes_partition : forall l,
  concat (episodes l) = l /\ Forall (fun e => e <> []) (episodes l).
Proof.
  intros. split; [apply episodes_concat|]. unfold episodes. apply Forall_app. split.
  - eapply Forall_impl; [|apply split_complete]. intros e (b & x & -> & _). destruct b; discriminate.
  - destruct (unfinished r_last l); constructor; auto; discriminate.
Qed.

(** episodes_length: lengths of the complete episodes; they sum to the index
    after the last episode end. *)
Theorem dataset_episodes_length : forall l,
  episodes_length l = map (@length _) (complete r_last l) /\
  list_sum (episodes_length l) + length (unfinished r_last l) = length l /\
  Forall (fun x => r_last x = false) (unfinished r_last l).
Proof.
  intros. assert (E : episodes_length l = map (@length _) (complete r_last l)).
  { unfold episodes_length. rewrite ep_len_gen. destruct (complete r_last l); reflexivity. }
  split; [exact E|]. split; [|apply split_unfinished]. rewrite E.
  pose proof (f_equal (@length _) (split_concat r_last l)) as SC. rewrite app_length in SC. rewrite <- SC. f_equal.
  clear. induction (complete r_last l) as [|e c IH]; simpl; auto. rewrite app_length, <- IH. reflexivity.
Qed.

(** n_episodes is the number of returns of compute_J, for non-empty datasets. *)
Theorem dataset_n_episodes_partial : forall g l, l <> [] ->
  n_episodes l = Some (length (compute_J g l)).
Proof.
  intros. rewrite n_episodes_spec, compute_J_episodes. destruct l; [congruence|]. rewrite map_length. reflexivity.
Qed.

(** On an empty dataset compute_J returns one value but n_episodes raises. *)
Theorem dataset_n_episodes_empty_refuted :
  n_episodes ([] : list (row St Ac)) = None /\ forall g, compute_J g ([] : list (row St Ac)) = [0%R].
Proof. split; reflexivity. Qed.

(** get_init_states: the first state of every episode. *)
Theorem dataset_init_states : forall l,
  map Some (get_init_states l) = map (fun e => option_map r_state (hd_error e)) (episodes l).
Proof. intros. apply (init_gen l true). Qed.

(** select_first_episodes n: exactly the first n complete episodes, IndexError
    when there are fewer. *)
Theorem dataset_select_first_episodes : forall l n, 0 < n ->
  select_first_episodes l n =
  if n <=? length (complete r_last l) then Some (concat (firstn n (complete r_last l))) else None.
Proof. exact select_first_spec. Qed.

(** compute_metrics only sees the complete episodes. *)
Theorem dataset_compute_metrics : forall median g l,
  let J := map (ret g) (complete r_last l) in
  match compute_metrics median g l with
  | (mn, mx, mean, md, n) =>
      n = length J /\
      (J = [] -> mn = 0 /\ mx = 0 /\ mean = 0 /\ md = 0)%R /\
      (J <> [] -> is_min mn J /\ is_max mx J /\ (mean * INR n = rsum J)%R /\ md = median J)
  end.
Proof.
  intros median g l J. unfold compute_metrics. rewrite pyslice_prefix, complete_firstn_cut.
  destruct (concat (complete r_last l)) as [|x t] eqn:E.
  - assert (C : complete r_last l = []).
    { pose proof (split_complete r_last l) as H. destruct (complete r_last l) as [|e c]; auto.
      inversion H; subst. destruct H2 as (b & y & -> & _). simpl in E. destruct b; discriminate. }
    unfold J. rewrite C. simpl. split; auto. split; auto; congruence.
  - assert (EJ : compute_J g (x :: t) = J).
    { rewrite compute_J_episodes, <- E, complete_of_complete. reflexivity. }
    rewrite EJ.
    assert (NJ : J <> []). { unfold J. destruct (complete r_last l); [discriminate|simpl; congruence]. }
    split; auto. split; [congruence|]. intros _. split; [apply Rmin_list_spec; auto|].
    split; [apply Rmax_list_spec; auto|]. split; auto. field. apply not_0_INR. destruct J; simpl; congruence.
Qed.
End C11.

(** A dataset with one complete episode of two steps and an unfinished one. *)
Definition demo : list (row nat nat) :=
  [mkRow 0 0 1 1 false false; mkRow 1 0 2 2 true true; mkRow 5 1 4 6 false false].

Example demo_J : compute_J (1/2) demo = [2; 4]%R.
Proof. unfold demo, compute_J. simpl. f_equal; [|f_equal]; lra. Qed.
Example demo_lengths : episodes_length demo = [2] /\ n_episodes demo = Some 2 /\
  get_init_states demo = [0; 5] /\
  select_first_episodes demo 1 = Some (firstn 2 demo) /\ select_first_episodes demo 2 = None.
Proof. repeat split. Qed.
Example demo_metrics : exists md, compute_metrics (fun l => nth 0 l 0%R) (1/2) demo = (2, 2, 2, md, 1%nat)%R.
Proof.
  exists 2%R. unfold compute_metrics, demo. simpl. unfold compute_J; simpl. unfold Rmin_list; simpl.
  repeat f_equal; lra.
Qed.

(** ** C12: containers *)
Section C12.
Context {St Ac Ps : Type}.
Notation nds := (nds St Ac Ps).

(** Any sequence of append, clear, [d[a:b]], [d[a:]], [d[idx]] with natural
    bounds, and concatenation to a non-empty dataset behaves as on lists, and the
    policy states stay aligned with the samples.
    Missing for the full claim: negative bounds and an empty left operand, which
    fail (next theorems). *)
Theorem dataset_refines_list_partial : forall ops cap (d : nds) s',
  fresh cap d -> Forall op_valid ops ->
  spec_run (mkAc [] (option_map (fun _ => []) (nd_pol d)) cap) ops = Some s' ->
  exists d', nd_run d ops = Some d' /\ rows d' = a_rows s' /\ pols d' = a_pols s' /\
    length (nd_buf d') = a_cap s' /\ nd_len d' = length (a_rows s').
Proof.
  intros ops cap d s' (F1 & F2 & F3) V H.
  assert (W : valid d). { split; [lia|]. destruct (nd_pol d); auto. lia. }
  assert (R0 : Rel d (mkAc [] (option_map (fun _ => []) (nd_pol d)) cap)).
  { unfold Rel, rows, pols; simpl. rewrite F1. simpl. repeat split; auto; try apply W. }
  destruct (Rel_run ops d _ s' R0 V H) as (d' & A & B1 & B2 & B3 & B4). exists d'.
  repeat split; auto. rewrite <- B1. symmetry. apply wf_rows_length; auto.
Qed.

(** Appending to a full dataset raises and never overwrites. *)
Theorem dataset_append_full_raises : forall (d : nds) x p, valid d -> nd_len d = length (nd_buf d) ->
  nd_append d x p = None.
Proof. intros. apply append_full; auto. Qed.

(** Integer indexing agrees with list indexing for non-negative indices, and for
    every index once the buffer is full. *)
Theorem dataset_getitem_partial : forall (d : nds) i, valid d ->
  (0 <= i)%Z \/ nd_len d = length (nd_buf d) -> nd_getitem d i = list_get (rows d) i.
Proof. intros d i W [H|H]; [apply getitem_nonneg|apply getitem_full]; auto. Qed.

(** Iterating over a dataset visits exactly its samples. *)
Theorem dataset_iteration : forall (d : nds), valid d ->
  (forall i, i < nd_len d -> nd_getitem d (Z.of_nat i) = nth_error (rows d) i) /\
  nd_getitem d (Z.of_nat (nd_len d)) = None.
Proof.
  intros d W. split.
  - intros i H. rewrite getitem_nonneg by (auto; lia). unfold list_get.
    replace (Z.of_nat i <? 0)%Z with false by (symmetry; apply Z.ltb_ge; lia). rewrite Nat2Z.id. reflexivity.
  - unfold nd_getitem. rewrite Z.ltb_irrefl. reflexivity.
Qed.

(** [dataset[-1]] on a partly filled buffer returns uninitialised memory instead
    of the last sample: for every sample and every garbage row. *)
Theorem dataset_negative_index_refuted : forall (x g : row St Ac), exists d0 d : nds,
  fresh 2 d0 /\ nd_append d0 x None = Some d /\ rows d = [x] /\
  list_get (rows d) (-1) = Some x /\ nd_getitem d (-1) = Some g.
Proof.
  intros x g. exists (mkNds [g; g] None 0), (mkNds [x; g] None 1). repeat split.
Qed.

(** An empty dataset does not raise IndexError for [-1]. *)
Theorem dataset_negative_index_empty_refuted : forall g : row St Ac, exists d : nds,
  fresh 1 d /\ rows d = [] /\ nd_getitem d (-1) = Some g.
Proof. intros g. exists (mkNds [g] None 0). repeat split. Qed.

(** For a stateful dataset, [d[-1:]] on a partly filled buffer pairs the last
    sample with a policy state that does not belong to it. *)
Theorem dataset_negative_slice_refuted : forall (x g : row St Ac) (p q : Ps), exists d0 d v : nds,
  fresh 2 d0 /\ nd_append d0 x (Some p) = Some d /\ pols d = Some [p] /\
  nd_view d (ISlice (Some (-1)%Z) None) = Some v /\ rows v = [x] /\ pols v = Some [q].
Proof.
  intros x g p q. exists (mkNds [g; g] (Some [q; q]) 0), (mkNds [x; g] (Some [p; q]) 1), (mkNds [x] (Some [q]) 1).
  repeat split.
Qed.

(** Concatenating to an empty dataset flags the last sample of the right
    operand: for every stateless right operand. *)
Theorem dataset_add_empty_left_refuted : forall d e : nds, valid d -> valid e ->
  nd_pol d = None -> nd_len d = 0 -> nd_len e <> 0 ->
  exists r, nd_add d e = Some r /\ rows r = flag_end (rows e).
Proof.
  intros d e W1 W2 P L N. unfold nd_add. rewrite L, P.
  assert (R0 : rows d = []) by (unfold rows; rewrite L; reflexivity). rewrite R0. simpl app.
  rewrite force_last_empty. 2:{ intros E. pose proof (wf_rows_length _ W2). rewrite E in H. simpl in H. lia. }
  unfold obind. eexists. split; [reflexivity|]. unfold rows at 1; simpl.
  apply firstn_all2. rewrite flag_end_length, wf_rows_length; auto.
Qed.

(** ListDataset refines lists for append, clear, indexing and views ... *)
Theorem list_dataset_refines_partial : forall (d : lds St Ac Ps) l, ld_data d = Some l -> ld_stateful d = false ->
  (forall x, exists d', ld_append d x None = Some d' /\ ld_data d' = Some (l ++ [x]) /\ ld_stateful d' = false) /\
  ld_data (ld_clear d) = Some [] /\
  (forall i, ld_getitem d i = list_get l i) /\
  (forall ix v, ld_view d ix = Some v -> ld_data v = apply_index l ix).
Proof.
  intros d l H S. repeat split.
  - intros x. unfold ld_append. rewrite H, S. simpl. eexists. repeat split.
  - intros i. unfold ld_getitem, list_get. rewrite H. unfold obind.
    destruct (i <? 0)%Z eqn:E.
    + apply Z.ltb_lt in E. rewrite (proj2 (Z.ltb_lt _ _)) by lia. unfold pyindex.
      replace (0 <=? i)%Z with false by (symmetry; apply Z.leb_gt; lia).
      rewrite Z.add_comm. destruct (0 <=? i + Z.of_nat (length l))%Z; reflexivity.
    + apply Z.ltb_ge in E. unfold pyindex. rewrite (proj2 (Z.leb_le _ _)) by lia.
      destruct (i <? Z.of_nat (length l))%Z eqn:E2; auto.
      apply Z.ltb_ge in E2. symmetry. apply nth_error_None. lia.
  - intros ix v. unfold ld_view. rewrite H. unfold obind. destruct (apply_index l ix); [|discriminate].
    intros E; inversion E; reflexivity.
Qed.

(** ... but concatenation of two ListDatasets always raises ... *)
Theorem list_dataset_add_refuted : forall d e : lds St Ac Ps, ld_add d e = None.
Proof.
  intros d e. unfold ld_add. destruct (ld_data d) as [l|]; [|reflexivity]. unfold obind.
  destruct (pyindex (length l) (-1)); [|reflexivity]. destruct (nth_error l n); reflexivity.
Qed.

(** ... and the policy states recorded by a stateful one cannot be read back. *)
Theorem list_dataset_policy_state_refuted : forall (x : row St Ac) (p : Ps), exists d,
  ld_append (ld_init true) x (Some p) = Some d /\ ld_pol d = Some [p] /\ ld_policy_state d = None.
Proof. intros. eexists. repeat split. Qed.
End C12.

Example container_demo :
  let g := mkRow 9 9 0%R 9 false false in
  let x i := mkRow i i 1%R (S i) false false in
  let d0 : nds nat nat nat := mkNds [g; g; g; g] None 0 in
  let e : nds nat nat nat := mkNds [x 7; g] None 1 in
  exists d, nd_run d0 [DAppend (x 1) None; DAppend (x 2) None; DAppend (x 3) None; DSlice 1 3; DAdd e] = Some d /\
    rows d = [x 2; mkRow 3 3 1%R 4 false true; x 7].
Proof. eexists. split; reflexivity. Qed.

(** ** C55: CollectDataset *)
Section C55.
Context {St Ac Ps : Type}.
Notation nds := (nds St Ac Ps).
Notation chunk := (fun d : nds => valid d /\ nd_pol d = None /\ nd_len d <> 0).

(** Every sample is kept, in order, with everything but its last flag. *)
Theorem collect_samples : forall chunks : list nds, chunks <> [] -> Forall chunk chunks ->
  exists r, collect_all None chunks = Some (Some r) /\
    map forget (rows r) = map forget (concat (map rows chunks)).
Proof.
  intros chunks N F. destruct chunks as [|c t]; [congruence|]. inversion F; subst. destruct H1 as (W & S & L).
  destruct (collect_gen t c W S L H2) as (r & A & B & C & D). exists r. split; [exact A|].
  rewrite D. destruct t as [|d t']; [simpl; rewrite app_nil_r; auto|].
  cbn [map concat]. rewrite !map_app, forget_flag_end. f_equal.
  rewrite <- map_app. clear. revert d. induction t' as [|e t' IH]; intros d.
  - simpl. rewrite app_nil_r. reflexivity.
  - change (removelast (d :: e :: t')) with (d :: removelast (e :: t')).
    change (last (d :: e :: t') c) with (last (e :: t') c). cbn [map concat].
    rewrite <- app_assoc, map_app, forget_flag_end, IH, <- map_app. reflexivity.
Qed.

(** When every received dataset ends with an episode end (fits on whole
    episodes), the collected dataset is the concatenation. *)
Theorem collect_whole_episodes_partial : forall chunks : list nds, chunks <> [] ->
  Forall chunk chunks ->
  Forall (fun d => exists b x, rows d = b ++ [x] /\ r_last x = true) chunks ->
  exists r, collect_all None chunks = Some (Some r) /\ rows r = concat (map rows chunks).
Proof.
  intros chunks N F E. destruct chunks as [|c t]; [congruence|]. inversion F; subst. destruct H1 as (W & S & L).
  destruct (collect_gen t c W S L H2) as (r & A & B & C & D). exists r. split; [exact A|].
  assert (FE : Forall (fun d => flag_end (rows d) = rows d) (c :: t)).
  { eapply Forall_impl; [|exact E]. intros a (b & x & -> & Hx). apply flag_end_last; auto. }
  rewrite D. inversion FE; subst. destruct t as [|d t']; [simpl; rewrite app_nil_r; auto|].
  cbn [map concat]. rewrite H1. f_equal. clear - H3. revert d H3. induction t' as [|e t' IH]; intros d H3.
  - simpl. rewrite app_nil_r. reflexivity.
  - inversion H3; subst. change (removelast (d :: e :: t')) with (d :: removelast (e :: t')).
    change (last (d :: e :: t') c) with (last (e :: t') c). cbn [map concat].
    rewrite <- app_assoc, H1. f_equal. rewrite IH; auto.
Qed.

(** Fitting every step (n_steps_per_fit = 1): one unfinished episode of n steps
    is collected as n episodes of one step each. *)
Theorem collect_step_fits_refuted : forall l : list (row St Ac), 2 <= length l ->
  Forall (fun x => r_last x = false) l ->
  exists r : nds, collect_all None (map (fun x => mkNds [x] None 1) l) = Some (Some r) /\
    length (episodes l) = 1 /\ length (episodes (rows r)) = length l.
Proof.
  intros l L F. destruct l as [|c t]; [simpl in L; lia|].
  assert (FC : Forall chunk (map (fun x => mkNds [x] None 1 : nds) t)).
  { apply Forall_forall. intros d Hd. apply in_map_iff in Hd. destruct Hd as (x & <- & _).
    unfold valid; simpl. repeat split; auto. }
  assert (Vc : valid (mkNds [c] None 1 : nds)) by (unfold valid; simpl; auto).
  destruct (collect_gen (Ps:=Ps) (map (fun x => mkNds [x] None 1) t) (mkNds [c] None 1) Vc eq_refl
              ltac:(simpl; lia) FC) as (r & A & B & C & D).
  exists r. split; [exact A|]. split; [rewrite episodes_none_last; auto; congruence|].
  rewrite D. destruct t as [|d t']; [simpl in L; lia|].
  cbn [map]. set (f := fun x => mkNds [x] None 1 : nds).
  change (mkNds [d] None 1) with (f d).
  assert (Q : forall (t' : list (row St Ac)) d, exists b x, 
     concat (map (fun e : nds => flag_end (rows e)) (removelast (f d :: map f t'))) ++ rows (last (f d :: map f t') (f c)) = b ++ [x]
     /\ Forall (fun y => r_last y = true) b /\ length b = length t').
  { clear. induction t' as [|e t' IH]; intros d.
    - exists [], d. repeat split; auto.
    - destruct (IH e) as (b & x & E & Hb & Lb). exists (set_last d true :: b), x. split.
      + cbn [map]. change (removelast (f d :: f e :: map f t')) with (f d :: removelast (f e :: map f t')).
        change (last (f d :: f e :: map f t') (f c)) with (last (f e :: map f t') (f c)).
        cbn [map concat]. rewrite <- app_assoc. cbn [map] in E. rewrite E. reflexivity.
      + split; [constructor; auto|simpl; lia]. }
  destruct (Q t' d) as (b & x & E & Hb & Lb). change (mkNds [c] None 1) with (f c). rewrite E.
  change (flag_end (rows (f c)) ++ b ++ [x]) with ((set_last c true :: b) ++ [x]).
  rewrite episodes_all_last by (constructor; auto). rewrite map_length, app_length. simpl. lia.
Qed.

(** clean() before any data raises; after clean(), the next received dataset has
    its final sample flagged as an episode end. *)
Theorem collect_clean_refuted : forall (c d : nds) gb gp, valid c -> valid d ->
  nd_pol c = None -> nd_pol d = None -> nd_len d <> 0 ->
  collect_clean (None : option nds) gb gp = None /\
  exists c' r, collect_clean (Some c) gb gp = Some (Some c') /\
    collect_call (Some c') d = Some (Some r) /\ rows r = flag_end (rows d).
Proof.
  intros c d gb gp W1 W2 P1 P2 L. split; [reflexivity|]. exists (nd_clear c gb gp).
  destruct (clear_spec c gb gp W1) as (A & B & _).
  destruct (dataset_add_empty_left_refuted (nd_clear c gb gp) d) as (r & E & Q); auto.
  { unfold nd_clear; simpl. rewrite P1. reflexivity. }
  exists r. split; [reflexivity|]. cbn [collect_call]. unfold obind. rewrite E. auto.
Qed.
End C55.

Example collect_demo :
  let x i b := mkRow i i 1%R (S i) false b in
  let d l : nds nat nat nat := mkNds l None (length l) in
  exists r, collect_all None [d [x 0 false; x 1 true]; d [x 2 true]; d [x 3 false]] = Some (Some r)
    /\ rows r = [x 0 false; x 1 true; x 2 true; x 3 false].
Proof. eexists. split; reflexivity. Qed.

Print Assumptions dataset_compute_J.
Print Assumptions dataset_episodes_partition.
Print Assumptions dataset_episodes_length.
Print Assumptions dataset_n_episodes_partial.
Print Assumptions dataset_n_episodes_empty_refuted.
Print Assumptions dataset_init_states.
Print Assumptions dataset_select_first_episodes.
Print Assumptions dataset_compute_metrics.
Print Assumptions dataset_refines_list_partial.
Print Assumptions dataset_append_full_raises.
Print Assumptions dataset_getitem_partial.
Print Assumptions dataset_iteration.
Print Assumptions dataset_negative_index_refuted.
Print Assumptions dataset_negative_index_empty_refuted.
Print Assumptions dataset_negative_slice_refuted.
Print Assumptions dataset_add_empty_left_refuted.
Print Assumptions list_dataset_refines_partial.
Print Assumptions list_dataset_add_refuted.
Print Assumptions list_dataset_policy_state_refuted.
Print Assumptions collect_samples.
Print Assumptions collect_whole_episodes_partial.
Print Assumptions collect_step_fits_refuted.
Print Assumptions collect_clean_refuted.

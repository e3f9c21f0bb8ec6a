(** Theorems C16-C19: sequence sampling, sum tree, prioritised replay. *)
From Coq Require Import List Arith Lia Reals Bool Lra Permutation.
From Verif Require Import Common ReplayModel ReplaySpec ReplayProofs ReplayProps SumTreeModel SumTreeSpec SumTreeProofs.
Import ListNotations.

Section Tree.
Context {St Ac Ps : Type}.
Notation stree := (stree St Ac Ps).
Notation st_op := (st_op St Ac Ps).

(** ** C17 *)

(** After any history of adds (with any n-step setting, any positive priorities)
    and updates of leaves (any real priorities): nothing failed, every internal
    node is the sum of its children, total_p is the sum of the leaf priorities and
    max_p is the largest of them. *)
Theorem sumtree_nodes_are_sums : forall n (ops : list st_op), 2 <= n -> Forall (SumTreeSpec.op_ok n) ops ->
  exists t, st_run (st_init n) ops = Some t /\ heap_ok n (t_arr t) /\
    length (leaves t) = n /\ leaves t = map (leaf n (t_arr t)) (seq 0 n) /\
    total_p t = rsum (leaves t) /\
    In (max_p t) (leaves t) /\ (forall p, In p (leaves t) -> p <= max_p t)%R.
Proof.
  intros n ops Hn F. destruct (st_run_wf n ops (st_init n) Hn (st_init_wf n ltac:(lia)) F) as (t & A & W1 & W2 & W3).
  exists t. split; auto. split; auto.
  assert (L : leaves t = leaf_list n (t_arr t)).
  { unfold leaves, lastn. rewrite leaf_list_skipn by (try apply W3; lia). rewrite W2. f_equal.
    destruct W3 as [-> _]. lia. }
  assert (LL : length (leaves t) = n) by (rewrite L; unfold leaf_list; rewrite map_length, seq_length; auto).
  split; auto. split; [exact L|]. split.
  - unfold total_p. rewrite L. apply heap_total; auto; lia.
  - unfold max_p. destruct (leaves t) as [|x l] eqn:E; [simpl in LL; lia|]. apply fold_Rmax_spec.
Qed.

(** Updating one leaf sets it and leaves every other leaf unchanged. *)
Theorem sumtree_update_one_leaf : forall n (t : list R) i p, 2 <= n -> heap_ok n t -> n - 1 <= i < 2 * n - 1 ->
  exists t', update t [i] [p] = Some t' /\ heap_ok n t' /\
    at_ t' i = p /\ (forall j, n - 1 <= j -> j <> i -> at_ t' j = at_ t j) /\
    (at_ t' 0 = at_ t 0 + (p - at_ t i))%R.
Proof.
  intros n t i p Hn H Hi. destruct (update1_spec n t i p Hn H Hi) as (t' & A & B & C).
  exists t'. cbn [update]. rewrite A. cbn [obind]. split; auto. split; auto.
  split; [rewrite C, Nat.eqb_refl by lia; auto|]. split.
  - intros j Hj NE. rewrite C by auto. rewrite (proj2 (Nat.eqb_neq j i)) by auto. reflexivity.
  - rewrite (heap_total n t' ltac:(lia) B), (heap_total n t ltac:(lia) H). unfold leaf_list.
    assert (G : forall l, NoDup l -> Forall (fun k => k < n) l ->
       rsum (map (leaf n t') l) = (rsum (map (leaf n t) l) + (if in_dec Nat.eq_dec (i - (n - 1))%nat l then p - at_ t i else 0))%R).
    { induction l as [|k l IH]; intros ND FL; [simpl; lra|]. inversion ND; subst. inversion FL; subst.
      cbn [map rsum]. rewrite IH by auto. unfold leaf at 1. rewrite C by lia.
      destruct (n - 1 + k =? i) eqn:Q.
      - apply Nat.eqb_eq in Q. replace (i - (n - 1)) with k by lia.
        destruct (in_dec Nat.eq_dec k l); [contradiction|].
        destruct (in_dec Nat.eq_dec k (k :: l)) as [|X]; [|exfalso; apply X; left; auto].
        unfold leaf. rewrite Q. lra.
      - apply Nat.eqb_neq in Q. unfold leaf.
        destruct (in_dec Nat.eq_dec (i - (n - 1)) l) as [I|I];
        destruct (in_dec Nat.eq_dec (i - (n - 1)) (k :: l)) as [J|J].
        + lra. + exfalso; apply J; right; auto.
        + exfalso. destruct J as [J|J]; auto. lia. + lra. }
    rewrite (G (seq 0 n)).
    + destruct (in_dec _ _ _) as [I|I]; [reflexivity|]. exfalso. apply I. apply in_seq. lia.
    + apply seq_NoDup.
    + apply Forall_forall. intros k Hk. apply in_seq in Hk. lia.
Qed.

(** The leaf of a slot carries the priority that was passed for the sample whose
    state, action and policy state are stored in that slot: [f] is an arbitrary
    assignment of priorities to samples. *)
Theorem sumtree_leaf_of_row : forall n (f : St -> Ac -> Ps -> R)
  (calls : list (list (sample St Ac Ps) * nat * R)),
  2 <= n -> (forall s a p, 0 < f s a p)%R -> Forall (fun c => 1 <= snd (fst c)) calls ->
  let prio ds := map (fun x => f (s_state x) (s_action x) (s_ps x)) ds in
  exists t, st_run (st_init n) (map (fun c => StAdd (fst (fst c)) (prio (fst (fst c))) (snd (fst c)) (snd c)) calls) = Some t /\
    forall k x, nth_error (m_data (t_mem t)) k = Some x ->
      leaf n (t_arr t) k = f (s_state x) (s_action x) (s_ps x).
Proof.
  intros n f calls Hn Hf F prio.
  assert (G : forall calls (t : stree), Forall (fun c => 1 <= snd (fst c)) calls -> st_wf n t -> tag_inv f n t ->
    exists t', st_run t (map (fun c => StAdd (fst (fst c)) (prio (fst (fst c))) (snd (fst c)) (snd c)) calls) = Some t' /\ tag_inv f n t').
  { clear F calls. induction calls as [|[[ds k] g] l IH]; intros t F W TI; [simpl; eauto|].
    inversion F; subst. cbn [map fst snd st_run] in *.
    assert (LP : length (prio ds) = length ds) by (unfold prio; apply map_length).
    assert (FP : Forall (fun p => 0 < p)%R (prio ds)).
    { apply Forall_forall. intros p Hp. apply in_map_iff in Hp. destruct Hp as (x & <- & _). apply Hf. }
    destruct (st_add_refines n t ds (prio ds) k g Hn W H1 LP FP) as (t' & m' & r' & D & _ & _ & W').
    rewrite D. cbn [obind fst]. apply IH; auto.
    unfold st_add in D. destruct (forallb _ _); [|discriminate]. destruct (0 <? k); [|discriminate].
    refine (st_add_loop_inv n (tag_inv f n) ds (prio ds) k g _ _ _ _ _ _ _ W TI D).
    intros t1 t2 x i p r W1 I1 NP MR SS.
    destruct (st_store_spec n t1 x p Hn W1) as (m1 & t2' & A & B & C & E & L).
    rewrite SS in B. inversion B; subst t2'. split; auto.
    intros q y HY. rewrite E in HY.
    assert (Hq : q < n).
    { destruct C as ((C1 & C2 & C3) & C4 & _). rewrite E in *.
      assert (nth_error (m_data m1) q <> None) by congruence. apply nth_error_Some in H.
      destruct (m_full m1); lia. }
    rewrite L by auto. destruct (store_data _ _ _ (proj1 W1) A q y HY) as [[-> ->]|[NE HO]].
    - rewrite Nat.eqb_refl. unfold mk_row in MR. destruct (nth_error ds i) as [s0|] eqn:NS; [|discriminate].
      cbn [obind] in MR. destruct (nth_error r i); [|discriminate]. cbn [obind] in MR.
      destruct (nth_error ds (i + (k - 1))); [|discriminate]. inversion MR; subst. simpl.
      unfold prio in NP. rewrite nth_error_map, NS in NP. inversion NP; reflexivity.
    - rewrite (proj2 (Nat.eqb_neq _ _)) by auto. apply I1; auto. }
  destruct (G calls (st_init n) F (st_init_wf n ltac:(lia))) as (t & A & B).
  - intros k x H. destruct k; discriminate.
  - exists t. auto.
Qed.

(** Prioritised memory stores the same rows as a plain one. *)
Theorem sumtree_add_stores_like_replay : forall n (t : stree) ds prio k g,
  2 <= n -> st_wf n t -> 1 <= k -> length prio = length ds -> Forall (fun p => 0 < p)%R prio ->
  exists t' rew', st_add t ds prio k g = Some (t', rew') /\
    add (t_mem t) ds k g = Some (t_mem t', rew') /\ st_wf n t' /\
    chronological (t_mem t') = lastn n (chronological (t_mem t) ++ nstep_samples ds k g).
Proof.
  intros n t ds prio k g Hn W Hk LP FP.
  destruct (st_add_refines n t ds prio k g Hn W Hk LP FP) as (t' & m' & r' & A & B & C & D).
  exists t', r'. split; auto. subst m'. split; auto. split; auto.
  destruct (add_spec _ _ _ (t_mem t) ds k g (proj1 W) Hk) as (m2 & r2 & A2 & _ & _ & _ & E).
  rewrite B in A2. inversion A2; subst. rewrite E. f_equal. apply W.
Qed.

(** A tree with a single leaf cannot be updated: the recursion never ends. *)
Theorem sumtree_single_leaf_refuted : forall (x : sample St Ac Ps) p fuel,
  st_store (st_init 1) x p = None /\ propagate fuel [p] p 0 = None.
Proof.
  intros. split; [reflexivity|]. destruct fuel; reflexivity.
Qed.

(** ** C18 *)

(** The left-to-right leaf order lists every leaf exactly once. *)
Theorem sumtree_order_complete : forall n, 1 <= n -> Permutation (leaf_order n) (seq (n - 1) n).
Proof. exact order_perm. Qed.

(** Without equal siblings, a mass 0 < s <= total selects the leaf whose interval
    of cumulated priorities contains s; that leaf has a positive priority. *)
Theorem sumtree_retrieve_mass_partial : forall n (t : stree) choice s, 2 <= n -> st_wf n t ->
  no_ties n (t_arr t) -> (0 < s <= total_p t)%R ->
  exists j pre post, leaf_order n = pre ++ j :: post /\
    get_ind t choice s = Some (j, at_ (t_arr t) j, j - (n - 1)) /\ n - 1 <= j < 2 * n - 1 /\
    (rsum (map (at_ (t_arr t)) pre) < s <= rsum (map (at_ (t_arr t)) pre) + at_ (t_arr t) j)%R /\
    (0 < at_ (t_arr t) j)%R.
Proof.
  intros n t choice s Hn (W1 & W2 & W3) NT Hs. pose proof W3 as [HL _].
  destruct (retrieve_mass n (t_arr t) choice W3 NT (length (t_arr t)) s 0) as (j & pre & post & A & B & C); auto; try lia.
  assert (E : leaves_under (length (t_arr t)) n 0 = leaf_order n) by (apply lu_fuel; lia).
  rewrite E in B. exists j, pre, post. split; auto.
  assert (Hj : n - 1 <= j < 2 * n - 1).
  { pose proof (lu_range n (2 * n) 0 ltac:(lia)) as R. fold (leaf_order n) in R. rewrite B in R.
    apply Forall_app in R. destruct R as [_ R]. inversion R; auto. }
  split.
  - unfold get_ind. rewrite A. cbn [obind]. rewrite W2. rewrite (proj2 (Nat.leb_le _ _)) by lia.
    f_equal. f_equal. lia.
  - split; auto. split; auto. lra.
Qed.

(** Sampling is proportional as long as only pairs of leaves tie: the mass 0 < s <= total belongs
    to a leaf [j]; if the sibling of [j] has another priority, [j] is selected, otherwise the
    coin of their parent decides between the two, whose priorities are equal.  With s uniform
    and a fair coin every leaf is selected with its share of the total. *)
Theorem sumtree_proportional_partial : forall n (t : stree) choice s, 2 <= n -> st_wf n t ->
  leaf_ties n (t_arr t) -> (0 < s <= total_p t)%R ->
  exists j pre post, leaf_order n = pre ++ j :: post /\ n - 1 <= j < 2 * n - 1 /\
    (rsum (map (at_ (t_arr t)) pre) < s <= rsum (map (at_ (t_arr t)) pre) + at_ (t_arr t) j)%R /\
    let j' := toss (t_arr t) choice j in
    get_ind t choice s = Some (j', at_ (t_arr t) j', j' - (n - 1)) /\ at_ (t_arr t) j' = at_ (t_arr t) j /\ (0 < at_ (t_arr t) j')%R.
Proof.
  intros n t choice s Hn (W1 & W2 & W3) NT Hs. pose proof W3 as [HL _].
  destruct (retrieve_toss n (t_arr t) choice W3 NT (length (t_arr t)) s 0) as (j & pre & post & A & B & C & D); auto; try lia.
  assert (E : leaves_under (length (t_arr t)) n 0 = leaf_order n) by (apply lu_fuel; lia).
  rewrite E in B. exists j, pre, post. split; auto.
  assert (Hj : n - 1 <= j < 2 * n - 1).
  { pose proof (lu_range n (2 * n) 0 ltac:(lia)) as R. fold (leaf_order n) in R. rewrite B in R.
    apply Forall_app in R. destruct R as [_ R]. inversion R; auto. }
  split; [exact Hj|]. split; [exact C|]. cbv zeta.
  assert (Hj' : n - 1 <= toss (t_arr t) choice j < 2 * n - 1).
  { unfold toss. set (i := (j - 1) / 2). assert (I : i < n - 1) by (apply Nat.div_lt_upper_bound; lia). destruct (Req_EM_T _ _) as [Q|Q]; [|exact Hj]. pose proof (NT i I Q). destruct (choice i); lia. }
  split; [|split; [exact D|rewrite D; lra]].
  unfold get_ind. rewrite A. cbn [obind]. rewrite W2. rewrite (proj2 (Nat.leb_le _ _)) by lia.
  f_equal. f_equal. lia.
Qed.

(** Priorities 1, 1, 2, 3: the first two leaves share the mass up to 2, as the coin of node 1 says. *)
Example proportional_ex : leaf_ties 4 [7; 2; 5; 1; 1; 2; 3]%R /\
  map (toss [7; 2; 5; 1; 1; 2; 3]%R (fun _ => false)) (leaf_order 4) = [4; 4; 5; 6].
Proof.
  split.
  - intros i Hi. do 3 (destruct i; [unfold at_; simpl; intros; try lra; lia|]). lia.
  - change (leaf_order 4) with [3; 4; 5; 6]. unfold toss. cbn [map Nat.sub Nat.mul Nat.add Nat.div Nat.divmod fst at_ nth].
    destruct (Req_EM_T 1 1); [|lra]. destruct (Req_EM_T 2 3); [lra|]. reflexivity.
Qed.

(** For every draw (also with ties) the result is some leaf. *)
Theorem sumtree_retrieve_is_leaf : forall n (t : stree) choice s, 2 <= n -> st_wf n t ->
  exists j, get_ind t choice s = Some (j, at_ (t_arr t) j, j - (n - 1)) /\ n - 1 <= j < 2 * n - 1.
Proof.
  intros n t choice s Hn (W1 & W2 & W3). pose proof W3 as [HL _].
  destruct (retrieve_leaf n (t_arr t) choice HL (length (t_arr t)) s 0) as (j & A & B); auto; try lia.
  exists j. pose proof (lu_range n (length (t_arr t)) 0 ltac:(lia)) as R. rewrite Forall_forall in R. specialize (R j B).
  split; auto. unfold get_ind. rewrite A. cbn [obind]. rewrite W2, (proj2 (Nat.leb_le _ _)) by lia.
  f_equal. f_equal. lia.
Qed.

(** Slots that hold a row have a positive priority and the others have zero. *)
Definition stored_op (n : nat) (sz : nat) (o : st_op) : Prop :=
  match o with
  | StAdd ds prio k g => 1 <= k /\ length prio = length ds /\ Forall (fun p => 0 < p)%R prio
  | StUpdate idx ps => length idx = length ps /\ Forall (fun p => 0 < p)%R ps /\
                       Forall (fun i => n - 1 <= i < n - 1 + sz) idx
  end.

(** Histories whose updates concern stored rows only. *)
Inductive history (n : nat) : stree -> Prop :=
| H_init : history n (st_init n)
| H_op : forall t o t', history n t -> stored_op n (st_size t) o -> st_run t [o] = Some t' -> history n t'.

Theorem sumtree_priorities_mark_rows : forall n t, 2 <= n -> history n t ->
  st_wf n t /\ forall k, k < n ->
    (if k <? st_size t then 0 < leaf n (t_arr t) k else leaf n (t_arr t) k = 0)%R.
Proof.
  intros n t Hn H. induction H as [|t o t' H [IW IP] HO HR].
  - split; [apply st_init_wf; lia|]. intros k Hk. simpl. unfold leaf, at_. simpl t_arr.
    assert (Z : forall m k, nth k (repeat 0%R m) 0%R = 0%R) by (induction m; destruct k0; simpl; auto).
    apply Z.
  - destruct o as [ds prio k g|idx ps]; cbn [stored_op st_run] in *.
    + destruct HO as (A & B & C). destruct (st_add_refines n t ds prio k g Hn IW A B C) as (t1 & m' & r' & D & _ & _ & E).
      rewrite D in HR. cbn [obind fst] in HR. inversion HR; subst t1. split; auto.
      unfold st_add in D. destruct (forallb _ _); [|discriminate]. destruct (0 <? k); [|discriminate].
      refine (st_add_loop_inv n (prio_inv n) ds prio k g _ _ _ _ _ _ _ IW IP D).
      intros a a' x i p r Wa Ia NP MR SS. destruct (st_store_spec n a x p Hn Wa) as (m1 & t2' & Q1 & Q2 & Q3 & _).
      rewrite SS in Q2. inversion Q2; subst t2'. split; auto. refine (st_store_prio n a a' x p Hn Wa Ia _ SS).
      rewrite Forall_forall in C. apply C. eapply nth_error_In; eauto.
    + destruct HO as (A & B & C).
      assert (SZ : st_size t <= n).
      { destruct IW as ((X & Y & Z) & M & _). unfold st_size, size. destruct (m_full (t_mem t)); lia. }
      destruct (update (t_arr t) idx ps) as [a|] eqn:U; [|discriminate]. cbn [obind] in HR. inversion HR; subst t'.
      destruct (update_spec n Hn idx ps (t_arr t) (proj2 (proj2 IW)) A) as (a' & U' & W' & _).
      { eapply Forall_impl; [|exact C]. simpl. intros; lia. }
      rewrite U in U'. inversion U'; subst a'. split.
      * destruct IW as (X & Y & Z). split; auto.
      * exact (update_prio n t idx ps a Hn IW IP A C B U).
Qed.

(** Hence, without equal siblings, sampling returns a stored row. *)
Theorem sumtree_get_returns_stored_partial : forall n (t : stree) choice s, 2 <= n -> history n t ->
  no_ties n (t_arr t) -> (0 < s <= total_p t)%R ->
  exists j p k, get_ind t choice s = Some (j, p, k) /\ (0 < p)%R /\ k < st_size t.
Proof.
  intros n t choice s Hn H NT Hs. destruct (sumtree_priorities_mark_rows n t Hn H) as (W & P).
  destruct (sumtree_retrieve_mass_partial n t choice s Hn W NT Hs) as (j & pre & post & _ & G & Hj & _ & Pj).
  exists j, (at_ (t_arr t) j), (j - (n - 1)). split; auto. split; auto.
  specialize (P (j - (n - 1)) ltac:(lia)). unfold leaf in P. replace (n - 1 + (j - (n - 1))) with j in P by lia.
  destruct (j - (n - 1) <? st_size t) eqn:Q; [apply Nat.ltb_lt in Q; auto|lra].
Qed.

(** With equal siblings a row that was never written can be returned: three
    slots, two samples of equal priority. *)
Theorem sumtree_get_unwritten_refuted : forall x y : sample St Ac Ps, exists t : stree,
  history 3 t /\ st_size t = 2 /\ (0 < 3 / 2 <= total_p t)%R /\
  exists choice, get_ind t choice (3 / 2) = Some (4, 0%R, 2).
Proof.
  intros x y.
  assert (FP : Forall (fun p => 0 < p)%R [1; 1]%R) by (repeat constructor; lra).
  destruct (st_add_refines 3 (st_init 3 : stree) [x; y] [1; 1]%R 1 1%R) as (t & m' & r' & A & B & C & D);
    auto; try lia. { apply st_init_wf; lia. }
  exists t. assert (HH : history 3 t).
  { apply (H_op 3 (st_init 3) (StAdd [x; y] [1; 1]%R 1 1%R) t); [constructor| |].
    - simpl. repeat split; auto.
    - simpl st_run. rewrite A. reflexivity. }
  split; auto.
  (* the concrete array *)
  assert (AR : t_arr t = [1 + 1; 0 + 1; 1; 1; 0]%R /\ st_size t = 2 /\ m_max (t_mem t) = 3).
  { unfold st_add in A. destruct (forallb _ _); [|discriminate]. simpl in A.
    inversion A; subst t. simpl. split; [|split; reflexivity].
    unfold at_; simpl. repeat (f_equal; try lra). }
  destruct AR as (AR & SZ & MX). split; auto. split; [unfold total_p; rewrite AR; unfold at_; simpl; lra|].
  exists (fun _ => true). unfold get_ind. rewrite AR, MX. cbn [length retrieve Nat.leb].
  simpl (2 * 0 + 1). simpl (1 + 1). simpl (2 * 1 + 1). unfold at_; simpl nth.
  destruct (Req_EM_T (0 + 1) 1) as [E|E]; [|exfalso; lra]. cbn iota. simpl (2 * 1 + 1). simpl (3 <=? 5).
  cbn iota. simpl nth. destruct (Req_EM_T 1 0) as [E1|E1]; [exfalso; lra|].
  destruct (Rle_dec (3 / 2) 1) as [L|L]; [exfalso; lra|]. simpl. reflexivity.
Qed.

(** With equal siblings the mass is not respected either: leaves 1,2,2,1 and
    mass 7/2, which belongs to the third leaf (prefix sums 3 to 5), can select the
    second one. *)
Theorem sumtree_mass_with_ties_refuted : 
  heap_ok 4 [6; 3; 3; 1; 2; 2; 1]%R /\ leaf_order 4 = [3; 4; 5; 6] /\
  retrieve 7 [6; 3; 3; 1; 2; 2; 1]%R (fun _ => true) (7 / 2) 0 = Some 4.
Proof.
  split; [|split; [reflexivity|]].
  - split; [reflexivity|]. intros i Hi. do 3 (destruct i; [unfold at_; simpl; lra|]). lia.
  - cbn [retrieve length Nat.leb]. simpl (2 * 0 + 1). simpl (1 + 1). unfold at_; simpl nth.
    destruct (Req_EM_T 3 3) as [E|E]; [|exfalso; lra]. cbn iota. simpl (2 * 1 + 1). simpl (3 + 1). cbn [Nat.leb]. simpl nth.
    destruct (Req_EM_T 1 2) as [E1|E1]; [exfalso; lra|].
    destruct (Rle_dec (7 / 2) 1) as [L|L]; [exfalso; lra|]. simpl. reflexivity.
Qed.

(** So the sampling is not proportional to the priorities: with priorities 1, 2, 2, 1 and s
    uniform in (0, 6], the four rows are selected on sets of s of length 1, 5, 2 and 4, each
    under one of the two outcomes of the coin at the root, hence with the probabilities 1/12,
    5/12, 1/6 and 1/3 instead of 1/6, 1/3, 1/3 and 1/6. *)
Theorem sumtree_proportional_with_ties_refuted : forall a b c d : sample St Ac Ps, exists t : stree,
  st_run (st_init 4) [StAdd [a; b; c; d] [1; 2; 2; 1]%R 1 1%R] = Some t /\ history 4 t /\ total_p t = 6%R /\
  forall choice s, (0 < s <= 6)%R ->
    (get_ind t choice s = Some (3, 1%R, 0) <-> choice 0 = true /\ (s <= 1)%R) /\
    (get_ind t choice s = Some (4, 2%R, 1) <-> choice 0 = true /\ (1 < s)%R) /\
    (get_ind t choice s = Some (5, 2%R, 2) <-> choice 0 = false /\ (s <= 2)%R) /\
    (get_ind t choice s = Some (6, 1%R, 3) <-> choice 0 = false /\ (2 < s)%R).
Proof.
  intros a b c d.
  assert (FP : Forall (fun p => 0 < p)%R [1; 2; 2; 1]%R) by (repeat constructor; lra).
  destruct (st_add_refines 4 (st_init 4 : stree) [a; b; c; d] [1; 2; 2; 1]%R 1 1%R) as (t & m' & r' & A & B & C & D);
    auto; try lia. { apply st_init_wf; lia. }
  exists t. assert (RUN : st_run (st_init 4) [StAdd [a; b; c; d] [1; 2; 2; 1]%R 1 1%R] = Some t) by (simpl st_run; rewrite A; reflexivity).
  split; [exact RUN|]. split.
  { apply (H_op 4 (st_init 4) (StAdd [a; b; c; d] [1; 2; 2; 1]%R 1 1%R) t); [constructor| |exact RUN]. simpl. repeat split; auto. }
  assert (AR : t_arr t = [6; 3; 3; 1; 2; 2; 1]%R /\ m_max (t_mem t) = 4).
  { unfold st_add in A. destruct (forallb _ _); [|discriminate]. lazy -[Rplus Rminus Rmult pow IZR] in A.
    injection A as <- _. cbn [t_arr t_mem m_max]. split; [|reflexivity]. repeat (apply f_equal2; [lra|]); reflexivity. }
  destruct AR as (AR & MX). split; [unfold total_p; rewrite AR; reflexivity|]. intros choice s Hs.
  assert (G : get_ind t choice s = if choice 0 then if Rle_dec s 1 then Some (3, 1%R, 0) else Some (4, 2%R, 1)
                                   else if Rle_dec s 2 then Some (5, 2%R, 2) else Some (6, 1%R, 3)).
  { assert (RS : forall f ar z i, retrieve (S f) ar choice z i = if length ar <=? 2 * i + 1 then Some i
      else if Req_EM_T (at_ ar (2 * i + 1)) (at_ ar (2 * i + 1 + 1)) then retrieve f ar choice z (if choice i then 2 * i + 1 else 2 * i + 1 + 1)
      else if Rle_dec z (at_ ar (2 * i + 1)) then retrieve f ar choice z (2 * i + 1) else retrieve f ar choice (z - at_ ar (2 * i + 1))%R (2 * i + 1 + 1)) by reflexivity.
    unfold get_ind. rewrite AR, MX. cbn [length]. rewrite RS. cbn [length Nat.leb Nat.mul Nat.add at_ nth].
    destruct (Req_EM_T 3 3) as [E|E]; [|exfalso; lra]. rewrite RS. destruct (choice 0); cbn [length Nat.leb Nat.mul Nat.add at_ nth].
    - destruct (Req_EM_T 1 2) as [E1|E1]; [exfalso; lra|]. destruct (Rle_dec s 1); rewrite RS; reflexivity.
    - destruct (Req_EM_T 2 1) as [E1|E1]; [exfalso; lra|]. destruct (Rle_dec s 2); rewrite RS; reflexivity. }
  rewrite G. destruct (choice 0); [destruct (Rle_dec s 1)|destruct (Rle_dec s 2)];
    (repeat split; intros; repeat match goal with H : _ /\ _ |- _ => destruct H end; try discriminate; try lra; auto).
Qed.

(** ** C19 *)

(** Importance weights lie in (0,1] and their maximum is 1. *)
Theorem per_weights_normalised : forall size total beta prios,
  prios <> [] -> Forall (fun w => 0 < w <= 1)%R (is_weights size total beta prios) /\
  In 1%R (is_weights size total beta prios) /\ length (is_weights size total beta prios) = length prios.
Proof.
  intros sz tot beta prios NE. unfold is_weights.
  set (w := map (fun p => Rpower (INR sz * (p / tot)) (- beta)) prios).
  assert (WN : w <> []) by (unfold w; destruct prios; simpl; congruence).
  assert (WP : forall z, In z w -> (0 < z)%R).
  { intros z Hz. unfold w in Hz. apply in_map_iff in Hz. destruct Hz as (p & <- & _). apply Rpower_pos. }
  destruct w as [|a l] eqn:EW; [congruence|]. destruct (fold_Rmax_spec l a) as [IM LM].
  set (m := fold_left Rmax l a) in *. assert (MP : (0 < m)%R) by (apply WP; auto).
  split; [|split].
  - apply Forall_forall. intros z Hz. apply in_map_iff in Hz. destruct Hz as (y & <- & Hy). split.
    + apply Rdiv_lt_0_compat; auto.
    + apply (Rmult_le_reg_r m); auto. unfold Rdiv. rewrite Rmult_assoc, Rinv_l, Rmult_1_r, Rmult_1_l by lra. auto.
  - apply in_map_iff. exists m. split; auto. field. lra.
  - rewrite map_length, <- EW. unfold w. apply map_length.
Qed.

(** A larger priority never gets a larger weight (beta >= 0), and equal
    priorities get equal weights. *)
Theorem per_weights_antitone : forall size total beta p q, (0 < size)%nat -> (0 < total)%R ->
  (0 <= beta)%R -> (0 < p <= q)%R ->
  (Rpower (INR size * (q / total)) (- beta) <= Rpower (INR size * (p / total)) (- beta))%R.
Proof.
  intros sz tot beta p q Hs Ht Hb [Hp Hq]. rewrite !Rpower_Ropp. apply Rinv_le_contravar; [apply Rpower_pos|].
  apply Rle_Rpower_l; auto. split.
  - apply Rmult_lt_0_compat; [apply lt_0_INR; auto|apply Rdiv_lt_0_compat; auto].
  - apply Rmult_le_compat_l; [apply pos_INR|]. unfold Rdiv. apply Rmult_le_compat_r; auto.
    left. apply Rinv_0_lt_compat; auto.
Qed.

(** Updated priorities are positive and grow with the absolute error. *)
Theorem per_priority_positive : forall eps alpha err err', (0 < eps)%R -> (0 <= alpha)%R ->
  (0 < get_priority eps alpha err)%R /\
  (Rabs err <= Rabs err' -> get_priority eps alpha err <= get_priority eps alpha err')%R.
Proof.
  intros eps alpha err err' He Ha. split; [apply Rpower_pos|]. intros H. unfold get_priority.
  apply Rle_Rpower_l; auto. pose proof (Rabs_pos err). lra.
Qed.

(** New samples enter with at least the priority of every stored sample once the
    memory is initialised. *)
Theorem per_max_priority : forall n initial (ops : list st_op), 2 <= n -> Forall (SumTreeSpec.op_ok n) ops ->
  exists t, st_run (st_init n) ops = Some t /\
   (initial < st_size t -> In (max_priority initial t) (leaves t) /\
      forall p, In p (leaves t) -> (p <= max_priority initial t)%R) /\
   (st_size t <= initial -> max_priority initial t = 1%R).
Proof.
  intros n ini ops Hn F. destruct (sumtree_nodes_are_sums n ops Hn F) as (t & A & _ & _ & _ & _ & B & C).
  exists t. split; auto. unfold max_priority. split.
  - intros H. rewrite (proj2 (Nat.ltb_lt _ _)) by auto. auto.
  - intros H. rewrite (proj2 (Nat.ltb_ge _ _)) by auto. auto.
Qed.
End Tree.

(** ** C16 *)
Section Seq.
Context {St Ac Ps : Type}.
Notation sample := (sample St Ac Ps).

(** The sequence returned for row [i]: a contiguous block of rows ending with row
    [i], at most [T] long, without an episode end before its last row, and maximal
    with these properties; the previous actions are those of the preceding rows,
    and zero at the start of an episode. *)
Theorem sequence_window : forall (data : list sample) zero T i, 1 <= T -> i < length data ->
  exists b prev, seq_get data zero T i = Some (slice b (i + 1) data, prev) /\
    b <= i /\ i + 1 - b <= T /\
    Forall (fun x => s_last x = false) (slice b i data) /\
    (i + 1 - b = T \/ b = 0 \/ exists x, nth_error data (b - 1) = Some x /\ s_last x = true) /\
    length prev = i + 1 - b /\
    (forall k, b + k < i -> nth_error prev (S k) = option_map s_action (nth_error data (b + k))) /\
    (b = 0 -> hd_error prev = Some zero) /\
    (forall x, 0 < b -> nth_error data (b - 1) = Some x ->
       hd_error prev = Some (if s_last x then zero else s_action x)).
Proof.
  intros data zero T i HT Hi. unfold seq_get. rewrite (proj2 (Nat.ltb_lt _ _)) by auto.
  unfold seq_begin. set (b0 := i + 1 - T). pose proof (last_true_spec (slice b0 i (map s_last data))) as LT.
  rewrite slice_map in *.
  assert (SL : length (slice b0 i data) = i - b0) by (rewrite slice_length; lia).
  destruct (last_true (map s_last (slice b0 i data))) as [k|].
  - destruct LT as [NK FK]. assert (Hk : k < i - b0).
    { assert (nth_error (map s_last (slice b0 i data)) k <> None) by congruence.
      apply nth_error_Some in H. rewrite map_length in H. lia. }
    set (b := b0 + k + 1). exists b, (zero :: map s_action (slice b i data)). cbn [orb]. split; auto.
    rewrite skipn_map, slice_skipn in FK by lia. replace (b0 + S k) with b in FK by (unfold b; lia).
    assert (BX : exists x, nth_error data (b - 1) = Some x /\ s_last x = true).
    { rewrite nth_error_map, nth_error_slice in NK by lia. replace (b - 1) with (b0 + k) by (unfold b; lia).
      destruct (nth_error data (b0 + k)) as [x|]; [|discriminate]. exists x. split; auto. simpl in NK. congruence. }
    repeat split; try (unfold b, b0; lia).
    + rewrite Forall_map in FK. exact FK.
    + right. right. exact BX.
    + simpl. rewrite map_length, slice_length. unfold b, b0. lia.
    + intros q Hq. simpl. rewrite nth_error_map, nth_error_slice by auto. reflexivity.
    + intros x _ HX. destruct BX as (y & HY & LY). rewrite HX in HY. inversion HY; subst. rewrite LY. reflexivity.
  - rewrite Forall_map in LT. cbn [orb].
    assert (BT : i + 1 - b0 = T \/ b0 = 0) by (unfold b0; lia).
    destruct (b0 =? 0) eqn:B0.
    + apply Nat.eqb_eq in B0. exists b0, (zero :: map s_action (slice b0 i data)). cbn [orb]. split; auto.
      repeat split; try (unfold b0 in *; lia); auto.
      * simpl. rewrite map_length, SL. unfold b0 in *; lia.
      * intros q Hq. simpl. rewrite nth_error_map, nth_error_slice by auto. reflexivity.
    + apply Nat.eqb_neq in B0. destruct (nth_error data (b0 - 1)) as [x|] eqn:NX.
      2:{ apply nth_error_None in NX. unfold b0 in *. lia. }
      cbn [orb]. destruct (s_last x) eqn:LX.
      * exists b0, (zero :: map s_action (slice b0 i data)). split; auto.
        repeat split; try (unfold b0 in *; lia); auto.
        -- simpl. rewrite map_length, SL. unfold b0 in *; lia.
        -- intros q Hq. simpl. rewrite nth_error_map, nth_error_slice by auto. reflexivity.
        -- intros y _ HY. rewrite NX in HY. inversion HY; subst. rewrite LX. reflexivity.
      * exists b0, (map s_action (slice (b0 - 1) i data)). split; auto.
        repeat split; try (unfold b0 in *; lia); auto.
        -- rewrite map_length, slice_length. unfold b0 in *; lia.
        -- intros q Hq. rewrite nth_error_map, nth_error_slice by lia.
           replace (b0 - 1 + S q) with (b0 + q) by lia. reflexivity.
        -- intros y _ HY. rewrite NX in HY. inversion HY; subst y. rewrite LX.
           pose proof (nth_error_map s_action 0 (slice (b0 - 1) i data)) as E.
           rewrite nth_error_slice in E by (unfold b0 in *; lia). rewrite Nat.add_0_r, NX in E.
           destruct (map s_action (slice (b0 - 1) i data)); simpl in *; congruence.
Qed.

(** As long as the memory has not wrapped, its rows are the whole history in time
    order, so the sequence is a contiguous piece of the history ending at the
    sampled transition. *)
Theorem sequence_history_partial : forall ini mx (ops : list (op St Ac Ps)) m zero T i,
  1 <= mx -> Forall ReplayProps.op_ok ops -> run_ops (mem_init ini mx) ops = Some m ->
  m_full m = false -> 1 <= T -> i < size m ->
  exists b prev, seq_get (m_data m) zero T i = Some (slice b (i + 1) (lastn mx (spec_ops [] ops)), prev) /\
    b <= i /\ i + 1 - b <= T /\ Forall (fun x => s_last x = false) (slice b i (lastn mx (spec_ops [] ops))) /\
    m_data m = lastn mx (spec_ops [] ops).
Proof.
  intros ini mx ops m zero T i Hm F HR NF HT Hi.
  destruct (replay_is_bounded_fifo St Ac Ps ini mx ops Hm F) as (m' & A & B & C & D & _).
  rewrite HR in A. inversion A; subst m'.
  assert (E : m_data m = lastn mx (spec_ops [] ops)) by (rewrite <- B; unfold chronological; rewrite NF; auto).
  destruct (sequence_window (m_data m) zero T i HT ltac:(lia)) as (b & prev & G & H1 & H2 & H3 & _).
  exists b, prev. rewrite <- E. auto.
Qed.

(** After wrapping, this still holds for windows that do not contain the write
    position. *)
Theorem sequence_wrapped_partial : forall (m : memory St Ac Ps) zero T i w prev,
  m_full m = true -> seq_get (m_data m) zero T i = Some (w, prev) ->
  i < m_idx m \/ m_idx m <= fst (seq_begin (m_data m) T i) ->
  exists pre post, chronological m = pre ++ w ++ post.
Proof.
  intros m zero T i w prev FU H HC. unfold seq_get in H. destruct (i <? length (m_data m)) eqn:E; [|discriminate].
  destruct (seq_begin (m_data m) T i) as [b more]. simpl in HC. inversion H; subst. unfold chronological. rewrite FU.
  set (d := m_data m) in *. set (x := m_idx m) in *.
  assert (SP : forall (l : list sample) a c, exists p q, l = p ++ slice a c l ++ q).
  { intros l a c. exists (firstn a l), (skipn (c - a) (skipn a l)). unfold slice. rewrite firstn_skipn, firstn_skipn. reflexivity. }
  destruct HC as [HC|HC].
  - assert (Q : slice b (i + 1) d = slice b (i + 1) (firstn x d)).
    { unfold slice. rewrite skipn_firstn_comm, firstn_firstn. f_equal. lia. }
    rewrite Q. destruct (SP (firstn x d) b (i + 1)) as (p & q & E2). exists (skipn x d ++ p), q.
    rewrite <- app_assoc. f_equal. exact E2.
  - assert (Q : slice b (i + 1) d = slice (b - x) (i + 1 - x) (skipn x d)).
    { unfold slice. rewrite skipn_skipn'. f_equal; [lia|f_equal; lia]. }
    rewrite Q. destruct (SP (skipn x d) (b - x) (i + 1 - x)) as (p & q & E2). exists p, (q ++ firstn x d).
    rewrite E2 at 1. rewrite <- !app_assoc. reflexivity.
Qed.

(** After wrapping, a window across the write position glues the newest
    transition in front of the oldest one: for all four samples of one episode,
    capacity 3, sequences of length 2. *)
Theorem sequence_wrap_refuted : forall (a b c d : sample) zero,
  Forall (fun x => s_last x = false) [a; b; c; d] ->
  exists m, run_ops (mem_init 0 3) [OpAdd _ _ _ [a; b; c; d] 1 1%R] = Some m /\
    chronological m = [b; c; d] /\ 
    exists prev, seq_get (m_data m) zero 2 1 = Some ([d; b], prev).
Proof.
  intros a b c d zero F.
  assert (La : s_last a = false) by (inversion F; auto).
  assert (Ld : s_last d = false).
  { rewrite Forall_forall in F. apply F. simpl; auto. }
  destruct a as [a1 a2 a3 a4 a5 a6 a7 a8], b as [b1 b2 b3 b4 b5 b6 b7 b8],
           c as [c1 c2 c3 c4 c5 c6 c7 c8], d as [d1 d2 d3 d4 d5 d6 d7 d8]. simpl in La, Ld. subst.
  eexists. split; [reflexivity|]. split; [reflexivity|]. eexists. reflexivity.
Qed.

Lemma write_rows_spec : forall X T (z : X) l r, write_rows T z l = Some r ->
  length r = T /\ forall k, k < T -> nth_error r k = Some (nth k l z).
Proof.
  intros X T z l r H. unfold write_rows in H. destruct (length l <=? T) eqn:E; [|discriminate].
  apply Nat.leb_le in E. inversion H; subst. split; [rewrite app_length, repeat_length; lia|].
  intros k Hk. destruct (Nat.lt_ge_cases k (length l)).
  - rewrite nth_error_app1 by auto. apply List.nth_error_nth'. auto.
  - rewrite nth_error_app2, nth_overflow by auto.
    erewrite List.nth_error_nth' by (rewrite repeat_length; lia). f_equal.
    apply nth_repeat.
Qed.

Lemma write_rows_ok : forall X T (z : X) l, length l <= T -> exists r, write_rows T z l = Some r.
Proof. intros X T z l H. unfold write_rows. rewrite (proj2 (Nat.leb_le _ _)) by auto. eauto. Qed.

(** The arrays of one drawn row [i]: all have [T] entries; entry [k] is the field of row
    [i + 1 - len + k] for [k < len] and zero afterwards (padding behind the sequence), with
    one length for all the arrays; reward and flags are those of the drawn row, which is the
    last row of its sequence. *)
Theorem sequence_arrays : forall (data : list sample) zs za zp T i, 1 <= T -> i < length data ->
  exists e, seq_entry_of data zs za zp T i = Some e /\
    1 <= q_len e /\ q_len e <= T /\ q_len e <= i + 1 /\
    length (q_state e) = T /\ length (q_action e) = T /\ length (q_next e) = T /\
    length (q_ps e) = T /\ length (q_nps e) = T /\ length (q_prev e) = T /\
    (forall k x, k < q_len e -> nth_error data (i + 1 - q_len e + k) = Some x ->
       nth_error (q_state e) k = Some (s_state x) /\ nth_error (q_action e) k = Some (s_action x) /\
       nth_error (q_next e) k = Some (s_next x) /\ nth_error (q_ps e) k = Some (s_ps x) /\
       nth_error (q_nps e) k = Some (s_pns x) /\
       (S k < q_len e -> s_last x = false /\ nth_error (q_prev e) (S k) = Some (s_action x))) /\
    (forall k, q_len e <= k < T ->
       nth_error (q_state e) k = Some zs /\ nth_error (q_action e) k = Some za /\
       nth_error (q_next e) k = Some zs /\ nth_error (q_ps e) k = Some zp /\
       nth_error (q_nps e) k = Some zp /\ nth_error (q_prev e) k = Some za) /\
    exists x, nth_error data i = Some x /\ q_reward e = s_reward x /\ q_abs e = s_absorbing x /\
      q_last e = s_last x /\ nth_error (q_state e) (q_len e - 1) = Some (s_state x).
Proof.
  intros data zs za zp T i HT Hi.
  destruct (sequence_window data za T i HT Hi) as (b & prev & G & Hb & HbT & FL & _ & LP & PA & _).
  destruct (nth_error data i) as [x|] eqn:NX; [|apply nth_error_None in NX; lia].
  unfold seq_entry_of. rewrite NX, G. cbn [obind fst snd].
  set (w := slice b (i + 1) data).
  assert (LW : length w = i + 1 - b) by (unfold w; rewrite slice_length; lia).
  assert (NW : forall k, k < length w -> nth_error w k = nth_error data (b + k))
    by (intros k Hk; unfold w; apply nth_error_slice; lia).
  destruct (write_rows_ok _ T zs (map s_state w)) as [s Es]; [rewrite map_length; lia|].
  destruct (write_rows_ok _ T zs (map s_next w)) as [ss Ess]; [rewrite map_length; lia|].
  destruct (write_rows_ok _ T za (map s_action w)) as [a Ea]; [rewrite map_length; lia|].
  destruct (write_rows_ok _ T zp (map s_ps w)) as [ps Eps]; [rewrite map_length; lia|].
  destruct (write_rows_ok _ T zp (map s_pns w)) as [nps Enps]; [rewrite map_length; lia|].
  destruct (write_rows_ok _ T za prev) as [pa Epa]; [lia|].
  rewrite Es, Ess, Ea, Eps, Enps, Epa. cbn [obind]. eexists. split; [reflexivity|].
  cbn [q_state q_action q_reward q_next q_abs q_last q_ps q_nps q_prev q_len]. rewrite LW.
  apply write_rows_spec in Es, Ess, Ea, Eps, Enps, Epa.
  destruct Es as [L1 N1], Ess as [L2 N2], Ea as [L3 N3], Eps as [L4 N4], Enps as [L5 N5], Epa as [L6 N6].
  assert (V : forall k y, k < i + 1 - b -> nth_error data (b + k) = Some y -> nth_error w k = Some y)
    by (intros k y Hk Hy; rewrite NW by lia; auto).
  assert (M : forall Y (f : sample -> Y) z k y, nth_error w k = Some y -> nth k (map f w) z = f y).
  { intros Y f z k y Hy. apply nth_error_nth. rewrite nth_error_map, Hy. reflexivity. }
  repeat split; try lia; auto.
  - rewrite N1 by lia. f_equal. apply M, V; auto. rewrite <- H0. f_equal. lia.
  - rewrite N3 by lia. f_equal. apply M, V; auto. rewrite <- H0. f_equal. lia.
  - rewrite N2 by lia. f_equal. apply M, V; auto. rewrite <- H0. f_equal. lia.
  - rewrite N4 by lia. f_equal. apply M, V; auto. rewrite <- H0. f_equal. lia.
  - rewrite N5 by lia. f_equal. apply M, V; auto. rewrite <- H0. f_equal. lia.
  - assert (NB : nth_error (slice b i data) k = Some x0).
    { rewrite nth_error_slice by lia. rewrite <- H0. f_equal. lia. }
    rewrite Forall_forall in FL. apply FL. eapply nth_error_In; eauto.
  - rewrite N6 by lia. f_equal. apply nth_error_nth. rewrite PA by lia.
    replace (b + k) with (i + 1 - (i + 1 - b) + k) by lia. rewrite H0. reflexivity.
  - rewrite N1 by lia. f_equal. apply nth_overflow. rewrite map_length. lia.
  - rewrite N3 by lia. f_equal. apply nth_overflow. rewrite map_length. lia.
  - rewrite N2 by lia. f_equal. apply nth_overflow. rewrite map_length. lia.
  - rewrite N4 by lia. f_equal. apply nth_overflow. rewrite map_length. lia.
  - rewrite N5 by lia. f_equal. apply nth_overflow. rewrite map_length. lia.
  - rewrite N6 by lia. f_equal. apply nth_overflow. lia.
  - exists x. repeat split; auto. rewrite N1 by lia. f_equal. apply M. rewrite NW by lia.
    replace (b + (i + 1 - b - 1)) with i by lia. auto.
Qed.

(** A call of get with any drawn indices inside the memory returns one entry per drawn index,
    in the order of the draws. *)
Theorem sequence_batch : forall (data : list sample) zs za zp T idx, 1 <= T ->
  Forall (fun i => i < length data) idx ->
  exists l, seq_batch data zs za zp T idx = Some l /\ length l = length idx /\
    forall n i, nth_error idx n = Some i -> nth_error l n = seq_entry_of data zs za zp T i.
Proof.
  intros data zs za zp T idx HT F. induction F as [|i idx Hi F IH].
  - exists []. repeat split; auto. intros [|n]; discriminate.
  - destruct IH as (l & E & L & N). destruct (sequence_arrays data zs za zp T i HT Hi) as (e & Ee & _).
    exists (e :: l). cbn [seq_batch fold_right]. unfold seq_batch in E. rewrite Ee. cbn [obind]. rewrite E. cbn [obind].
    split; auto. split; [simpl; lia|]. intros [|n] j H; simpl in H |- *.
    + injection H as <-. auto.
    + auto.
Qed.
End Seq.

Example per_demo_weights : In 1%R (is_weights 4 10 (1/2) [1; 3]%R).
Proof. apply (per_weights_normalised 4 10 (1/2) [1; 3]%R). discriminate. Qed.

Example update_demo : exists t, update [6; 3; 3; 1; 2; 2; 1]%R [4] [5%R] = Some t /\
  at_ t 4 = 5%R /\ at_ t 0 = 9%R /\ at_ t 3 = 1%R.
Proof.
  destruct (sumtree_update_one_leaf 4 [6; 3; 3; 1; 2; 2; 1]%R 4 5) as (t & A & _ & B & C & D); try lia.
  - apply sumtree_mass_with_ties_refuted.
  - exists t. repeat split; auto.
    + rewrite D. unfold at_; simpl. lra.
    + rewrite C by lia. reflexivity.
Qed.

(** Rows of two episodes (the first ends at row 1); sequences of length 3. *)
Definition demo_row (s a : nat) (l : bool) : sample nat nat unit := mkSample s a 0%R s false l tt tt.
Definition demo_rows := [demo_row 10 1 false; demo_row 11 2 true; demo_row 12 3 false; demo_row 13 4 false; demo_row 14 5 false].
Example seq_demo1 : option_map (fun r => (map s_state (fst r), snd r)) (seq_get demo_rows 0 3 3) = Some ([12; 13], [0; 3]).
Proof. reflexivity. Qed.
Example seq_demo2 : option_map (fun r => (map s_state (fst r), snd r)) (seq_get demo_rows 0 2 4) = Some ([13; 14], [3; 4]).
Proof. reflexivity. Qed.

Example seq_batch_demo : option_map (map (fun e => (q_state e, q_prev e, q_len e, q_last e)))
  (seq_batch demo_rows 0 0 tt 3 [3; 1]) = Some [([12; 13; 0], [0; 3; 0], 2, false); ([10; 11; 0], [0; 1; 0], 2, true)].
Proof. reflexivity. Qed.

Example order_demo : leaf_order 5 = [7; 8; 4; 5; 6].
Proof. reflexivity. Qed.

Print Assumptions sumtree_nodes_are_sums.
Print Assumptions sumtree_update_one_leaf.
Print Assumptions sumtree_leaf_of_row.
Print Assumptions sumtree_add_stores_like_replay.
Print Assumptions sumtree_single_leaf_refuted.
Print Assumptions sumtree_order_complete.
Print Assumptions sumtree_retrieve_mass_partial.
Print Assumptions sumtree_retrieve_is_leaf.
Print Assumptions sumtree_priorities_mark_rows.
Print Assumptions sumtree_get_returns_stored_partial.
Print Assumptions sumtree_get_unwritten_refuted.
Print Assumptions sumtree_mass_with_ties_refuted.
Print Assumptions sumtree_proportional_partial.
Print Assumptions sumtree_proportional_with_ties_refuted.
Print Assumptions per_weights_normalised.
Print Assumptions per_weights_antitone.
Print Assumptions per_priority_positive.
Print Assumptions per_max_priority.
Print Assumptions sequence_window.
Print Assumptions sequence_history_partial.
Print Assumptions sequence_wrapped_partial.
Print Assumptions sequence_wrap_refuted.
Print Assumptions sequence_arrays.
Print Assumptions sequence_batch.

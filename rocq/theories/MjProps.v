(** Theorems about the MuJoCo environments (C87). *)
From Coq Require Import List Arith ZArith Lia Reals Lra Bool.
From Verif Require Import Common MjModel MjProofs.
Import ListNotations.
Local Open Scope nat_scope.

(** * The layout of observations *)
(** The limits an entry of the specification should have: the range of a limited joint, the next maximal velocity for a joint velocity, infinity. *)
Fixpoint entry_limits (spec : list entry) (vmax : option (list R)) : option (list (option R * option R)) :=
  match spec with
  | [] => Some []
  | e :: r =>
      match e_type e, Nat.eqb (e_width e) 1, vmax with
      | JointPos rg, true, _ => option_map (cons (option_map fst rg, option_map snd rg)) (entry_limits r vmax)
      | JointVel, true, Some (v :: vs) => option_map (cons (Some (- v)%R, Some v)) (entry_limits r (Some vs))
      | JointVel, true, Some [] => None
      | _, _, _ => option_map (cons (None, None)) (entry_limits r vmax)
      end
  end.
Definition is_jp (e : entry) : bool := match e_type e with JointPos _ => Nat.eqb (e_width e) 1 | _ => false end.
Definition is_jv (e : entry) : bool := match e_type e with JointVel => Nat.eqb (e_width e) 1 | _ => false end.
Definition tag (e : entry) : nat := if is_jp e then 1 else if is_jv e then 2 else 0.

(** The helpers a user can arrive at: removing components that were not removed before, keeping at least one of each
    entry, and adding new keys, in any order. *)
Inductive used (spec : list entry) (vmax : option (list R)) : helper -> list (nat * nat * (option R * option R)) -> Prop :=
| used_init : forall h, helper_init spec vmax = Some h -> used spec vmax h []
| used_remove : forall h adds e i h', used spec vmax h adds -> In e spec -> i < e_width e -> ~ In i (omit_of h (e_key e)) ->
    length (omit_of h (e_key e)) + 1 < e_width e -> remove_obs h (e_key e) i = Some h' -> used spec vmax h' adds
| used_add : forall h adds k n lo hi, used spec vmax h adds -> ~ In k (map fst (h_idx h)) -> 1 <= n ->
    used spec vmax (add_obs h k n lo hi) (adds ++ [(k, n, (lo, hi))]).

Definition spec_blk (h : helper) (el : entry * (option R * option R)) : blk :=
  mkB (e_key (fst el)) (e_width (fst el) - length (omit_of h (e_key (fst el)))) (snd el) (tag (fst el)).
Definition add_blk (a : nat * nat * (option R * option R)) : blk := mkB (fst (fst a)) (snd (fst a)) (snd a) 0.
Definition inv (spec : list entry) (vmax : option (list R)) (h : helper) adds lims : Prop :=
  entry_limits spec vmax = Some lims /\ length lims = length spec /\
  blocks h (map (spec_blk h) (combine spec lims) ++ map add_blk adds) /\
  map fst (h_omit h) = map e_key spec /\ 
  (forall e, In e spec -> NoDup (omit_of h (e_key e)) /\ Forall (fun i => i < e_width e) (omit_of h (e_key e)) /\ length (omit_of h (e_key e)) < e_width e) /\
  Forall (fun a => 1 <= snd (fst a)) adds.

Lemma omit_of_none : forall om k, (forall k' l, In (k', l) om -> l = []) -> match assoc om k with Some l => l | None => [] end = ([] : list nat).
Proof. intros om k H. destruct (assoc om k) as [l|] eqn:E; [|reflexivity]. apply assoc_some_in in E. apply (H k l E). Qed.

Lemma starts_snoc : forall t B b, starts t 0 (B ++ [b]) = starts t 0 B ++ (if Nat.eqb (b_tag b) t then [width B] else []).
Proof. intros. rewrite starts_app. simpl. rewrite app_nil_r. reflexivity. Qed.
Lemma lows_snoc : forall B b, lows (B ++ [b]) = lows B ++ repeat (fst (b_lim b)) (b_w b).
Proof. intros. unfold lows. rewrite map_app, concat_app. simpl. rewrite app_nil_r. reflexivity. Qed.
Lemma highs_snoc : forall B b, highs (B ++ [b]) = highs B ++ repeat (snd (b_lim b)) (b_w b).
Proof. intros. unfold highs. rewrite map_app, concat_app. simpl. rewrite app_nil_r. reflexivity. Qed.

Lemma mem_key_spec : forall {V} (l : list (nat * V)) k, mem_key l k = false <-> ~ In k (map fst l).
Proof.
  intros V l k. unfold mem_key. split.
  - intros H I1. destruct (assoc l k) eqn:E; [discriminate|]. clear H. induction l as [|[k' v] l IH]; simpl in *; [exact I1|].
    destruct (Nat.eqb_spec k' k); [discriminate|]. destruct I1 as [I1|I1]; [congruence|]. apply IH; assumption.
  - intros H. rewrite assoc_none by exact H. reflexivity.
Qed.

Lemma blocks_snoc : forall h B k n lim t om, blocks h B -> ~ In k (map fst (h_idx h)) ->
  blocks (mkH (h_low h ++ repeat (fst lim) n) (h_high h ++ repeat (snd lim) n)
     (h_jp h ++ (if Nat.eqb t 1 then [width B] else [])) (h_jv h ++ (if Nat.eqb t 2 then [width B] else [])) (h_idx h ++ [(k, seq (width B) n)]) om) (B ++ [mkB k n lim t]).
Proof.
  intros h B k n lim t om (E1 & E2 & E3 & E4 & E5 & ND) NI. unfold blocks. cbn [h_idx h_low h_high h_jp h_jv].
  rewrite idx_of_app, lows_snoc, highs_snoc, !starts_snoc. simpl. rewrite E1, E2, E3, E4, E5. repeat split.
  rewrite map_app. simpl. rewrite E1, map_fst_idx in NI.
  rewrite <- (rev_involutive (map b_key B ++ [k])), rev_app_distr. apply NoDup_rev. simpl. constructor; [rewrite <- in_rev; exact NI|apply NoDup_rev; exact ND].
Qed.

Definition full_blk (el : entry * (option R * option R)) : blk := mkB (e_key (fst el)) (e_width (fst el)) (snd el) (tag (fst el)).
Lemma helper_loop_blocks : forall spec vmax B h h', blocks h B -> (forall k l, In (k, l) (h_omit h) -> l = []) ->
  helper_loop spec vmax (width B) h = Some h' ->
  exists lims, entry_limits spec vmax = Some lims /\ length lims = length spec /\ blocks h' (B ++ map full_blk (combine spec lims)) /\
    map fst (h_omit h') = map fst (h_omit h) ++ map e_key spec /\ (forall k l, In (k, l) (h_omit h') -> l = []).
Proof.
  induction spec as [|e spec IH]; intros vmax B h h' HB HO E.
  - simpl in E. inversion E; subst. exists []. simpl. rewrite !app_nil_r. auto.
  - simpl in E. destruct (mem_key (h_idx h) (e_key e)) eqn:M; [discriminate|]. apply mem_key_spec in M.
    assert (STEP : forall lim t vm h1, tag e = t ->
       h_low h1 = h_low h ++ repeat (fst lim) (e_width e) -> h_high h1 = h_high h ++ repeat (snd lim) (e_width e) ->
       h_jp h1 = h_jp h ++ (if Nat.eqb t 1 then [width B] else []) -> h_jv h1 = h_jv h ++ (if Nat.eqb t 2 then [width B] else []) ->
       h_idx h1 = h_idx h ++ [(e_key e, seq (width B) (e_width e))] -> h_omit h1 = h_omit h ++ [(e_key e, [])] ->
       helper_loop spec vm (width B + e_width e) h1 = Some h' ->
       (forall ls, entry_limits spec vm = Some ls -> entry_limits (e :: spec) vmax = Some (lim :: ls)) ->
       exists lims, entry_limits (e :: spec) vmax = Some lims /\ length lims = S (length spec) /\ blocks h' (B ++ map full_blk (combine (e :: spec) lims)) /\
         map fst (h_omit h') = map fst (h_omit h) ++ e_key e :: map e_key spec /\ (forall k l, In (k, l) (h_omit h') -> l = [])).
    { intros lim t vm [l1 l2 l3 l4 l5 l6] Ht A1 A2 A3 A4 A5 A6 R L. cbn [h_low h_high h_jp h_jv h_idx h_omit] in *. subst l1 l2 l3 l4 l5 l6.
      pose proof (blocks_snoc h B (e_key e) (e_width e) lim t (h_omit h ++ [(e_key e, [])]) HB M) as HB1.
      replace (width B + e_width e) with (width (B ++ [mkB (e_key e) (e_width e) lim t])) in R by (rewrite width_app; simpl; lia).
      apply (IH vm (B ++ [mkB (e_key e) (e_width e) lim t])) in R; [|exact HB1|].
      - destruct R as (ls & R1 & R2 & R3 & R4 & R5). exists (lim :: ls). split; [apply L; exact R1|]. split; [simpl; congruence|]. split; [|split].
        + simpl. unfold full_blk at 1. cbn [fst snd]. rewrite Ht. rewrite <- app_assoc in R3. exact R3.
        + cbn [h_omit] in R4. rewrite map_app in R4. simpl in R4. rewrite <- app_assoc in R4. exact R4.
        + exact R5.
      - intros k l I1. cbn [h_omit] in I1. apply in_app_or in I1. destruct I1 as [I1|[I1|[]]]; [apply (HO k l I1)|inversion I1; reflexivity]. }
    simpl length. 
    assert (TG : tag e = match e_type e, Nat.eqb (e_width e) 1 with JointPos _, true => 1 | JointVel, true => 2 | _, _ => 0 end).
    { unfold tag, is_jp, is_jv. destruct (e_type e), (Nat.eqb (e_width e) 1); reflexivity. }
    cbn [entry_limits] in *.
    destruct (e_type e) as [rg| |] eqn:T; destruct (Nat.eqb_spec (e_width e) 1) as [W|W]; rewrite ?W in *.
    + eapply (STEP (option_map fst rg, option_map snd rg) 1 vmax); try exact E; try exact TG; cbn [h_low h_high h_jp h_jv h_idx h_omit]; simpl; rewrite ?app_nil_r; try reflexivity.
      intros ls Q. rewrite Q. reflexivity.
    + eapply (STEP (None, None) 0 vmax); try exact E; try exact TG; cbn [h_low h_high h_jp h_jv h_idx h_omit]; simpl; rewrite ?app_nil_r; try reflexivity.
      intros ls Q. rewrite Q. reflexivity.
    + destruct vmax as [[|v vs]|]; [discriminate| |].
      * eapply (STEP (Some (- v)%R, Some v) 2 (Some vs)); try exact E; try exact TG; cbn [h_low h_high h_jp h_jv h_idx h_omit]; simpl; rewrite ?app_nil_r; try reflexivity.
        intros ls Q. rewrite Q. reflexivity.
      * eapply (STEP (None, None) 2 None); try exact E; try exact TG; cbn [h_low h_high h_jp h_jv h_idx h_omit]; simpl; rewrite ?app_nil_r; try reflexivity.
        intros ls Q. rewrite Q. reflexivity.
    + eapply (STEP (None, None) 0 vmax); try exact E; try exact TG; cbn [h_low h_high h_jp h_jv h_idx h_omit]; simpl; rewrite ?app_nil_r; try reflexivity.
      intros ls Q. rewrite Q. reflexivity.
    + eapply (STEP (None, None) 0 vmax); try exact E; try exact TG; cbn [h_low h_high h_jp h_jv h_idx h_omit]; simpl; rewrite ?app_nil_r; try reflexivity.
      intros ls Q. rewrite Q. reflexivity.
    + eapply (STEP (None, None) 0 vmax); try exact E; try exact TG; cbn [h_low h_high h_jp h_jv h_idx h_omit]; simpl; rewrite ?app_nil_r; try reflexivity.
      intros ls Q. rewrite Q. reflexivity.
Qed.
Lemma spec_keys : forall h spec (lims : list (option R * option R)), length lims = length spec -> map b_key (map (spec_blk h) (combine spec lims)) = map e_key spec.
Proof. intros h spec. induction spec as [|e spec IH]; intros [|l lims] L; simpl in *; try discriminate; [reflexivity|]. rewrite IH by lia. reflexivity. Qed.
Lemma assoc_omit_upd : forall om k i k', In k (map fst om) -> NoDup (map fst om) ->
  match assoc (upd_key k (fun l => l ++ [i]) om) k' with Some l => l | None => [] end =
  (if Nat.eqb k' k then match assoc om k with Some l => l | None => [] end ++ [i] else match assoc om k' with Some l => l | None => ([] : list nat) end).
Proof.
  induction om as [|[k0 l] om IH]; intros k i k' Hin ND; simpl in *; [tauto|]. inversion ND; subst.
  destruct (Nat.eqb_spec k0 k) as [->|N].
  - simpl. destruct (Nat.eqb_spec k k') as [->|N']; [rewrite Nat.eqb_refl; reflexivity|].
    destruct (Nat.eqb_spec k' k); [congruence|]. rewrite upd_key_other by assumption. reflexivity.
  - destruct Hin as [Hin|Hin]; [congruence|]. simpl. destruct (Nat.eqb_spec k0 k') as [->|N'].
    + destruct (Nat.eqb_spec k' k); [congruence|]. reflexivity.
    + rewrite IH by assumption. reflexivity.
Qed.
Lemma upd_key_keys : forall {V} k (f : V -> V) l, map fst (upd_key k f l) = map fst l.
Proof. intros V k f l. induction l as [|[k' v] l IH]; simpl; [reflexivity|]. destruct (Nat.eqb k' k); simpl; rewrite IH; reflexivity. Qed.
Lemma py_index_lt : forall i n p, py_index i n = Some p -> p < n.
Proof.
  intros i n p H. unfold py_index in H. destruct (Z.leb_spec 0 i), (Z.ltb_spec i (Z.of_nat n)); simpl in H; try (inversion H; subst; lia).
  - destruct (Z.ltb_spec i 0); simpl in H; [lia|discriminate].
  - destruct (Z.ltb_spec i 0); simpl in H; [|discriminate]. destruct (Z.leb_spec 0 (i + Z.of_nat n)); [|discriminate]. inversion H; subst. lia.
Qed.
Lemma combine_split_l : forall {A B} (l1 l2 : list A) (x : A) (m : list B), length m = length (l1 ++ x :: l2) ->
  exists m1 y m2, m = m1 ++ y :: m2 /\ length m1 = length l1 /\ length m2 = length l2 /\ combine (l1 ++ x :: l2) m = combine l1 m1 ++ (x, y) :: combine l2 m2.
Proof.
  induction l1 as [|a l1 IH]; intros l2 x m L; simpl in *.
  - destruct m as [|y m]; [discriminate|]. exists [], y, m. simpl in *. repeat split; auto; lia.
  - destruct m as [|y m]; [discriminate|]. destruct (IH l2 x m) as (m1 & z & m2 & -> & L1 & L2 & E); [simpl in L; lia|].
    exists (y :: m1), z, m2. simpl. rewrite E. repeat split; auto; lia.
Qed.

Lemma key_inj : forall spec x e, NoDup (map e_key spec) -> In x spec -> In e spec -> e_key x = e_key e -> x = e.
Proof.
  induction spec as [|y s IH]; intros x e ND Q Hin K; [destruct Q|]. simpl in ND. inversion ND; subst. destruct Q as [Q|Q], Hin as [Hin|Hin]; subst; auto.
  - exfalso. apply H1. rewrite K. apply in_map. exact Hin.
  - exfalso. apply H1. rewrite <- K. apply in_map. exact Q.
Qed.
Lemma used_inv : forall spec vmax h adds, Forall (fun e => 1 <= e_width e) spec -> used spec vmax h adds -> exists lims, inv spec vmax h adds lims.
Proof.
  intros spec vmax h adds W U. induction U as [h E|h adds e i h' U IH Hin Hi Hni Hl E|h adds k n lo hi U IH Hk Hn].
  - unfold helper_init in E. destruct spec as [|e0 spec0]; [discriminate|]. set (spec := e0 :: spec0) in *.
    apply (helper_loop_blocks spec vmax []) in E; [|repeat split; constructor|intros k l []].
    destruct E as (lims & E1 & E2 & E3 & E4 & E5). exists lims. simpl in E3, E4.
    assert (OM : forall k, omit_of h k = []) by (intros k; apply omit_of_none; exact E5).
    split; [exact E1|]. split; [exact E2|]. split; [|split; [exact E4|split; [|constructor]]].
    + rewrite app_nil_r. replace (map (spec_blk h) (combine spec lims)) with (map full_blk (combine spec lims)); [exact E3|].
      apply map_ext. intros [e l]. unfold full_blk, spec_blk. cbn [fst snd]. rewrite OM, Nat.sub_0_r. reflexivity.
    + intros e Hin. rewrite OM. rewrite Forall_forall in W. specialize (W e Hin). repeat split; [constructor|constructor|simpl; lia].
  - destruct IH as (lims & I1 & I2 & I3 & I4 & I5 & I6). exists lims.
    assert (ND : NoDup (map e_key spec)).
    { destruct I3 as (_ & _ & _ & _ & _ & ND). rewrite map_app, spec_keys in ND by exact I2. clear - ND. induction (map e_key spec) as [|x l IH]; [constructor|]. simpl in ND. inversion ND; subst.
      constructor; [|auto]. intros Q. apply H1. apply in_or_app. auto. }
    apply in_split in Hin. destruct Hin as (s1 & s2 & Es).
    destruct (combine_split_l s1 s2 e lims) as (l1 & le & l2 & -> & L1 & L2 & Ec); [rewrite <- Es; exact I2|].
    unfold remove_obs in E.
    set (B1 := map (spec_blk h) (combine s1 l1)). set (b := spec_blk h (e, le)). set (B2 := map (spec_blk h) (combine s2 l2) ++ map add_blk adds).
    assert (EB : map (spec_blk h) (combine spec (l1 ++ le :: l2)) ++ map add_blk adds = B1 ++ b :: B2) by (rewrite Es, Ec, map_app; simpl; rewrite <- app_assoc; reflexivity).
    rewrite EB in I3. pose proof I3 as I3'. destruct I3 as (J1 & J2 & J3 & J4 & J5 & J6).
    assert (NK1 : ~ In (b_key b) (map b_key B1)) by (rewrite map_app in J6; simpl in J6; apply NoDup_remove_2 in J6; intro Q; apply J6; apply in_or_app; auto).
    assert (AI : assoc (h_idx h) (e_key e) = Some (seq (width B1) (b_w b))).
    { rewrite J1, idx_of_app. cbn [idx_of]. change (e_key e) with (b_key b). rewrite assoc_app_in by (rewrite map_fst_idx; exact NK1). reflexivity. }
    rewrite AI in E. destruct (assoc (h_omit h) (e_key e)) as [om|] eqn:AO; [|discriminate].
    assert (Hom : omit_of h (e_key e) = om) by (unfold omit_of; rewrite AO; reflexivity).
    rewrite seq_length in E. destruct (py_index _ (b_w b)) as [p|] eqn:PI; [|discriminate]. apply py_index_lt in PI.
    assert (F : Forall (fun b => 1 <= b_w b) (B1 ++ b :: B2)).
    { rewrite <- EB. apply Forall_app. split.
      - apply Forall_map, Forall_forall. intros [x y] Q. apply in_combine_l in Q. cbn. specialize (I5 x Q). lia.
      - apply Forall_map. eapply Forall_impl; [|exact I6]. intros [[k n] l] Q. exact Q. }
    assert (Hin : In e spec) by (rewrite Es; apply in_elt).
    assert (OM : forall x, In x spec -> omit_of h' (e_key x) = if Nat.eqb (e_key x) (e_key e) then om ++ [i] else omit_of h (e_key x)).
    { intros x Q. inversion E; subst h'. unfold omit_of. cbn [h_omit]. rewrite assoc_omit_upd; [rewrite AO; reflexivity|rewrite I4; apply in_map; exact Hin|rewrite I4; exact ND]. }
    assert (KE : forall x, In x spec -> e_key x = e_key e -> x = e).
    { intros x Q K. apply (key_inj spec); assumption. }
    split; [exact I1|]. split; [exact I2|]. split; [|split; [|split; [|exact I6]]].
    + pose proof (remove_blocks h B1 b B2 p (upd_key (e_key e) (fun l => l ++ [i]) (h_omit h)) I3' F PI) as RB. cbv zeta in RB.
      match type of E with Some ?x = Some ?y => assert (Eh : x = y) by congruence end.
      replace (map (spec_blk h') (combine spec (l1 ++ le :: l2)) ++ map add_blk adds) with (B1 ++ mkB (b_key b) (b_w b - 1) (b_lim b) (b_tag b) :: B2); [rewrite <- Eh; exact RB|].
      rewrite Es, Ec, map_app. simpl. rewrite <- app_assoc. 
      assert (SAME : forall s (l : list (option R * option R)), (forall x, In x s -> In x spec /\ e_key x <> e_key e) -> map (spec_blk h) (combine s l) = map (spec_blk h') (combine s l)).
      { intros s l Q. apply map_ext_in. intros [x y] Z. apply in_combine_l in Z. destruct (Q x Z) as [Q1 Q2]. unfold spec_blk. cbn [fst snd].
        rewrite (OM x Q1). destruct (Nat.eqb_spec (e_key x) (e_key e)); [contradiction|]. reflexivity. }
      rewrite Es, map_app in ND. simpl in ND. apply NoDup_remove_2 in ND.
      unfold B1, B2. rewrite SAME, (SAME s2).
      * f_equal. simpl. f_equal. unfold b, spec_blk. cbn [fst snd b_key b_w b_lim b_tag]. f_equal. rewrite (OM e Hin), Nat.eqb_refl, Hom, app_length. simpl. lia.
      * intros x Q. split; [rewrite Es; apply in_or_app; right; right; exact Q|]. intros K. apply ND. apply in_or_app. right. rewrite <- K. apply in_map. exact Q.
      * intros x Q. split; [rewrite Es; apply in_or_app; left; exact Q|]. intros K. apply ND. apply in_or_app. left. rewrite <- K. apply in_map. exact Q.
    + inversion E; subst h'. cbn [h_omit]. rewrite upd_key_keys. exact I4.
    + intros x Q. rewrite (OM x Q). destruct (Nat.eqb_spec (e_key x) (e_key e)) as [K|K]; [|apply I5; exact Q].
      rewrite (KE x Q K) in *. destruct (I5 e Hin) as (Q1 & Q2 & Q3). rewrite Hom in *. split; [|split].
      * rewrite <- (rev_involutive (om ++ [i])), rev_app_distr. apply NoDup_rev. simpl. constructor; [rewrite <- in_rev; exact Hni|apply NoDup_rev; exact Q1].
      * apply Forall_app. split; [exact Q2|]. constructor; [exact Hi|constructor].
      * rewrite app_length. simpl. lia.
  - destruct IH as (lims & I1 & I2 & I3 & I4 & I5 & I6). exists lims. split; [exact I1|]. split; [exact I2|].
    split; [|split; [exact I4|split; [exact I5|apply Forall_app; split; [exact I6|constructor; [exact Hn|constructor]]]]].
    rewrite map_app, app_assoc. simpl. 
    pose proof (blocks_snoc h _ k n (lo, hi) 0 (h_omit h) I3 Hk) as BS. simpl in BS. rewrite !app_nil_r in BS.
    destruct I3 as (J1 & J2 & J3 & J4 & J5 & J6). rewrite <- lows_length, <- J2 in BS.
    unfold add_obs. rewrite (proj2 (mem_key_spec _ _) Hk). exact BS.
Qed.

Lemma np_delete_nil : forall {A} (l : list A), np_delete [] l = l.
Proof.
  intros A l. unfold np_delete. simpl. assert (G : forall a, map snd (filter (fun _ : nat * A => true) (combine (seq a (length l)) l)) = l).
  { induction l as [|x l IH]; intros a; simpl; [reflexivity|]. f_equal. apply IH. }
  apply G.
Qed.
Lemma parts_ok : forall spec h lims (adds : list (nat * nat * (option R * option R))) data extras, length lims = length spec ->
  (forall e, In e spec -> NoDup (omit_of h (e_key e)) /\ Forall (fun i => i < e_width e) (omit_of h (e_key e)) /\ length (omit_of h (e_key e)) < e_width e) ->
  Forall2 (fun e (d : list R) => length d = e_width e) spec data -> Forall2 (fun a (x : list R) => length x = snd (fst a)) adds extras ->
  Forall2 (fun b (p : list R) => length p = b_w b) (map (spec_blk h) (combine spec lims) ++ map add_blk adds)
    (map (fun ed => np_delete (omit_of h (e_key (fst ed))) (snd ed)) (combine spec data) ++ extras).
Proof.
  intros spec h lims adds data extras L O HD HX. apply Forall2_app.
  - revert lims L. induction HD as [|e d spec data Hd HD IH]; intros [|l lims] L; simpl in *; try discriminate; [constructor|].
    constructor; [|apply IH; [intros x Q; apply O; auto|lia]]. cbn [fst snd]. destruct (O e (or_introl eq_refl)) as (O1 & O2 & O3).
    rewrite np_delete_length; [simpl; lia|exact O1|rewrite Hd; exact O2].
  - induction HX as [|a x adds extras Ha HX IH]; simpl; constructor; auto.
Qed.

Lemma pick : forall t (f : entry -> bool) spec data lims h (adds : list (nat * nat * (option R * option R))) extras, 0 < t -> (forall e, Nat.eqb (tag e) t = f e) -> length lims = length spec -> length data = length spec ->
  (forall e d, In (e, d) (combine spec data) -> f e = true -> hd 0%R (np_delete (omit_of h (e_key e)) d) = hd 0%R d) ->
  map (fun bp => hd 0%R (snd bp)) (filter (fun bp => Nat.eqb (b_tag (fst bp)) t)
    (combine (map (spec_blk h) (combine spec lims) ++ map add_blk adds) (map (fun ed => np_delete (omit_of h (e_key (fst ed))) (snd ed)) (combine spec data) ++ extras))) =
  map (fun ed => hd 0%R (snd ed)) (filter (fun ed => f (fst ed)) (combine spec data)).
Proof.
  intros t f spec. induction spec as [|e spec IH]; intros data lims h adds extras Ht Hf L1 L2 H.
  - simpl. destruct t; [lia|]. clear. revert extras. induction adds as [|a adds IH]; intros [|x extras]; simpl; auto.
  - destruct lims as [|l lims]; [discriminate|]. destruct data as [|d data]; [discriminate|]. simpl in *. rewrite Hf.
    pose proof (H e d (or_introl eq_refl)) as He. destruct (f e); simpl; rewrite IH; try (auto; fail); try (f_equal; auto); try lia.
Qed.

(** Whatever was removed and added, the observation has the declared size, every key is found with exactly its remaining components, and
    the joint positions and velocities are those of the single joints of the specification, in its order. *)
Theorem mj_observation : forall spec vmax h adds data extras,
  Forall (fun e => 1 <= e_width e) spec -> used spec vmax h adds ->
  Forall2 (fun e (d : list R) => length d = e_width e) spec data -> Forall2 (fun a (x : list R) => length x = snd (fst a)) adds extras ->
  let obs := build_obs spec h data ++ concat extras in
  length obs = length (h_low h) /\ length obs = length (h_high h) /\
  (forall e d, In (e, d) (combine spec data) -> get_from_obs h obs (e_key e) = Some (np_delete (omit_of h (e_key e)) d)) /\
  (forall k n lim x, In (k, n, lim, x) (combine adds extras) -> get_from_obs h obs k = Some x) /\
  joint_pos h obs = map (fun ed => hd 0%R (snd ed)) (filter (fun ed => is_jp (fst ed)) (combine spec data)) /\
  joint_vel h obs = map (fun ed => hd 0%R (snd ed)) (filter (fun ed => is_jv (fst ed)) (combine spec data)).
Proof.
  intros spec vmax h adds data extras W U HD HX obs. destruct (used_inv _ _ _ _ W U) as (lims & I1 & I2 & I3 & I4 & I5 & I6).
  set (parts := map (fun ed => np_delete (omit_of h (e_key (fst ed))) (snd ed)) (combine spec data)).
  assert (Eo : obs = concat (parts ++ extras)) by (unfold obs, build_obs; rewrite concat_app; reflexivity).
  set (B := map (spec_blk h) (combine spec lims) ++ map add_blk adds) in *.
  assert (P : Forall2 (fun b (p : list R) => length p = b_w b) B (parts ++ extras)) by (apply parts_ok; assumption).
  assert (F : Forall (fun b => 1 <= b_w b) B).
  { apply Forall_app. split.
    - apply Forall_map, Forall_forall. intros [x y] Q. apply in_combine_l in Q. cbn. specialize (I5 x Q). lia.
    - apply Forall_map. eapply Forall_impl; [|exact I6]. intros [[k n] l] Q. exact Q. }
  pose proof I3 as (J1 & J2 & J3 & J4 & J5 & J6).
  assert (LD : length data = length spec) by (clear - HD; induction HD; simpl; congruence).
  assert (LP : length parts = length spec) by (unfold parts; rewrite map_length, combine_length, LD; lia).
  assert (GET : forall B1 b B2 P1 p P2, B = B1 ++ b :: B2 -> parts ++ extras = P1 ++ p :: P2 -> length B1 = length P1 -> get_from_obs h obs (b_key b) = Some p).
  { intros B1 b B2 P1 p P2 EB EP L. rewrite Eo, EP. rewrite EB, EP in P. rewrite EB in I3, F.
    assert (G : forall (B1 : list blk) P1, length B1 = length P1 -> Forall2 (fun b (p : list R) => length p = b_w b) (B1 ++ b :: B2) (P1 ++ p :: P2) ->
        Forall2 (fun b (p : list R) => length p = b_w b) B1 P1 /\ length p = b_w b).
    { clear. induction B1 as [|b1 B1 IH]; intros [|p1 P1] L Q; simpl in *; try discriminate; inversion Q; subst; [split; [constructor|assumption]|].
      destruct (IH P1 ltac:(lia) H4) as [G1 G2]. split; [constructor; assumption|assumption]. }
    destruct (G B1 P1 L P) as [G1 G2]. eapply get_part; [exact I3|exact G1|exact G2|]. apply Forall_app in F. destruct F as [_ F]. inversion F; assumption. }
  assert (Hd : forall e d, In (e, d) (combine spec data) -> hd 0%R (np_delete (omit_of h (e_key e)) d) = hd 0%R d \/ e_width e <> 1).
  { intros e d Q. destruct (Nat.eq_dec (e_width e) 1) as [E1|E1]; [left|right; exact E1].
    destruct (I5 e (in_combine_l _ _ _ _ Q)) as (_ & _ & Q3). destruct (omit_of h (e_key e)); [rewrite np_delete_nil; reflexivity|simpl in Q3; lia]. }
  split; [rewrite Eo, (parts_length B _ P), J2, lows_length; reflexivity|]. split; [rewrite Eo, (parts_length B _ P), J3, highs_length; reflexivity|]. split; [|split; [|split]].
  - intros e d Q. destruct (in_split _ _ Q) as (c1 & c2 & Ec).
    assert (S1 : exists s1 s2 d1 d2, spec = s1 ++ e :: s2 /\ data = d1 ++ d :: d2 /\ length s1 = length d1 /\ c1 = combine s1 d1).
    { clear - Ec LD. revert spec data LD Ec. induction c1 as [|[a x] c1 IH]; intros [|a' spec] [|x' data] LD Ec; simpl in *; try discriminate.
      - inversion Ec; subst. exists [], spec, [], data. auto.
      - inversion Ec; subst. destruct (IH spec data ltac:(lia) H2) as (s1 & s2 & d1 & d2 & -> & -> & L & ->). exists (a :: s1), s2, (x :: d1), d2. simpl. auto. }
    destruct S1 as (s1 & s2 & d1 & d2 & -> & -> & L1 & ->).
    destruct (combine_split_l s1 s2 e lims I2) as (m1 & y & m2 & -> & L2 & L3 & Em).
    assert (Ep : combine (s1 ++ e :: s2) (d1 ++ d :: d2) = combine s1 d1 ++ (e, d) :: combine s2 d2).
    { clear - L1. revert d1 L1. induction s1; intros [|x d1] L; simpl in *; try discriminate; [reflexivity|]. rewrite IHs1 by lia. reflexivity. }
    apply (GET (map (spec_blk h) (combine s1 m1)) (spec_blk h (e, y)) (map (spec_blk h) (combine s2 m2) ++ map add_blk adds)
      (map (fun ed => np_delete (omit_of h (e_key (fst ed))) (snd ed)) (combine s1 d1)) (np_delete (omit_of h (e_key e)) d)
      (map (fun ed => np_delete (omit_of h (e_key (fst ed))) (snd ed)) (combine s2 d2) ++ extras)).
    + unfold B. rewrite Em, map_app. simpl. rewrite <- app_assoc. reflexivity.
    + unfold parts. rewrite Ep, map_app. simpl. rewrite <- app_assoc. reflexivity.
    + rewrite !map_length, !combine_length. lia.
  - intros k n lim x Q. destruct (in_split _ _ Q) as (c1 & c2 & Ec).
    assert (LX : length extras = length adds) by (clear - HX; induction HX; simpl; congruence).
    assert (S1 : exists s1 s2 d1 d2, adds = s1 ++ (k, n, lim) :: s2 /\ extras = d1 ++ x :: d2 /\ length s1 = length d1).
    { clear - Ec LX. revert adds extras LX Ec. induction c1 as [|[a z] c1 IH]; intros [|a' adds] [|x' extras] LD Ec; simpl in *; try discriminate.
      - inversion Ec; subst. exists [], adds, [], extras. auto.
      - inversion Ec; subst. destruct (IH adds extras ltac:(lia) H2) as (s1 & s2 & d1 & d2 & -> & -> & L). exists (a :: s1), s2, (z :: d1), d2. simpl. auto. }
    destruct S1 as (s1 & s2 & d1 & d2 & -> & -> & L1).
    change k with (b_key (add_blk (k, n, lim))).
    apply (GET (map (spec_blk h) (combine spec lims) ++ map add_blk s1) _ (map add_blk s2) (parts ++ d1) x d2).
    + unfold B. rewrite map_app. simpl. rewrite <- app_assoc. reflexivity.
    + rewrite <- app_assoc. reflexivity.
    + rewrite !app_length, !map_length, combine_length. lia.
  - unfold joint_pos. rewrite J4, Eo. pose proof (get_starts 1 B (parts ++ extras) [] P F) as G. simpl in G. rewrite G. clear G.
    apply (pick 1 is_jp); [lia|intros e; unfold tag; destruct (is_jp e), (is_jv e); reflexivity|exact I2|exact LD|].
    intros e d Q T. destruct (Hd e d Q) as [H|H]; [exact H|]. exfalso. unfold is_jp in T. destruct (e_type e); try discriminate. apply Nat.eqb_eq in T. contradiction.
  - unfold joint_vel. rewrite J5, Eo. pose proof (get_starts 2 B (parts ++ extras) [] P F) as G. simpl in G. rewrite G. clear G.
    apply (pick 2 is_jv); [lia| |exact I2|exact LD|].
    + intros e. unfold tag. destruct (is_jp e) eqn:E1, (is_jv e) eqn:E2; try reflexivity. unfold is_jp, is_jv in *. destruct (e_type e); discriminate.
    + intros e d Q T. destruct (Hd e d Q) as [H|H]; [exact H|]. exfalso. unfold is_jv in T. destruct (e_type e); try discriminate. apply Nat.eqb_eq in T. contradiction.
Qed.

Lemma nth_error_repeat' : forall (x : option R) n k, k < n -> nth_error (repeat x n) k = Some x.
Proof. intros x n; induction n; intros [|k] H; simpl; try lia; [reflexivity|apply IHn; lia]. Qed.
Lemma lows_nth : forall B1 b B2 i, width B1 <= i < width B1 + b_w b -> nth_error (lows (B1 ++ b :: B2)) i = Some (fst (b_lim b)).
Proof.
  intros B1 b B2 i H. pose proof (lows_length B1) as L. unfold lows in *. rewrite map_app, concat_app. simpl.
  rewrite nth_error_app2 by lia. rewrite nth_error_app1 by (rewrite repeat_length; lia). apply nth_error_repeat'. lia.
Qed.
Lemma highs_nth : forall B1 b B2 i, width B1 <= i < width B1 + b_w b -> nth_error (highs (B1 ++ b :: B2)) i = Some (snd (b_lim b)).
Proof.
  intros B1 b B2 i H. pose proof (highs_length B1) as L. unfold highs in *. rewrite map_app, concat_app. simpl.
  rewrite nth_error_app2 by lia. rewrite nth_error_app1 by (rewrite repeat_length; lia). apply nth_error_repeat'. lia.
Qed.
(** Every component of a key has the limits of its entry: the joint range, plus and minus the maximal velocity, or none. *)
Theorem mj_limits : forall spec vmax h adds, Forall (fun e => 1 <= e_width e) spec -> used spec vmax h adds ->
  exists lims, entry_limits spec vmax = Some lims /\ length lims = length spec /\
  forall e lim, In (e, lim) (combine spec lims) -> exists idx, assoc (h_idx h) (e_key e) = Some idx /\ length idx = e_width e - length (omit_of h (e_key e)) /\
    forall i, In i idx -> nth_error (h_low h) i = Some (fst lim) /\ nth_error (h_high h) i = Some (snd lim).
Proof.
  intros spec vmax h adds W U. destruct (used_inv _ _ _ _ W U) as (lims & I1 & I2 & I3 & I4 & I5 & I6). exists lims. split; [exact I1|]. split; [exact I2|].
  intros e lim Q. destruct (in_split _ _ Q) as (c1 & c2 & Ec). rewrite Ec, map_app in I3. simpl in I3. rewrite <- app_assoc in I3.
  set (B1 := map (spec_blk h) c1) in *. set (b := spec_blk h (e, lim)) in *. simpl in I3. set (B2 := map (spec_blk h) c2 ++ map add_blk adds) in *.
  destruct I3 as (J1 & J2 & J3 & _ & _ & J6).
  assert (NK1 : ~ In (b_key b) (map b_key B1)) by (rewrite map_app in J6; simpl in J6; apply NoDup_remove_2 in J6; intro Z; apply J6; apply in_or_app; auto).
  exists (seq (width B1) (b_w b)). split; [|split].
  - rewrite J1, idx_of_app. cbn [idx_of]. change (e_key e) with (b_key b). rewrite assoc_app_in by (rewrite map_fst_idx; exact NK1). reflexivity.
  - apply seq_length.
  - intros i Hi. apply in_seq in Hi. rewrite J2, J3. split; [rewrite lows_nth by lia|rewrite highs_nth by lia]; reflexivity.
Qed.

(** The index passed to remove_obs is always that of the original observation. It works exactly when twice the number of earlier removals is at most
    the index plus the original width: always when the indices are removed in increasing order, but not in every order. *)
Theorem remove_obs_order : forall spec vmax h adds e i, Forall (fun e => 1 <= e_width e) spec -> used spec vmax h adds -> In e spec -> i < e_width e ->
  (remove_obs h (e_key e) i <> None <-> 2 * length (omit_of h (e_key e)) <= i + e_width e) /\
  (Forall (fun j => j < i) (omit_of h (e_key e)) -> remove_obs h (e_key e) i <> None).
Proof.
  intros spec vmax h adds e i W U Hin Hi. destruct (mj_limits _ _ _ _ W U) as (lims & I1 & I2 & HL). destruct (used_inv _ _ _ _ W U) as (lims' & _ & _ & _ & I4 & I5 & _).
  destruct (In_nth_error _ _ Hin) as [n Hn]. destruct (nth_error lims n) as [lim|] eqn:Hm.
  2:{ apply nth_error_None in Hm. assert (n < length spec) by (apply nth_error_Some; congruence). lia. }
  assert (Q : In (e, lim) (combine spec lims)).
  { clear - Hn Hm. revert spec lims Hn Hm. induction n; intros [|a s] [|l ls] Hn Hm; simpl in *; try discriminate; [inversion Hn; inversion Hm; auto|right; auto]. }
  destruct (HL e lim Q) as (idx & A & L & _). destruct (I5 e Hin) as (O1 & O2 & O3).
  assert (AO : exists om, assoc (h_omit h) (e_key e) = Some om).
  { destruct (assoc (h_omit h) (e_key e)) eqn:E; [eauto|]. exfalso. assert (M : mem_key (h_omit h) (e_key e) = false) by (unfold mem_key; rewrite E; reflexivity).
    apply mem_key_spec in M. apply M. rewrite I4. apply in_map. exact Hin. }
  destruct AO as [om AO]. assert (Eo : omit_of h (e_key e) = om) by (unfold omit_of; rewrite AO; reflexivity). rewrite Eo in *.
  assert (C : remove_obs h (e_key e) i <> None <-> 2 * length om <= i + e_width e).
  { unfold remove_obs. rewrite A, AO. unfold py_index. rewrite L.
    destruct (Z.leb_spec 0 (Z.of_nat i - Z.of_nat (length om))), (Z.ltb_spec (Z.of_nat i - Z.of_nat (length om)) (Z.of_nat (e_width e - length om))); simpl;
    try (split; [intros; lia|discriminate]); try lia;
    destruct (Z.ltb_spec (Z.of_nat i - Z.of_nat (length om)) 0); simpl; try lia;
    destruct (Z.leb_spec 0 (Z.of_nat i - Z.of_nat (length om) + Z.of_nat (e_width e - length om))); simpl; split; intros; try lia; try discriminate; congruence. }
  split; [exact C|]. intros F. apply C.
  assert (length om <= i).
  { rewrite <- (seq_length i 0). apply NoDup_incl_length; [exact O1|]. intros x Hx. rewrite Forall_forall in F. specialize (F x Hx). apply in_seq. lia. }
  lia.
Qed.
(** Removing the components 5, 4, 3, 2 and then 0 of a body velocity raises, removing them as 0, 2, 3, 4, 5 does not. *)
Definition remove_all (h : option helper) (k : nat) (is : list nat) : option helper := fold_left (fun h i => match h with Some h => remove_obs h k i | None => None end) is h.
Theorem remove_obs_order_refuted : exists spec h, helper_init spec None = Some h /\ (exists h', remove_all (Some h) 1 [0; 2; 3; 4; 5] = Some h') /\
  (exists h', remove_all (Some h) 1 [5; 4; 3; 2] = Some h') /\ remove_all (Some h) 1 [5; 4; 3; 2; 0] = None.
Proof.
  exists [mkEntry 1 OtherType 6 false]. eexists. split; [reflexivity|]. split; [eexists; reflexivity|]. split; [eexists; reflexivity|reflexivity].
Qed.

(** * reset(obs) *)
Definition np_del (i : nat) (om : list nat) (l : list R) : list R := map snd (filter (fun p => negb (existsb (Nat.eqb (fst p)) om)) (combine (seq i (length l)) l)).
Lemma np_del_cons : forall i om x l, np_del i om (x :: l) = if existsb (Nat.eqb i) om then np_del (S i) om l else x :: np_del (S i) om l.
Proof. intros. unfold np_del. simpl. destruct (existsb (Nat.eqb i) om); reflexivity. Qed.
Lemma write_entry_spec : forall om cur i obs, 
  (length (np_del i om cur) <= length obs -> exists c, write_entry om i cur obs = Some (c, skipn (length (np_del i om cur)) obs) /\ length c = length cur /\
     np_del i om c = firstn (length (np_del i om cur)) obs /\ length (np_del i om c) = length (np_del i om cur) /\
     forall j, existsb (Nat.eqb (i + j)) om = true -> nth j c 0%R = nth j cur 0%R) /\
  (length obs < length (np_del i om cur) -> write_entry om i cur obs = None).
Proof.
  intros om. induction cur as [|x cur IH]; intros i obs.
  - split; simpl; [|intros; lia]. intros _. exists []. repeat split; auto.
  - rewrite np_del_cons. cbn [write_entry]. destruct (existsb (Nat.eqb i) om) eqn:E.
    + destruct (IH (S i) obs) as [I1 I2]. split.
      * intros L. destruct (I1 L) as (c & W & Lc & P & Q & K). exists (x :: c). rewrite W, np_del_cons, E. repeat split; auto; [simpl; lia|].
        intros [|j] Hj; [reflexivity|]. simpl. apply K. replace (S i + j) with (i + S j) by lia. exact Hj.
      * intros L. rewrite I2 by exact L. reflexivity.
    + destruct obs as [|y obs].
      * split; simpl; intros; [lia|reflexivity].
      * destruct (IH (S i) obs) as [I1 I2]. split.
        -- intros L. simpl in L. destruct I1 as (c & W & Lc & P & Q & K); [lia|]. exists (y :: c). rewrite W, np_del_cons, E. simpl. repeat split; auto.
           ++ f_equal. exact P.
           ++ intros [|j] Hj; [rewrite Nat.add_0_r in Hj; congruence|]. simpl. apply K. replace (S i + j) with (i + S j) by lia. exact Hj.
        -- intros L. simpl in L. rewrite I2 by lia. reflexivity.
Qed.
(** Resetting to an observation of the right length writes it: when no entry is computed by the simulator (body velocities are), the observation read back is the one
    given; removed components and computed entries keep the values of the simulator. An observation that is too short raises. *)
Theorem mj_reset_obs : forall spec h data obs, length data = length spec ->
  (length (build_obs spec h data) <= length obs -> exists data', modify_data spec h data obs = Some data' /\ length data' = length spec /\
    (Forall (fun e => e_view e = true) spec -> build_obs spec h data' = firstn (length (build_obs spec h data)) obs) /\
    (forall n e, nth_error spec n = Some e -> length (nth n data' []) = length (nth n data []) /\
       (e_view e = false -> nth n data' [] = nth n data []) /\
       forall j, In j (omit_of h (e_key e)) -> nth j (nth n data' []) 0%R = nth j (nth n data []) 0%R)) /\
  (length obs < length (build_obs spec h data) -> modify_data spec h data obs = None).
Proof.
  intros spec h. induction spec as [|e spec IH]; intros data obs L.
  - destruct data; [|discriminate]. simpl. split; [|intros; lia]. intros _. exists []. repeat split; auto; destruct n; discriminate.
  - destruct data as [|d data]; [discriminate|]. simpl in L.
    assert (EB : build_obs (e :: spec) h (d :: data) = np_del 0 (omit_of h (e_key e)) d ++ build_obs spec h data) by reflexivity.
    rewrite EB, app_length. destruct (write_entry_spec (omit_of h (e_key e)) d 0 obs) as [W1 W2]. set (om := omit_of h (e_key e)) in *.
    assert (LS : length (skipn (length (np_del 0 om d)) obs) = length obs - length (np_del 0 om d)) by apply skipn_length.
    destruct (IH data (skipn (length (np_del 0 om d)) obs)) as [I1 I2]; [lia|]. split.
    + intros H. destruct W1 as (c & W & Lc & P & Q & K); [lia|]. destruct I1 as (data' & M & Ld & R & S); [lia|].
      exists ((if e_view e then c else d) :: data'). cbn [modify_data]. fold om. rewrite W, M. repeat split.
      * simpl. lia.
      * intros F. inversion F as [|? ? V F']; subst. change (build_obs (e :: spec) h ((if e_view e then c else d) :: data')) with (np_del 0 om (if e_view e then c else d) ++ build_obs spec h data').
        rewrite V, P, (R F'). clear. set (a := length (np_del 0 om d)). set (m := length (build_obs spec h data)). revert obs. induction a; intros obs; [reflexivity|]. destruct obs; [simpl; destruct m; reflexivity|]. simpl. f_equal. apply IHa.
      * destruct n as [|n]; simpl in H0 |- *; [inversion H0; subst; destruct (e_view e0); auto|]. apply (S n e0 H0).
      * destruct n as [|n]; simpl in H0 |- *; [inversion H0; subst; intros V; rewrite V; reflexivity|]. apply (S n e0 H0).
      * destruct n as [|n]; simpl in H0 |- *; [|apply (S n e0 H0)]. inversion H0; subst. intros j Hj. destruct (e_view e0); [|reflexivity]. apply K. simpl. apply existsb_exists. exists j. split; [exact Hj|apply Nat.eqb_refl].
    + intros H. cbn [modify_data]. fold om. destruct (le_lt_dec (length (np_del 0 om d)) (length obs)) as [G|G].
      * destruct (W1 G) as (c & W & _). rewrite W. rewrite I2 by lia. reflexivity.
      * rewrite (W2 G). reflexivity.
Qed.

(** * The step *)
Section StepProps.
Context {D Ob A U : Type}.
Variable mj_step : D -> nat -> D.
Variable set_ctrl : D -> U -> D.
Variable observe : D -> Ob.
Variable preprocess : A -> A.
Variable compute : Ob -> A -> U.
Variable absorbing : Ob -> bool.
Variable reward : Ob -> A -> Ob -> bool -> R.
Variables (n_int n_sub : nat).
Notation step rc := (mj_env_step mj_step set_ctrl observe preprocess compute absorbing reward rc n_int n_sub).
Notation loop rc := (mj_loop mj_step set_ctrl observe compute rc n_sub).

Lemma loop_false : forall n d o a, loop false n false d o a = (Nat.iter n (fun d => mj_step d n_sub) d, o).
Proof.
  assert (I : forall n (f : D -> D) d, Nat.iter n f (f d) = f (Nat.iter n f d)) by (induction n; intros; simpl; [reflexivity|rewrite IHn; reflexivity]).
  induction n; intros d o a; [reflexivity|]. simpl. rewrite IHn. f_equal. apply (I n (fun d => mj_step d n_sub)).
Qed.
Lemma loop_true : forall n d fst a, loop true n fst d (observe d) a =
  (Nat.iter n (fun d => mj_step (set_ctrl d (compute (observe d) a)) n_sub) d, observe (Nat.iter n (fun d => mj_step (set_ctrl d (compute (observe d) a)) n_sub) d)).
Proof.
  assert (I : forall n (f : D -> D) d, Nat.iter n f (f d) = f (Nat.iter n f d)) by (induction n; intros; simpl; [reflexivity|rewrite IHn; reflexivity]).
  induction n; intros d fst a; [reflexivity|]. simpl. rewrite IHn. rewrite (I n (fun d => mj_step (set_ctrl d (compute (observe d) a)) n_sub)). reflexivity.
Qed.
(** One environment step is n_intermediate_steps simulator calls of n_substeps each. The control is written once, from the observation the agent saw,
    or, when _compute_action is overridden, before every call from the observation at that moment. The stored observation always is that of the
    simulator; reward and absorbing see the old and the new one. *)
Theorem mj_step_control : forall rc d a d' o' r ab, (1 <= n_int)%nat -> step rc d (observe d) a = (d', o', r, ab) ->
  let act := preprocess a in
  d' = (if rc then Nat.iter n_int (fun d => mj_step (set_ctrl d (compute (observe d) act)) n_sub) d
        else Nat.iter n_int (fun d => mj_step d n_sub) (set_ctrl d (compute (observe d) act))) /\
  o' = observe d' /\ ab = absorbing o' /\ r = reward (observe d) act o' ab.
Proof.
  intros rc d a d' o' r ab Hn E act. unfold mj_env_step in E. destruct rc.
  - rewrite loop_true in E. inversion E; subst. auto.
  - destruct n_int as [|n]; [lia|].
    assert (I : forall n (f : D -> D) d, Nat.iter n f (f d) = f (Nat.iter n f d)) by (induction n0; intros; simpl; [reflexivity|rewrite IHn0; reflexivity]).
    simpl in E. rewrite loop_false in E. rewrite (I n (fun d => mj_step d n_sub)) in E. inversion E; subst. auto.
Qed.
(** When the simulator advances its clock by the timestep per substep, a step takes the time dt that the environment declares. *)
Theorem mj_step_time : forall rc d a d' o' r ab (time : D -> R) timestep, (1 <= n_int)%nat -> 
  (forall d n, time (mj_step d n) = time d + INR n * timestep)%R -> (forall d u, time (set_ctrl d u) = time d) ->
  step rc d (observe d) a = (d', o', r, ab) -> time d' = (time d + mj_dt timestep n_int n_sub)%R.
Proof.
  intros rc d a d' o' r ab time ts Hn T1 T2 E. apply mj_step_control in E; [|exact Hn]. destruct E as (-> & _). unfold mj_dt.
  assert (G : forall (f : D -> D), (forall d, time (f d) = time d + INR n_sub * ts)%R -> forall n d, time (Nat.iter n f d) = (time d + INR n * (INR n_sub * ts))%R).
  { intros f Hf. induction n; intros d0; [simpl; lra|]. rewrite S_INR. simpl. rewrite Hf, IHn. lra. }
  destruct rc; rewrite G; try (intros; rewrite ?T1, ?T2; reflexivity); rewrite ?T2; ring.
Qed.
End StepProps.

Lemma set_at_length : forall {V} i (v : V) l, length (set_at i v l) = length l.
Proof. intros V i v l. revert i. induction l; intros [|i]; simpl; auto. Qed.
Lemma set_at_nth : forall {V} (l : list V) i v j, nth_error (set_at i v l) j = if andb (Nat.eqb j i) (Nat.ltb i (length l)) then Some v else nth_error l j.
Proof.
  intros V l. induction l as [|x l IH]; intros [|i] v [|j]; simpl; try reflexivity.
  - destruct (Nat.eqb j i); reflexivity.
  - rewrite IH. destruct (Nat.eqb j i); simpl; [|reflexivity]. destruct (Nat.ltb_spec i (length l)), (Nat.ltb_spec (S i) (S (length l))); try reflexivity; lia.
Qed.
(** Only the actuators of the specification are written, each with its component of the control. *)
Theorem mj_controls : forall {V} idx (u ctrl : list V), NoDup idx -> length u = length idx -> Forall (fun i => i < length ctrl) idx ->
  length (write_ctrl idx u ctrl) = length ctrl /\
  (forall n i, nth_error idx n = Some i -> nth_error (write_ctrl idx u ctrl) i = nth_error u n) /\
  (forall i, ~ In i idx -> nth_error (write_ctrl idx u ctrl) i = nth_error ctrl i).
Proof.
  intros V idx. induction idx as [|i0 idx IH]; intros u ctrl ND L F.
  - unfold write_ctrl. simpl. repeat split; auto. intros [|n] i H; discriminate.
  - destruct u as [|x u]; [discriminate|]. inversion ND; subst. inversion F; subst.
    destruct (IH u (set_at i0 x ctrl)) as (I1 & I2 & I3); [assumption|simpl in L; lia|eapply Forall_impl; [|exact H4]; intros; rewrite set_at_length; assumption|].
    change (write_ctrl (i0 :: idx) (x :: u) ctrl) with (write_ctrl idx u (set_at i0 x ctrl)). rewrite set_at_length in I1. repeat split; [exact I1| |].
    + intros [|n] i E; simpl in E; [|apply (I2 n i E)]. inversion E; subst. rewrite I3 by assumption. rewrite set_at_nth, Nat.eqb_refl.
      rewrite (proj2 (Nat.ltb_lt i (length ctrl))) by assumption. reflexivity.
    + intros i NI. simpl in NI. rewrite I3 by tauto. rewrite set_at_nth. destruct (Nat.eqb_spec i i0); [subst; tauto|reflexivity].
Qed.

(** * Collisions *)
Theorem mj_collision : forall g1 g2 contacts,
  (check_collision g1 g2 contacts = true <-> exists a b, In (a, b) contacts /\ ((In a g1 /\ In b g2) \/ (In a g2 /\ In b g1))) /\
  check_collision g1 g2 contacts = check_collision g2 g1 contacts.
Proof.
  assert (G : forall g x, in_group g x = true <-> In x g).
  { intros g x. unfold in_group. rewrite existsb_exists. split; [intros (y & I1 & E); apply Nat.eqb_eq in E; subst; exact I1|intros I1; exists x; split; [exact I1|apply Nat.eqb_refl]]. }
  intros g1 g2 contacts. split.
  - unfold check_collision. rewrite existsb_exists. split.
    + intros ([a b] & I1 & T). exists a, b. split; [exact I1|]. unfold touches in T. simpl in T. rewrite orb_true_iff, !andb_true_iff, !G in T. exact T.
    + intros (a & b & I1 & T). exists (a, b). split; [exact I1|]. unfold touches. simpl. rewrite orb_true_iff, !andb_true_iff, !G. exact T.
  - unfold check_collision. induction contacts as [|c contacts IH]; simpl; [reflexivity|]. rewrite IH. f_equal. unfold touches. apply orb_comm.
Qed.
(** The collision force is that of one contact: two groups that touch at two points get the force of the first. *)
Theorem mj_force : forall {F} (zero : F) g1 g2 contacts,
  (check_collision g1 g2 (map fst contacts) = false -> collision_force zero g1 g2 contacts = zero) /\
  (forall c1 c c2, contacts = c1 ++ c :: c2 -> check_collision g1 g2 (map fst c1) = false -> touches g1 g2 (fst c) = true -> collision_force zero g1 g2 contacts = snd c).
Proof.
  intros F zero g1 g2 contacts.
  assert (N : forall l, check_collision g1 g2 (map fst l) = false -> find (fun c : (nat * nat) * F => touches g1 g2 (fst c)) l = None).
  { induction l as [|c l IH]; simpl; intros H; [reflexivity|]. apply orb_false_iff in H. destruct H as [H1 H2]. rewrite H1. apply IH. exact H2. }
  split.
  - intros H. unfold collision_force. rewrite N by exact H. reflexivity.
  - intros c1 c c2 -> H T. unfold collision_force. induction c1 as [|x c1 IH]; simpl in *; [rewrite T; reflexivity|].
    apply orb_false_iff in H. destruct H as [H1 H2]. rewrite H1. apply IH. exact H2.
Qed.
Theorem mj_force_refuted : exists contacts, check_collision [1] [2] (map fst contacts) = true /\
  collision_force 0%R [1] [2] contacts <> rsum (map snd (filter (fun c => touches [1] [2] (fst c)) contacts)).
Proof. exists [((1, 2), 1%R); ((2, 1), 2%R)]. split; [reflexivity|]. unfold collision_force. simpl. lra. Qed.

(** * MultiMuJoCo *)
Section MultiProps.
Context {D : Type}.
Variable pristine : nat -> D.
Variable setup : nat -> D -> D.
Variable n : nat.
Inductive multi_reach : multi (D := D) -> Prop :=
| mr_init : multi_reach (multi_init pristine n)
| mr_run : forall m d, multi_reach m -> multi_reach (multi_run m d)
| mr_reset : forall m k, multi_reach m -> (forall i, k = Some i -> i < n) -> multi_reach (multi_reset pristine setup n m k).

Lemma multi_inv : forall m, (1 <= n) -> multi_reach m -> length (mm_datas m) = n /\ mm_cur m < n /\
  forall i, i < n -> i <> mm_cur m -> nth_error (mm_datas m) i = Some (pristine i).
Proof.
  intros m Hn H. induction H as [|m d H IH|m k H IH Hk].
  - simpl. rewrite map_length, seq_length. repeat split; [lia|]. intros i Hi _. rewrite nth_error_map.
    rewrite (List.nth_error_nth' (seq 0 n) 0) by (rewrite seq_length; lia). rewrite seq_nth by lia. reflexivity.
  - destruct IH as (I1 & I2 & I3). simpl. rewrite set_at_length. repeat split; auto. intros i Hi Hne. rewrite set_at_nth. destruct (Nat.eqb_spec i (mm_cur m)); [contradiction|]. apply I3; assumption.
  - destruct IH as (I1 & I2 & I3). unfold multi_reset.
    assert (Hx : next_model n k (mm_cur m) < n) by (destruct k as [i|]; simpl; [apply Hk; reflexivity|destruct (Nat.ltb_spec (mm_cur m) (n - 1)); lia]).
    destruct (nth_error _ (next_model n k (mm_cur m))) as [d|] eqn:E; [|auto]. simpl. rewrite !set_at_length. repeat split; auto.
    intros i Hi Hne. rewrite set_at_nth. destruct (Nat.eqb_spec i (next_model n k (mm_cur m))); [contradiction|]. simpl. rewrite set_at_nth.
    destruct (Nat.eqb_spec i (mm_cur m)) as [->|Hn']; simpl; [rewrite I1, (proj2 (Nat.ltb_lt (mm_cur m) n)) by assumption; reflexivity|]. apply I3; assumption.
Qed.
(** After any history, a reset starts from fresh data of the selected model, whatever happened in earlier episodes with it. *)
Theorem multi_reset_fresh : forall m k, (1 <= n) -> multi_reach m -> (forall i, k = Some i -> i < n) ->
  let m' := multi_reset pristine setup n m k in
  mm_cur m' = next_model n k (mm_cur m) /\ nth_error (mm_datas m') (mm_cur m') = Some (setup (mm_cur m') (pristine (mm_cur m'))).
Proof.
  intros m k Hn H Hk m'. destruct (multi_inv m Hn H) as (I1 & I2 & I3). unfold m', multi_reset.
  assert (Hx : next_model n k (mm_cur m) < n) by (destruct k as [i|]; simpl; [apply Hk; reflexivity|destruct (Nat.ltb_spec (mm_cur m) (n - 1)); lia]).
  assert (E : nth_error (set_at (mm_cur m) (pristine (mm_cur m)) (mm_datas m)) (next_model n k (mm_cur m)) = Some (pristine (next_model n k (mm_cur m)))).
  { rewrite set_at_nth. destruct (Nat.eqb_spec (next_model n k (mm_cur m)) (mm_cur m)) as [Q|Q]; simpl; [rewrite I1, (proj2 (Nat.ltb_lt (mm_cur m) n)), Q by assumption; reflexivity|].
    apply I3; assumption. }
  rewrite E. simpl. split; [reflexivity|]. rewrite set_at_nth, Nat.eqb_refl, set_at_length, I1, (proj2 (Nat.ltb_lt _ n)) by exact Hx. reflexivity.
Qed.
(** Without random selection the models take turns. *)
Theorem multi_turns : forall cur, cur < n -> next_model n None cur = (cur + 1) mod n.
Proof.
  intros cur H. simpl. destruct (Nat.ltb_spec cur (n - 1)).
  - rewrite Nat.mod_small by lia. reflexivity.
  - replace (cur + 1) with n by lia. rewrite Nat.mod_same by lia. reflexivity.
Qed.
End MultiProps.

(** The requested timestep reaches the first model only, while dt is computed from it for all. *)
Theorem multi_timestep_refuted : forall t xml k t', nth_error xml (S k) = Some t' -> t' <> t ->
  nth_error (fst (multi_timesteps (Some t) xml)) (S k) <> Some (snd (multi_timesteps (Some t) xml)).
Proof. intros t [|x xml] k t' H N; [discriminate|]. simpl in *. rewrite H. congruence. Qed.
(** Models with different observation limits are accepted, although the check is there to reject them. *)
Theorem multi_limits_refuted : forall {L} (eqb : L -> L -> bool), (forall x, eqb x x = true) -> forall limits, multi_limits_check eqb limits = true.
Proof. intros L eqb H [|l0 limits]; [reflexivity|]. unfold multi_limits_check. apply forallb_forall. intros x _. apply H. Qed.
(** reset returns the bare observation: unpacking it into state and info raises unless the observation has length two, and then the state is its first number. *)
Theorem multi_reset_protocol_refuted : forall obs, (length obs <> 2 -> unpack2 obs = None) /\ (forall x y, obs = [x; y] -> unpack2 obs = Some (x, y)).
Proof. intros obs. split; [destruct obs as [|x [|y [|z obs]]]; simpl; intros H; try reflexivity; lia|intros x y ->; reflexivity]. Qed.

(** The identifier of an environment is a vector of zeros and ones that tells all models apart: the binary representation of the index. *)
Theorem env_id_distinct : forall n i j, i < n -> j < n -> env_id_map i n = env_id_map j n -> i = j.
Proof.
  intros n i j Hi Hj E.
  assert (B : forall k, k < id_bits n -> Nat.testbit i k = Nat.testbit j k).
  { intros k Hk. unfold env_id_map in E.
    assert (Q : nth_error (map (fun p => if Nat.testbit i (id_bits n - 1 - p) then 1 else 0) (seq 0 (id_bits n))) (id_bits n - 1 - k) =
                nth_error (map (fun p => if Nat.testbit j (id_bits n - 1 - p) then 1 else 0) (seq 0 (id_bits n))) (id_bits n - 1 - k)) by (rewrite E; reflexivity).
    rewrite !nth_error_map, !(List.nth_error_nth' (seq 0 (id_bits n)) 0) in Q by (rewrite seq_length; lia). rewrite seq_nth in Q by lia. cbn [option_map plus] in Q.
    replace (id_bits n - 1 - (id_bits n - 1 - k)) with k in Q by lia. destruct (Nat.testbit i k), (Nat.testbit j k); try reflexivity; discriminate Q. }
  assert (S1 : forall x k, x < n -> id_bits n <= k -> Nat.testbit x k = false).
  { intros x k Hx Hk. destruct x as [|x]; [apply Nat.bits_0|]. apply Nat.bits_above_log2. unfold id_bits in Hk.
    assert (Nat.log2 (S x) <= Nat.log2 (Nat.max n 2 - 1)) by (apply Nat.log2_le_mono; lia). lia. }
  apply Nat.bits_inj. intros k. destruct (le_lt_dec (id_bits n) k) as [K|K]; [rewrite !S1 by assumption; reflexivity|apply B; exact K].
Qed.

(** * Examples *)
Definition ex_spec := [mkEntry 0 (JointPos (Some (-1, 1)%R)) 1 true; mkEntry 1 JointVel 1 true; mkEntry 2 OtherType 3 true].
Definition ex_helper := match helper_init ex_spec (Some [5%R]) with Some h => match remove_obs h 2 1 with Some h' => add_obs h' 7 2 (Some 0%R) None | None => h end | None => mkH [] [] [] [] [] [] end.
Example ex_used : used ex_spec (Some [5%R]) ex_helper [(7, 2, (Some 0%R, None))].
Proof.
  unfold ex_helper. apply (used_add _ _ _ []); [|simpl; intuition discriminate|lia].
  eapply used_remove with (e := mkEntry 2 OtherType 3 true) (i := 1); [apply used_init; reflexivity|simpl; auto|simpl; lia|simpl; tauto|simpl; lia|reflexivity].
Qed.
Example ex_observation : let obs := build_obs ex_spec ex_helper [[10]; [20]; [31; 32; 33]]%R ++ [41; 42]%R in
  obs = [10; 20; 31; 33; 41; 42]%R /\ h_low ex_helper = [Some (-1); Some (-5); None; None; Some 0; Some 0]%R /\ get_from_obs ex_helper obs 2 = Some [31; 33]%R /\ get_from_obs ex_helper obs 7 = Some [41; 42]%R.
Proof. repeat split; reflexivity. Qed.
Example ex_reset : modify_data ex_spec ex_helper [[10]; [20]; [31; 32; 33]]%R [1; 2; 3; 4; 5; 6]%R = Some [[1]; [2]; [3; 32; 4]]%R.
Proof. reflexivity. Qed.
Example ex_id : env_id_map 5 6 = [1; 0; 1] /\ env_id_map 2 5 = [0; 1; 0] /\ env_id_map 0 1 = [0].
Proof. repeat split; reflexivity. Qed.
Example ex_ctrl : write_ctrl [2; 0] [7; 8] [1; 1; 1; 1] = [8; 1; 7; 1].
Proof. reflexivity. Qed.
(** a simulator that adds the control n times; two intermediate steps of three substeps *)
Definition ex_step rc := mj_env_step (fun (d : nat * nat) n => (fst d + n * snd d, snd d)) (fun d u => (fst d, u)) fst (fun a => a + 1) (fun o a => o + a) (fun o => Nat.leb 100 o)
  (fun o a o' ab => (INR o + INR a + INR o')%R) rc 2 3 (1, 0) 1 1.
Example ex_step_once : fst (fst (fst (ex_step false))) = (19, 3) /\ snd (fst (fst (ex_step false))) = 19.
Proof. split; reflexivity. Qed.
Example ex_step_recompute : fst (fst (fst (ex_step true))) = (46, 12) /\ snd (ex_step true) = false.
Proof. split; reflexivity. Qed.
Example ex_multi : let m := multi_reset (fun i => 10 * i) (fun i d => d + 1) 3 (multi_run (multi_reset (fun i => 10 * i) (fun i d => d + 1) 3 (multi_init (fun i => 10 * i) 3) (Some 2)) 77) None in
  mm_cur m = 0 /\ mm_datas m = [1; 10; 20].
Proof. split; reflexivity. Qed.
Example ex_multi_limits : multi_limits_check Nat.eqb [1; 2] = true /\ multi_timesteps (Some 1%R) [2; 3]%R = ([1; 3], 1)%R.
Proof. split; reflexivity. Qed.
Print Assumptions mj_observation.
Print Assumptions mj_limits.
Print Assumptions remove_obs_order.
Print Assumptions remove_obs_order_refuted.
Print Assumptions mj_reset_obs.
Print Assumptions mj_step_control.
Print Assumptions mj_step_time.
Print Assumptions mj_controls.
Print Assumptions mj_collision.
Print Assumptions mj_force.
Print Assumptions mj_force_refuted.
Print Assumptions multi_reset_fresh.
Print Assumptions multi_turns.
Print Assumptions multi_timestep_refuted.
Print Assumptions multi_limits_refuted.
Print Assumptions multi_reset_protocol_refuted.
Print Assumptions env_id_distinct.

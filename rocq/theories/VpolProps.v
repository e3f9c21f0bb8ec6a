(** Theorems C49. *)
From Coq Require Import List Arith Lia Bool ZArith.
From Verif Require Import Common VpolModel.
Import ListNotations.

(** Well-formed vectors: valid, distinct references (every entry its own object). *)
Definition wf {P} (v : vp P) : Prop := NoDup (vrefs v) /\ Forall (fun r => r < length (vh v)) (vrefs v).
(** The object behind entry i. *)
Definition entry {P} (v : vp P) (i : nat) : option P := match nth_error (vrefs v) i with Some r => nth_error (vh v) r | None => None end.

Theorem vector_policy_new : forall P (h : list P) p n, wf (vp_new P h p n) /\ length (vrefs (vp_new P h p n)) = n /\
  (forall i, i < n -> entry (vp_new P h p n) i = Some p) /\ (forall r, r < length h -> nth_error (vh (vp_new P h p n)) r = nth_error h r).
Proof.
  intros P h p n. unfold vp_new, wf, entry. cbn [vh vrefs]. split; [split|split; [|split]].
  - apply seq_NoDup.
  - apply Forall_forall. intros r Hr. apply in_seq in Hr. rewrite app_length, repeat_length. lia.
  - apply seq_length.
  - intros i Hi. rewrite (nth_error_nth' _ _ _ 0) by (rewrite seq_length; lia). rewrite seq_nth by lia. rewrite nth_error_app2 by lia.
    replace (length h + i - length h) with i by lia. rewrite (nth_error_nth' _ _ _ p) by (rewrite repeat_length; lia). rewrite nth_repeat. reflexivity.
  - intros r Hr. apply nth_error_app1. lia.
Qed.

(** set_n never changes anything: neither grows nor shrinks the vector. *)
Theorem set_n_no_effect : forall P (v : vp P) n, set_n P v n = v.
Proof.
  intros P [h refs] n. unfold set_n. cbn [vh vrefs]. f_equal. destruct (length refs <? n) eqn:E1.
  - apply Nat.ltb_lt in E1. rewrite firstn_all2 by lia. destruct (n <? length refs) eqn:E2; auto. apply Nat.ltb_lt in E2. lia.
  - destruct (n <? length refs) eqn:E2; auto. apply Nat.ltb_lt in E2. replace (Z.to_nat (Z.of_nat n - Z.of_nat (length refs))) with 0 by lia. simpl. apply app_nil_r.
Qed.
Theorem set_n_size_refuted : exists (v : vp nat) n, wf v /\ n <> length (vrefs v) /\ length (vrefs (set_n nat v n)) <> n /\
  (forall m, m <> length (vrefs v) -> length (vrefs (set_n nat v m)) <> m).
Proof.
  exists (vp_new nat [] 7 2), 3. split; [apply vector_policy_new|]. split; [simpl; lia|]. split; [rewrite set_n_no_effect; simpl; lia|]. intros m Hm. rewrite set_n_no_effect. auto.
Qed.

Lemma setnth_other : forall A r r' (x : A) l, r <> r' -> nth_error (setnth l r x) r' = nth_error l r'.
Proof. intros. revert r r' H. induction l as [|y l IH]; intros [|r] [|r'] H; simpl; auto; try lia. Qed.
Lemma setnth_same : forall A r (x : A) l, r < length l -> nth_error (setnth l r x) r = Some x.
Proof. intros. revert r H. induction l as [|y l IH]; intros [|r] H; simpl in *; auto; try lia. apply IH. lia. Qed.
Lemma setnth_len : forall A r (x : A) l, length (setnth l r x) = length l.
Proof. intros. revert r. induction l as [|y l IH]; intros [|r]; simpl; auto. Qed.

Lemma nth_error_ext_list : forall A (l l' : list A), (forall i, nth_error l i = nth_error l' i) -> l = l'.
Proof.
  induction l as [|x l IH]; intros [|y l'] H; auto; try (specialize (H 0); discriminate).
  f_equal; [specialize (H 0); simpl in H; congruence|]. apply IH. intros i. apply (H (S i)).
Qed.


  Lemma draw_loop_spec : forall P S A Q (draw : P -> S -> option Q -> P * A * option Q) refs h i st acc, NoDup refs -> Forall (fun r => r < length h) refs -> length st >= i + length refs ->
    (forall p s, snd (draw p s None) = None) ->
    exists h' acts, draw_loop P S A Q draw h refs i st None acc = Some (h', acc ++ acts) /\ length acts = length refs /\ length h' = length h /\
      (forall r, ~ In r refs -> nth_error h' r = nth_error h r) /\
      forall k r p s, nth_error refs k = Some r -> nth_error h r = Some p -> nth_error st (i + k) = Some s ->
        nth_error acts k = Some (snd (fst (draw p s None))) /\ nth_error h' r = Some (fst (fst (draw p s None))).
  Proof.
    intros P S A Q draw. induction refs as [|r refs IH]; intros h i st acc ND FA LS ST.
    - exists h, []. rewrite app_nil_r. simpl. repeat split; auto; destruct k; discriminate.
    - inversion ND as [|? ? NI ND']; subst. inversion FA as [|? ? LR FA']; subst. cbn [draw_loop]. simpl in LS.
      destruct (nth_error h r) as [p|] eqn:E1; [|apply nth_error_None in E1; lia].
      destruct (nth_error st i) as [s|] eqn:E2; [|apply nth_error_None in E2; lia].
      destruct (draw p s None) as [[p' a] q] eqn:D. assert (q = None) by (specialize (ST p s); rewrite D in ST; auto). subst q.
      destruct (IH (setnth h r p') (1 + i) st (acc ++ [a])) as (h' & acts & H1 & H2 & H3 & H4 & H5); auto.
      { eapply Forall_impl; [|exact FA']. intros. rewrite setnth_len. auto. } { lia. }
      rewrite setnth_len in H3. exists h', (a :: acts). rewrite H1. rewrite <- app_assoc. split; [reflexivity|]. split; [simpl; lia|]. split; [auto|]. split.
      + intros r' NR. rewrite H4 by (simpl in NR; tauto). apply setnth_other. intros ->. apply NR. left; auto.
      + intros k r' p0 s0 K1 K2 K3. destruct k as [|k].
        * simpl in K1. inversion K1; subst r'. rewrite Nat.add_0_r in K3. rewrite E1 in K2. rewrite E2 in K3. inversion K2; inversion K3; subst. rewrite D. simpl. split; auto.
          rewrite H4 by auto. apply setnth_same. auto.
        * simpl in K1. assert (IN : In r' refs) by (eapply nth_error_In; eauto). assert (r' <> r) by (intros ->; tauto).
          specialize (H5 k r' p0 s0 K1). rewrite setnth_other in H5 by auto. replace (1 + i + k) with (i + Datatypes.S k) in H5 by lia. destruct (H5 K2 K3) as [B1 B2]. split; auto.
  Qed.

  Lemma setw_loop_spec : forall P W (setw : P -> W -> P) refs h i ws, NoDup refs -> Forall (fun r => r < length h) refs -> length ws >= i + length refs ->
    exists h', setw_loop P W setw h refs i ws = Some h' /\ length h' = length h /\ (forall r, ~ In r refs -> nth_error h' r = nth_error h r) /\
      forall k r p w, nth_error refs k = Some r -> nth_error h r = Some p -> nth_error ws (i + k) = Some w -> nth_error h' r = Some (setw p w).
  Proof.
    intros P W setw. induction refs as [|r refs IH]; intros h i ws ND FA LS.
    - exists h. simpl. repeat split; auto. destruct k; discriminate.
    - inversion ND as [|? ? NI ND']; subst. inversion FA as [|? ? LR FA']; subst. cbn [setw_loop]. simpl in LS.
      destruct (nth_error h r) as [p|] eqn:E1; [|apply nth_error_None in E1; lia].
      destruct (nth_error ws i) as [w|] eqn:E2; [|apply nth_error_None in E2; lia].
      destruct (IH (setnth h r (setw p w)) (1 + i) ws) as (h' & H1 & H2 & H3 & H4); auto.
      { eapply Forall_impl; [|exact FA']. intros. rewrite setnth_len. auto. } { lia. }
      rewrite setnth_len in H2. exists h'. split; auto. split; auto. split.
      + intros r' NR. rewrite H3 by (simpl in NR; tauto). apply setnth_other. intros ->. apply NR. left; auto.
      + intros k r' p0 w0 K1 K2 K3. destruct k as [|k].
        * simpl in K1. inversion K1; subst r'. rewrite Nat.add_0_r in K3. rewrite E1 in K2. rewrite E2 in K3. inversion K2; inversion K3; subst. rewrite H3 by auto. apply setnth_same. auto.
        * simpl in K1. assert (IN : In r' refs) by (eapply nth_error_In; eauto). assert (r' <> r) by (intros ->; tauto).
          specialize (H4 k r' p0 w0 K1). rewrite setnth_other in H4 by auto. replace (1 + i + k) with (i + Datatypes.S k) in H4 by lia. auto.
  Qed.

(** Stateless policies: entry i chooses the i-th action from the i-th state, and only that
    object advances. *)
Theorem vector_draw_rows : forall P S A Q (draw : P -> S -> option Q -> P * A * option Q) v st, wf v -> length st >= length (vrefs v) ->
  (forall p s, snd (draw p s None) = None) ->
  exists v' acts, vp_draw P S A Q draw v st None = Some (v', acts, None) /\ length acts = length (vrefs v) /\ vrefs v' = vrefs v /\ wf v' /\
    (forall r, ~ In r (vrefs v) -> nth_error (vh v') r = nth_error (vh v) r) /\
    forall i p s, entry v i = Some p -> nth_error st i = Some s ->
      nth_error acts i = Some (snd (fst (draw p s None))) /\ entry v' i = Some (fst (fst (draw p s None))).
Proof.
  intros P S A Q draw v st [ND FA] LS ST. destruct (draw_loop_spec P S A Q draw (vrefs v) (vh v) 0 st [] ND FA LS ST) as (h' & acts & H1 & H2 & H3 & H4 & H5).
  unfold vp_draw. rewrite H1. simpl app. do 2 eexists. split; [reflexivity|]. split; auto. split; auto. split; [|split; auto].
  - split; auto. cbn [vh vrefs]. rewrite H3. auto.
  - intros i p s E K. unfold entry in *. cbn [vh vrefs]. destruct (nth_error (vrefs v) i) as [r|] eqn:R; [|discriminate]. apply (H5 i r p s); auto.
Qed.

(** With a policy that has a state, no call ever succeeds. *)
Theorem vector_draw_stateful_refuted : forall P S A Q (draw : P -> S -> option Q -> P * A * option Q) v st pst, wf v -> vrefs v <> [] ->
  (forall p s q, snd (draw p s q) <> None) -> vp_draw P S A Q draw v st pst = None.
Proof.
  intros P S A Q draw [h refs] st pst [ND FA] NE ST. unfold vp_draw. cbn [vh vrefs] in *. destruct refs as [|r refs]; [congruence|]. cbn [draw_loop].
  destruct (nth_error h r) as [p|]; auto. destruct (nth_error st 0) as [s|]; auto.
  destruct pst as [l|]; [destruct (nth_error l 0) as [q|]; auto|].
  - specialize (ST p s (Some q)). destruct (draw p s (Some q)) as [[? ?] [?|]]; auto. simpl in ST. congruence.
  - specialize (ST p s None). destruct (draw p s None) as [[? ?] [?|]]; auto. simpl in ST. congruence.
Qed.

(** The weights written are the weights read, entry by entry. *)
Theorem vector_weights_roundtrip : forall P W (setw : P -> W -> P) (getw : P -> W) v ws, wf v -> length ws = length (vrefs v) ->
  (forall p w, getw (setw p w) = w) ->
  exists v', vp_set_weights P W setw v ws = Some v' /\ vp_get_weights P W getw v' = map Some ws /\ vrefs v' = vrefs v /\
    (forall r, ~ In r (vrefs v) -> nth_error (vh v') r = nth_error (vh v) r) /\
    forall i p w, entry v i = Some p -> nth_error ws i = Some w -> entry v' i = Some (setw p w).
Proof.
  intros P W setw getw v ws [ND FA] L RT. destruct (setw_loop_spec P W setw (vrefs v) (vh v) 0 ws ND FA ltac:(lia)) as (h' & H1 & H2 & H3 & H4).
  unfold vp_set_weights. rewrite H1. eexists. split; [reflexivity|]. unfold vp_get_weights, entry. cbn [vh vrefs].
  assert (EN : forall i p w, match nth_error (vrefs v) i with Some r => nth_error (vh v) r | None => None end = Some p -> nth_error ws i = Some w ->
     match nth_error (vrefs v) i with Some r => nth_error h' r | None => None end = Some (setw p w)).
  { intros i p w E K. destruct (nth_error (vrefs v) i) as [r|] eqn:R; [|discriminate]. apply (H4 i r p w); auto. }
  split; [|split; auto]. apply nth_error_ext_list. intros i. rewrite !nth_error_map.
  destruct (nth_error (vrefs v) i) as [r|] eqn:R.
  - assert (LI : i < length (vrefs v)) by (apply nth_error_Some; congruence).
    destruct (nth_error ws i) as [w|] eqn:Ew; [|apply nth_error_None in Ew; lia].
    assert (LR : r < length (vh v)) by (rewrite Forall_forall in FA; apply FA; eapply nth_error_In; eauto).
    destruct (nth_error (vh v) r) as [p|] eqn:Ep; [|apply nth_error_None in Ep; lia].
    specialize (EN i p w). rewrite R in EN. simpl. rewrite (EN Ep Ew), RT. reflexivity.
  - apply nth_error_None in R. destruct (nth_error ws i) as [w|] eqn:Ew; auto. assert (i < length ws) by (apply nth_error_Some; congruence). lia.
Qed.

(** Resetting under a mask leaves uninitialised memory in the rows of the other entries. *)
Theorem vector_reset_masked_rows_refuted : exists P Q (rst : P -> P * option Q) v mask g1 g2 v1 q1 v2 q2, wf v /\
  vp_reset P Q rst v (Some mask) g1 = Some (v1, q1) /\ vp_reset P Q rst v (Some mask) g2 = Some (v2, q2) /\ v1 = v2 /\ q1 <> q2 /\
  nth_error mask 0 = Some true /\ nth_error q1 0 = nth_error q2 0.
Proof.
  exists nat, nat, (fun p => (p, Some 5)), (vp_new nat [] 7 2), [true; false], [0; 0], [0; 9].
  do 4 eexists. split; [apply vector_policy_new|]. split; [reflexivity|]. split; [reflexivity|]. repeat split; auto. discriminate.
Qed.

(** * Concrete cases *)
Example draw_demo : vp_draw nat nat nat unit (fun p s _ => (S p, p + s, None)) (vp_new nat [] 10 2) [1; 2] None = Some ({| vh := [11; 11]; vrefs := [0; 1] |}, [11; 12], None).
Proof. reflexivity. Qed.
Example weights_demo : vp_set_weights nat nat (fun _ w => w) (vp_new nat [100] 10 2) [3; 4] = Some {| vh := [100; 3; 4]; vrefs := [1; 2] |}.
Proof. reflexivity. Qed.

Print Assumptions vector_policy_new.
Print Assumptions set_n_no_effect.
Print Assumptions set_n_size_refuted.
Print Assumptions vector_draw_rows.
Print Assumptions vector_draw_stateful_refuted.
Print Assumptions vector_weights_roundtrip.
Print Assumptions vector_reset_masked_rows_refuted.

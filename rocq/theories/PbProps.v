(** Theorems about the PyBullet environments (C88). *)
From Coq Require Import List Arith ZArith Lia Reals Lra Bool.
From Verif Require Import Common PbModel.
Import ListNotations.
Local Open Scope nat_scope.

(** * The maps of joints and links *)
(** joint j of model m has this name and can move; it is joint j of a model, whose link has this name *)
Definition joint_at (ms : models) (m j : nat) (i : jinfo) : Prop := exists js, In (m, js) ms /\ nth_error js j = Some i.

Lemma joint_maps_spec : forall m js j acc,
  (forall n x, fst (joint_maps m j js acc) n = Some x -> fst acc n = Some x \/ exists k i, nth_error js k = Some i /\ j_name i = n /\ j_fixed i = false /\ x = (m, j + k)) /\
  (forall n x, snd (joint_maps m j js acc) n = Some x -> snd acc n = Some x \/ exists k i, nth_error js k = Some i /\ j_link i = n /\ x = (m, Z.of_nat (j + k))) /\
  (forall n, fst acc n <> None \/ (exists k i, nth_error js k = Some i /\ j_name i = n /\ j_fixed i = false) -> fst (joint_maps m j js acc) n <> None) /\
  (forall n, snd acc n <> None \/ (exists k i, nth_error js k = Some i /\ j_link i = n) -> snd (joint_maps m j js acc) n <> None).
Proof.
  intros m js. induction js as [|i0 js IH]; intros j acc.
  - simpl. repeat split; intros n; try tauto; intros [H|(k & i & H & _)]; try exact H; destruct k; discriminate.
  - cbn [joint_maps]. match goal with |- context[joint_maps m (S j) js ?a] => set (acc' := a) end.
    destruct (IH (S j) acc') as (I1 & I2 & I3 & I4). repeat split; intros n.
    + intros x H. destruct (I1 n x H) as [H1|(k & i & K1 & K2 & K3 & K4)]; [|right; exists (S k), i; repeat split; auto; rewrite K4; f_equal; lia].
      unfold acc' in H1. simpl in H1. destruct (j_fixed i0) eqn:F; [left; exact H1|]. unfold dset in H1. destruct (Nat.eqb_spec n (j_name i0)); [|left; exact H1].
      inversion H1; subst. right. exists 0, i0. rewrite Nat.add_0_r. auto.
    + intros x H. destruct (I2 n x H) as [H1|(k & i & K1 & K2 & K4)]; [|right; exists (S k), i; repeat split; auto; rewrite K4; f_equal; lia].
      unfold acc' in H1. simpl in H1. unfold dset in H1. destruct (Nat.eqb_spec n (j_link i0)); [|left; exact H1].
      inversion H1; subst. right. exists 0, i0. rewrite Nat.add_0_r. auto.
    + intros H. apply I3. unfold acc'. simpl. destruct H as [H|([|k] & i & K1 & K2 & K3)].
      * left. destruct (j_fixed i0); [exact H|]. unfold dset. destruct (Nat.eqb n (j_name i0)); [discriminate|exact H].
      * left. simpl in K1. inversion K1; subst i. rewrite K3. unfold dset. subst n. rewrite Nat.eqb_refl. discriminate.
      * right. exists k, i. auto.
    + intros H. apply I4. unfold acc'. simpl. destruct H as [H|([|k] & i & K1 & K2)].
      * left. unfold dset. destruct (Nat.eqb n (j_link i0)); [discriminate|exact H].
      * left. simpl in K1. inversion K1; subst i. unfold dset. subst n. rewrite Nat.eqb_refl. discriminate.
      * right. exists k, i. auto.
Qed.
Lemma build_maps_spec : forall ms,
  (forall n x, fst (build_maps ms) n = Some x -> exists i, joint_at ms (fst x) (snd x) i /\ j_name i = n /\ j_fixed i = false) /\
  (forall n x, snd (build_maps ms) n = Some x -> exists j i, snd x = Z.of_nat j /\ joint_at ms (fst x) j i /\ j_link i = n) /\
  (forall n m j i, joint_at ms m j i -> j_name i = n -> j_fixed i = false -> fst (build_maps ms) n <> None) /\
  (forall n m j i, joint_at ms m j i -> j_link i = n -> snd (build_maps ms) n <> None).
Proof.
  intros ms. unfold build_maps.
  assert (G : forall l acc, let r := fold_left (fun acc mj => joint_maps (fst mj) 0 (snd mj) acc) l acc in
    (forall n x, fst r n = Some x -> fst acc n = Some x \/ exists i, joint_at l (fst x) (snd x) i /\ j_name i = n /\ j_fixed i = false) /\
    (forall n x, snd r n = Some x -> snd acc n = Some x \/ exists j i, snd x = Z.of_nat j /\ joint_at l (fst x) j i /\ j_link i = n) /\
    (forall n, fst acc n <> None \/ (exists m j i, joint_at l m j i /\ j_name i = n /\ j_fixed i = false) -> fst r n <> None) /\
    (forall n, snd acc n <> None \/ (exists m j i, joint_at l m j i /\ j_link i = n) -> snd r n <> None)).
  { induction l as [|[m js] l IH]; intros acc r.
    - unfold r. simpl. repeat split; intros n; try tauto; intros [H|(m & j & i & (js & [] & _) & _)]; exact H.
    - unfold r. cbn [fold_left]. destruct (joint_maps_spec m js 0 acc) as (J1 & J2 & J3 & J4). destruct (IH (joint_maps m 0 js acc)) as (I1 & I2 & I3 & I4). cbn [fst snd].
      repeat split; intros n.
      + intros x H. destruct (I1 n x H) as [H1|(i & (js' & K1 & K1') & K2)]; [|right; exists i; split; [exists js'; split; [right; exact K1|exact K1']|exact K2]].
        destruct (J1 n x H1) as [H2|(k & i & K1 & K2 & K3 & K4)]; [left; exact H2|]. right. exists i. subst x. simpl. split; [exists js; split; [left; reflexivity|exact K1]|auto].
      + intros x H. destruct (I2 n x H) as [H1|(j & i & K0 & (js' & K1 & K1') & K2)]; [|right; exists j, i; split; [exact K0|split; [exists js'; split; [right; exact K1|exact K1']|exact K2]]].
        destruct (J2 n x H1) as [H2|(k & i & K1 & K2 & K4)]; [left; exact H2|]. right. exists k, i. subst x. simpl. split; [reflexivity|]. split; [exists js; split; [left; reflexivity|exact K1]|auto].
      + intros H. apply I3. destruct H as [H|(m' & j & i & (js' & [K1|K1] & K1') & K2 & K3)].
        * left. apply J3. left. exact H.
        * left. inversion K1; subst. apply J3. right. exists j, i. auto.
        * right. exists m', j, i. split; [exists js'; split; assumption|auto].
      + intros H. apply I4. destruct H as [H|(m' & j & i & (js' & [K1|K1] & K1') & K2)].
        * left. apply J4. left. exact H.
        * left. inversion K1; subst. apply J4. right. exists j, i. auto.
        * right. exists m', j, i. split; [exists js'; split; assumption|auto]. }
  destruct (G ms ((fun _ => None), (fun _ => None))) as (G1 & G2 & G3 & G4). repeat split.
  - intros n x H. destruct (G1 n x H) as [H1|H1]; [discriminate|exact H1].
  - intros n x H. destruct (G2 n x H) as [H1|H1]; [discriminate|exact H1].
  - intros n m j i H1 H2 H3. apply G3. right. exists m, j, i. auto.
  - intros n m j i H1 H2. apply G4. right. exists m, j, i. auto.
Qed.
Lemma joint_info_at : forall ms m j i, NoDup (map fst ms) -> joint_at ms m j i -> joint_info ms (m, j) = Some i.
Proof.
  intros ms m j i ND (js & H & E). unfold joint_info. simpl. induction ms as [|[m' js'] ms IH]; [contradiction|]. simpl in ND. inversion ND; subst. simpl.
  destruct H as [H|H].
  - inversion H; subst. rewrite Nat.eqb_refl. exact E.
  - destruct (Nat.eqb_spec m' m) as [->|N]; [exfalso; apply H2; change m with (fst (m, js)); apply in_map; exact H|]. apply IH; assumption.
Qed.
(** A joint name refers to a movable joint with this name, and exists exactly when there is one; a unique name refers to its joint. Same for links, whose id is that of their joint. *)
Theorem pb_names : forall ms n,
  ((exists x, fst (build_maps ms) n = Some x) <-> exists m j i, joint_at ms m j i /\ j_name i = n /\ j_fixed i = false) /\
  (forall m j, fst (build_maps ms) n = Some (m, j) -> exists i, joint_at ms m j i /\ j_name i = n /\ j_fixed i = false) /\
  (forall m j i, joint_at ms m j i -> j_name i = n -> j_fixed i = false ->
     (forall m' j' i', joint_at ms m' j' i' -> j_name i' = n -> j_fixed i' = false -> m' = m /\ j' = j) -> fst (build_maps ms) n = Some (m, j)) /\
  (forall m j i, joint_at ms m j i -> j_link i = n -> (forall m' j' i', joint_at ms m' j' i' -> j_link i' = n -> m' = m /\ j' = j) -> snd (build_maps ms) n = Some (m, Z.of_nat j)).
Proof.
  intros ms n. destruct (build_maps_spec ms) as (B1 & B2 & B3 & B4). repeat split.
  - intros ([m j] & H). destruct (B1 n _ H) as (i & H1). exists m, j, i. exact H1.
  - intros (m & j & i & H1 & H2 & H3). destruct (fst (build_maps ms) n) as [x|] eqn:E; [eauto|]. exfalso. apply (B3 n m j i H1 H2 H3 E).
  - intros m j H. apply (B1 n _ H).
  - intros m j i H1 H2 H3 U. destruct (fst (build_maps ms) n) as [[m' j']|] eqn:E; [|exfalso; apply (B3 n m j i H1 H2 H3 E)].
    destruct (B1 n _ E) as (i' & A1 & A2 & A3). simpl in A1. destruct (U _ _ _ A1 A2 A3) as [-> ->]. reflexivity.
  - intros m j i H1 H2 U. destruct (snd (build_maps ms) n) as [[m' z]|] eqn:E; [|exfalso; apply (B4 n m j i H1 H2 E)].
    destruct (B2 n _ E) as (j' & i' & A0 & A1 & A2). simpl in *. destruct (U _ _ _ A1 A2) as [-> ->]. rewrite A0. reflexivity.
Qed.
(** With equal joint names in two models the joint of the first one cannot be reached. *)
Theorem pb_names_refuted : exists ms n, joint_at ms 0 0 (mkJ n false 0 1 1 1 7) /\ joint_at ms 1 0 (mkJ n false 0 2 2 2 8) /\ fst (build_maps ms) n = Some (1, 0).
Proof.
  exists [(0, [mkJ 5 false 0 1 1 1 7]); (1, [mkJ 5 false 0 2 2 2 8])], 5. repeat split; [eexists; split; [left; reflexivity|reflexivity]|eexists; split; [right; left; reflexivity|reflexivity]].
Qed.

(** * Actions *)
(** When every name of the specification is a joint, the action space has one component per entry, in order, with the limits of the control mode; component k
    is sent to the joint of entry k. A too short action raises. *)
Theorem pb_actions : forall ms spec action, NoDup (map fst ms) -> (forall n c, In (n, c) spec -> fst (build_maps ms) n <> None) ->
  let data := action_data (fst (build_maps ms)) spec in
  (exists lims, action_limits ms data = Some lims /\ length lims = length spec /\
     forall k n c mj i, nth_error spec k = Some (n, c) -> fst (build_maps ms) n = Some mj -> joint_at ms (fst mj) (snd mj) i ->
       nth_error lims k = Some (match c with Position => (j_low i, j_high i) | Velocity => ((- j_vel i)%R, j_vel i) | Torque => ((- j_force i)%R, j_force i) end)) /\
  (length spec <= length action -> exists cmds, apply_control ms data action = Some cmds /\ length cmds = length spec /\
     forall k n c mj i u, nth_error spec k = Some (n, c) -> fst (build_maps ms) n = Some mj -> joint_at ms (fst mj) (snd mj) i -> nth_error action k = Some u ->
       nth_error cmds k = Some (mj, match c with Position => CPos u (j_vel i) (j_force i) | Velocity => CVel u (j_vel i) (j_force i) | Torque => CTorque u end)) /\
  (length action < length spec -> apply_control ms data action = None).
Proof.
  intros ms spec action ND. destruct (build_maps_spec ms) as (B1 & _). revert action. induction spec as [|[n c] spec IH]; intros action K data.
  - unfold data. simpl. repeat split; [exists []; repeat split; intros [|k]; discriminate|intros _; exists []; repeat split; intros [|k]; discriminate|lia].
  - unfold data. simpl. destruct (fst (build_maps ms) n) as [[m j]|] eqn:E; [|exfalso; apply (K n c); [left; reflexivity|exact E]].
    destruct (B1 n _ E) as (i & A1 & A2 & A3). simpl in A1. pose proof (joint_info_at ms m j i ND A1) as J.
    assert (K' : forall n c, In (n, c) spec -> fst (build_maps ms) n <> None) by (intros n' c' H; apply (K n' c'); right; exact H).
    assert (UN : forall mj i', fst (build_maps ms) n = Some mj -> joint_at ms (fst mj) (snd mj) i' -> mj = (m, j) /\ i' = i).
    { intros mj i' H1 H2. assert (mj = (m, j)) by congruence. subst mj. split; [reflexivity|]. simpl in H2. apply joint_info_at in H2; [|exact ND]. congruence. }
    repeat split.
    + destruct (IH [] K') as ((lims & L1 & L2 & L3) & _). simpl. rewrite J, L1. exists (mode_limits c i :: lims). split; [reflexivity|]. split; [simpl; lia|].
      intros [|k] n' c' mj i' S1 S2 S3; [|simpl in *; eapply L3; eauto]. simpl in S1. inversion S1; subst n' c'. destruct (UN mj i' S2 S3) as [-> ->]. reflexivity.
    + intros L. destruct action as [|u us]; [simpl in L; lia|]. simpl in L. destruct (IH us K') as (_ & H & _). destruct (H ltac:(lia)) as (cmds & L1 & L2 & L3). simpl. rewrite J, L1.
      exists ((m, j, mode_command c i u) :: cmds). split; [reflexivity|]. split; [simpl; lia|].
      intros [|k] n' c' mj i' u' S1 S2 S3 S4; [|simpl in *; eapply L3; eauto]. simpl in S1, S4. inversion S1; subst n' c'. inversion S4; subst u'. destruct (UN mj i' S2 S3) as [-> ->]. reflexivity.
    + intros L. destruct action as [|u us]; [reflexivity|]. simpl in L. destruct (IH us K') as (_ & _ & H). simpl. rewrite J, H by lia. reflexivity.
Qed.
(** A misspelled joint is skipped without notice: the action space is smaller and the other components move up. *)
Theorem pb_unknown_joint_refuted : forall jm n c spec, jm n = None ->
  length (action_data jm ((n, c) :: spec)) = length (action_data jm spec) /\ action_data jm ((n, c) :: spec) = action_data jm spec.
Proof. intros jm n c spec H. simpl. rewrite H. auto. Qed.
(** The documentation allows an empty actuation specification; the constructor raises. *)
Theorem pb_empty_actuation_refuted : forall {X Y} (observation : list Y), pb_accepts ([] : list X) observation = false.
Proof. intros. unfold pb_accepts. apply andb_false_r. Qed.

(** * Observations *)
Lemma pb_type_eqb_spec : forall a b, reflect (a = b) (pb_type_eqb a b).
Proof. intros [] []; simpl; constructor; congruence. Qed.
Lemma gather_block : forall pre x post, gather (pre ++ x ++ post) (seq (length pre) (length x)) = Some x.
Proof.
  intros pre x. revert pre. induction x as [|a x IH]; intros pre post; [reflexivity|]. cbn [length seq gather].
  rewrite nth_error_app2 by lia. rewrite Nat.sub_diag. cbn [app nth_error].
  replace (pre ++ a :: x ++ post) with ((pre ++ [a]) ++ x ++ post) by (rewrite <- app_assoc; reflexivity).
  replace (S (length pre)) with (length (pre ++ [a])) by (rewrite app_length; simpl; lia). rewrite IH. reflexivity.
Qed.

Section ObsProps.
Context {W P : Type}.
Variables (body_pos body_lin body_ang : W -> nat -> list R).
Variables (link_pos link_lin link_ang : W -> nat * Z -> list R).
Variables (joint_pos joint_vel : W -> nat * nat -> R).
Variable points : W -> nat -> nat -> list ((Z * Z) * P).
Variable ms : models.
Variable mm : dict nat.
Variable split : nat -> nat * nat.
(** what the simulator returns: three coordinates and a quaternion, three components of a velocity *)
Definition sane (w : W) : Prop := (forall m, length (body_pos w m) = 7 /\ length (body_lin w m) = 3 /\ length (body_ang w m) = 3) /\
  (forall l, length (link_pos w l) = 7 /\ length (link_lin w l) = 3 /\ length (link_ang w l) = 3).
Notation read := (read_entry body_pos body_lin body_ang link_pos link_lin link_ang joint_pos joint_vel ms mm).
Notation readall := (read_all body_pos body_lin body_ang link_pos link_lin link_ang joint_pos joint_vel ms mm).
Notation state := (create_sim_state body_pos body_lin body_ang link_pos link_lin link_ang joint_pos joint_vel points ms mm split).

Lemma read_length : forall w ids (cc : computed P) e x l, sane w -> read w ids cc e = Some x -> entry_lims ms e = Some l -> length x = length l.
Proof.
  intros w ids cc [n t] x l (S1 & S2) H L. unfold read_entry in H. destruct (build_maps ms) as [jm lm] eqn:B. unfold entry_lims in L. rewrite B in L. simpl in *.
  destruct t; simpl in *;
    repeat match goal with H : option_map _ ?y = Some _ |- _ => let E := fresh in destruct y eqn:E; simpl in H; [|discriminate]; inversion H; subst; clear H end;
    repeat match goal with H : match ?y with _ => _ end = Some _ |- _ => let E := fresh in destruct y eqn:E; simpl in H; try discriminate end;
    repeat match goal with H : option_map _ ?y = Some _ |- _ => let E := fresh in destruct y eqn:E; simpl in H; [|discriminate]; inversion H; subst; clear H end;
    repeat match goal with H : Some _ = Some _ |- _ => inversion H; subst; clear H end;
    try reflexivity; try apply S1; try apply S2; try (destruct o; reflexivity).
Qed.
(** where the entries are *)
Lemma process_spec : forall spec lims d lims' d' , process ms spec lims d = Some (lims', d') ->
  exists ls, Forall2 (fun e l => entry_lims ms e = Some l) spec ls /\ lims' = lims ++ concat ls /\
  (forall n t, ~ In (n, t) spec -> d' n t = d n t) /\
  (forall n t, In (n, t) spec -> exists s1 s2 l1 l l2, spec = s1 ++ (n, t) :: s2 /\ ls = l1 ++ l :: l2 /\ length l1 = length s1 /\ entry_lims ms (n, t) = Some l /\ d' n t = Some (seq (length (lims ++ concat l1)) (length l))).
Proof.
  induction spec as [|[n0 t0] spec IH]; intros lims d lims' d' H.
  - simpl in H. inversion H; subst. exists []. repeat split; [constructor|simpl; rewrite app_nil_r; reflexivity|contradiction].
  - cbn [process] in H. destruct (entry_lims ms (n0, t0)) as [l|] eqn:E; [|discriminate]. cbn [fst snd] in H.
    destruct (IH _ _ _ _ H) as (ls & I1 & I2 & I3 & I4). exists (l :: ls). split; [constructor; assumption|]. split; [rewrite I2; simpl; rewrite app_assoc; reflexivity|].
    assert (Q : forall n t, iset d n0 t0 (seq (length lims) (length (lims ++ l) - length lims)) n t = if andb (Nat.eqb n n0) (pb_type_eqb t t0) then Some (seq (length lims) (length l)) else d n t).
    { intros. unfold iset. rewrite app_length. replace (length lims + length l - length lims) with (length l) by lia. reflexivity. }
    split.
    + intros n t NI. rewrite I3 by (intros C; apply NI; right; exact C). rewrite Q. destruct (Nat.eqb_spec n n0); [|reflexivity]. destruct (pb_type_eqb_spec t t0); [|reflexivity].
      subst. exfalso. apply NI. left. reflexivity.
    + intros n t HI. assert (D : In (n, t) spec \/ ~ In (n, t) spec).
      { assert (forall a b : nat * pb_type, {a = b} + {a <> b}) by (repeat decide equality). destruct (in_dec H0 (n, t) spec); auto. }
      destruct D as [D|D].
      * destruct (I4 n t D) as (s1 & s2 & l1 & l' & l2 & A1 & A2 & A2' & A3 & A4). exists ((n0, t0) :: s1), s2, (l :: l1), l', l2. rewrite A1, A2. simpl. repeat split; auto. rewrite A4. f_equal. f_equal. rewrite !app_length. lia.
      * destruct HI as [HI|HI]; [|contradiction]. inversion HI; subst n0 t0. exists [], spec, [], l, ls. repeat split; auto.
        rewrite I3 by exact D. rewrite Q, Nat.eqb_refl. destruct (pb_type_eqb_spec t t); [|congruence]. simpl. rewrite app_nil_r. reflexivity.
Qed.
Lemma readall_spec : forall w ids (cc : computed P) spec obs, readall w ids cc spec = Some obs -> exists xs, Forall2 (fun e x => read w ids cc e = Some x) spec xs /\ obs = concat xs.
Proof.
  intros w ids cc. induction spec as [|e spec IH]; intros obs H.
  - simpl in H. inversion H. exists []. split; [constructor|reflexivity].
  - cbn [read_all] in H. destruct (read w ids cc e) as [x|] eqn:E; [|discriminate]. destruct (readall w ids cc spec) as [y|] eqn:F; [|discriminate].
    inversion H; subst. destruct (IH y eq_refl) as (xs & I1 & ->). exists (x :: xs). split; [constructor; assumption|reflexivity].
Qed.
Lemma obs_parts : forall w ids (cc : computed P) spec lims d obs, sane w -> process_observations ms spec = Some (lims, d) -> readall w ids cc spec = Some obs ->
  length obs = length lims /\ (forall n t, In (n, t) spec -> exists x, read w ids cc (n, t) = Some x /\ get_sim_state d obs n t = Some x).
Proof.
  intros w ids cc spec lims d obs S HP HR. destruct (process_spec _ _ _ _ _ HP) as (ls & L1 & L2 & _ & L4). destruct (readall_spec _ _ _ _ _ HR) as (xs & X1 & X2).
  assert (EL : forall s ls xs, Forall2 (fun e l => entry_lims ms e = Some l) s ls -> Forall2 (fun e x => read w ids cc e = Some x) s xs -> length (concat xs) = length (concat ls)).
  { induction s; intros ls' xs' A B; inversion A; inversion B; subst; [reflexivity|]. simpl. rewrite !app_length. rewrite (IHs l' l'0) by assumption. f_equal. eapply read_length; eauto. }
  split; [rewrite X2, L2; simpl; eapply EL; eauto|].
  intros n t HI. destruct (L4 n t HI) as (s1 & s2 & l1 & l & l2 & A1 & A2 & A2' & A3 & A4). subst spec ls.
  apply Forall2_app_inv_l in X1. destruct X1 as (x1 & xr & X1 & X1' & ->). inversion X1'; subst. 
  apply Forall2_app_inv_l in L1. destruct L1 as (l1' & lr & L1 & L1' & EQ).
  assert (l1' = l1 /\ lr = l :: l2).
  { assert (length l1' = length s1) by (clear - L1; induction L1; simpl; congruence). clear - EQ H A2'. assert (LL : length l1' = length l1) by lia. clear H A2'. revert l1' EQ LL. induction l1; intros [|b l1'] EQ LL; simpl in *; try discriminate; [auto|].
    inversion EQ; subst. destruct (IHl1 l1' H1 ltac:(lia)) as [-> ->]. auto. }
  destruct H as [-> ->]. exists y. split; [assumption|]. unfold get_sim_state. rewrite A4. rewrite concat_app. simpl.
  rewrite <- (read_length w ids cc (n, t) y l S H1 A3). rewrite <- (EL _ _ _ L1 X1). apply gather_block.
Qed.

(** The state has one number per limit; get_sim_state returns exactly the readings of the named object, whatever else is in the specification and also when the
    entry is listed twice; joints.positions and joints.velocities are those of the joints in the order of the specification. *)
Theorem pb_observation : forall w spec lims d (cc : computed P) obs, sane w -> process_observations ms spec = Some (lims, d) -> state w spec cc = Some obs ->
  length obs = length lims /\
  (forall n t m, In (n, t) spec -> mm n = Some m -> get_sim_state d obs n t = match t with BodyPos => Some (body_pos w m) | BodyLin => Some (body_lin w m) | BodyAng => Some (body_ang w m) | _ => get_sim_state d obs n t end) /\
  (forall n t l, In (n, t) spec -> snd (build_maps ms) n = Some l -> get_sim_state d obs n t = match t with LinkPos => Some (link_pos w l) | LinkLin => Some (link_lin w l) | LinkAng => Some (link_ang w l) | _ => get_sim_state d obs n t end) /\
  (forall n t j, In (n, t) spec -> fst (build_maps ms) n = Some j -> get_sim_state d obs n t = match t with JntPos => Some [joint_pos w j] | JntVel => Some [joint_vel w j] | _ => get_sim_state d obs n t end) /\
  (exists js, Forall2 (fun e j => fst (build_maps ms) (fst e) = Some j) (filter (fun e => pb_type_eqb (snd e) JntPos) spec) js /\ joints_get d JntPos spec obs = Some (map (joint_pos w) js)) /\
  (exists js, Forall2 (fun e j => fst (build_maps ms) (fst e) = Some j) (filter (fun e => pb_type_eqb (snd e) JntVel) spec) js /\ joints_get d JntVel spec obs = Some (map (joint_vel w) js)).
Proof.
  intros w spec lims d cc obs S HP HS. unfold create_sim_state in HS. destruct (spec_contacts ms mm split spec) as [ids|] eqn:EI; [|discriminate].
  destruct (obs_parts _ _ _ _ _ _ _ S HP HS) as (O1 & O2). split; [exact O1|].
  assert (RD : forall n t x, read w ids (compute_contacts (points w) ids cc) (n, t) = Some x -> get_sim_state d obs n t = Some x -> get_sim_state d obs n t = read w ids (compute_contacts (points w) ids cc) (n, t)) by congruence.
  split; [|split; [|split]].
  - intros n t m HI Hm. destruct (O2 n t HI) as (x & R1 & R2). destruct t; try reflexivity; rewrite R2, <- R1; unfold read_entry; destruct (build_maps ms); simpl; rewrite Hm; reflexivity.
  - intros n t m HI Hm. destruct (O2 n t HI) as (x & R1 & R2). destruct t; try reflexivity; rewrite R2, <- R1; unfold read_entry; destruct (build_maps ms); simpl in *; rewrite Hm; reflexivity.
  - intros n t m HI Hm. destruct (O2 n t HI) as (x & R1 & R2). destruct t; try reflexivity; rewrite R2, <- R1; unfold read_entry; destruct (build_maps ms); simpl in *; rewrite Hm; reflexivity.
  - assert (G : forall t (f : W -> nat * nat -> R), (forall n x, read w ids (compute_contacts (points w) ids cc) (n, t) = Some x -> exists j, fst (build_maps ms) n = Some j /\ x = [f w j]) ->
       exists js, Forall2 (fun e j => fst (build_maps ms) (fst e) = Some j) (filter (fun e => pb_type_eqb (snd e) t) spec) js /\ joints_get d t spec obs = Some (map (f w) js)).
    { intros t f Hf. unfold joints_get.
      assert (I : forall s, incl s spec -> exists js idx, Forall2 (fun e j => fst (build_maps ms) (fst e) = Some j) (filter (fun e => pb_type_eqb (snd e) t) s) js /\ joint_idx d t s = Some idx /\ gather obs idx = Some (map (f w) js)).
      { induction s as [|[n t'] s IH]; intros IN.
        - exists [], []. repeat split. constructor.
        - destruct IH as (js & idx & J1 & J2 & J3); [intros y Hy; apply IN; right; exact Hy|]. simpl.
          assert (HI : In (n, t') spec) by (apply IN; left; reflexivity). destruct (O2 n t' HI) as (x & R1 & R2). unfold get_sim_state in R2.
          destruct (d n t') as [ix|] eqn:ED; [|discriminate]. rewrite J2. destruct (pb_type_eqb_spec t' t) as [->|N].
          + destruct (Hf n x R1) as (j & Hj & ->). destruct ix as [|i ix]; [discriminate|]. exists (j :: js), (i :: idx). split; [constructor; assumption|]. split; [reflexivity|].
            simpl in *. destruct (nth_error obs i); [|discriminate]. rewrite J3. destruct (gather obs ix); [|discriminate]. simpl. congruence.
          + exists js, idx. auto. }
      destruct (I spec (incl_refl _)) as (js & idx & J1 & J2 & J3). exists js. split; [exact J1|]. rewrite J2. exact J3. }
    split; apply G; intros n x; unfold read_entry; destruct (build_maps ms) as [jm lm]; simpl; destruct (jm n) as [j|]; simpl; intros E; try discriminate; exists j; inversion E; auto.
Qed.
(** The limits of a joint entry are its range, or plus and minus its maximal velocity; a contact flag is between 0 and 1; everything else is unbounded. *)
Theorem pb_limits : forall spec lims d, NoDup (map fst ms) -> process_observations ms spec = Some (lims, d) -> forall n t, In (n, t) spec ->
  exists idx, d n t = Some idx /\ idx <> [] /\ forall i, In i idx -> 
    match t with
    | JntPos => exists m j info, fst (build_maps ms) n = Some (m, j) /\ joint_at ms m j info /\ nth_error lims i = Some (Some (j_low info), Some (j_high info))
    | JntVel => exists m j info, fst (build_maps ms) n = Some (m, j) /\ joint_at ms m j info /\ nth_error lims i = Some (Some (- j_vel info)%R, Some (j_vel info))
    | ContactFlag => nth_error lims i = Some (Some 0%R, Some 1%R)
    | _ => nth_error lims i = Some (None, None)
    end.
Proof.
  intros spec lims d ND HP n t HI. destruct (process_spec _ _ _ _ _ HP) as (ls & L1 & L2 & _ & L4). destruct (L4 n t HI) as (s1 & s2 & l1 & l & l2 & A1 & A2 & A2' & A3 & A4).
  exists (seq (length (concat l1)) (length l)). split; [exact A4|].
  assert (NE : forall i, In i (seq (length (concat l1)) (length l)) -> exists k, nth_error lims i = nth_error l k /\ k < length l).
  { intros i Hi. apply in_seq in Hi. exists (i - length (concat l1)). split; [|lia]. rewrite L2, A2. simpl. rewrite concat_app. simpl. rewrite nth_error_app2 by lia. rewrite nth_error_app1 by lia. reflexivity. }
  assert (RP : forall k m (x : option R * option R), k < m -> nth_error (repeat x m) k = Some x).
  { intros k m x Hk. rewrite (List.nth_error_nth' _ x) by (rewrite repeat_length; exact Hk). f_equal. apply nth_repeat. }
  unfold entry_lims in A3. cbn [fst snd] in A3. destruct (build_maps_spec ms) as (B1 & _).
  assert (JJ : forall mj, fst (build_maps ms) n = Some mj -> exists i, joint_at ms (fst mj) (snd mj) i /\ joint_info ms mj = Some i).
  { intros [m j] E. destruct (B1 n _ E) as (i & K & _). exists i. split; [exact K|]. apply joint_info_at; assumption. }
  destruct t; try (match type of A3 with Some (repeat ?x ?m) = Some _ => assert (Q : l = repeat x m) by congruence end; subst l; rewrite repeat_length in *; split; [discriminate|intros i Hi; destruct (NE i Hi) as (k & -> & Hk); apply RP; exact Hk]).
  - destruct (fst (build_maps ms) n) as [[m j]|] eqn:E; [|discriminate]. destruct (JJ _ eq_refl) as (info & K1 & K2). rewrite K2 in A3. simpl in A3. inversion A3; subst l. split; [discriminate|].
    intros i Hi. destruct (NE i Hi) as (k & -> & Hk). simpl in Hk. assert (k = 0) by lia. subst k. exists m, j, info. auto.
  - destruct (fst (build_maps ms) n) as [[m j]|] eqn:E; [|discriminate]. destruct (JJ _ eq_refl) as (info & K1 & K2). rewrite K2 in A3. simpl in A3. inversion A3; subst l. split; [discriminate|].
    intros i Hi. destruct (NE i Hi) as (k & -> & Hk). simpl in Hk. assert (k = 0) by lia. subst k. exists m, j, info. auto.
  - inversion A3; subst l. split; [discriminate|]. intros i Hi. destruct (NE i Hi) as (k & -> & Hk). simpl in Hk. assert (k = 0) by lia. subst k. reflexivity.
Qed.
End ObsProps.

(** * Contact flags *)
Lemma npair_eqb_spec : forall a b, reflect (a = b) (npair_eqb a b).
Proof. intros [a b] [c d]. unfold npair_eqb. simpl. destruct (Nat.eqb_spec a c), (Nat.eqb_spec b d); simpl; constructor; congruence. Qed.
Lemma zpair_eqb_spec : forall a b, reflect (a = b) (zpair_eqb a b).
Proof. intros [a b] [c d]. unfold zpair_eqb. simpl. destruct (Z.eqb_spec a c), (Z.eqb_spec b d); simpl; constructor; congruence. Qed.
Lemma existsb_zpair : forall x l, existsb (zpair_eqb x) l = true <-> In x l.
Proof.
  intros x l. rewrite existsb_exists. split; [intros (y & H & E); destruct (zpair_eqb_spec x y); [subst; exact H|discriminate]|].
  intros H. exists x. split; [exact H|]. destruct (zpair_eqb_spec x x); [reflexivity|congruence].
Qed.
Definition covers (cl : list ((nat * nat) * list (Z * Z))) (k : (nat * nat) * (Z * Z)) : Prop := exists ls, In (fst k, ls) cl /\ In (snd k) ls.
Lemma add_contact_covers : forall cl c k, covers (add_contact cl c) k <-> covers cl k \/ k = c.
Proof.
  induction cl as [|[m ls] cl IH]; intros [cm cz] [km kz].
  - unfold covers. simpl. split.
    + intros (l & [H|[]] & H2). inversion H; subst. destruct H2 as [->|[]]. right. reflexivity.
    + intros [(l & [] & _)|H]. inversion H; subst. exists [cz]. simpl. auto.
  - cbn [add_contact fst snd]. destruct (npair_eqb_spec m cm) as [->|N]; simpl.
    + destruct (existsb (zpair_eqb cz) ls) eqn:E; cbn [negb].
      * assert (HI : In cz ls) by (apply existsb_zpair; exact E). specialize (IH (cm, cz) (km, kz)). unfold covers in *. simpl in *. split.
        -- intros (l & [H|H] & H2); [left; exists l; auto|]. destruct (proj1 IH) as [(l' & H3 & H4)|H3]; [exists l; auto|left; exists l'; auto|right; exact H3].
        -- intros [(l & [H|H] & H2)|H]; [exists l; auto| |].
           ++ destruct (proj2 IH) as (l' & H3 & H4); [left; exists l; auto|]. exists l'. auto.
           ++ inversion H; subst. exists ls. auto.
      * unfold covers. simpl. split.
        -- intros (l & [H|H] & H2); [|left; exists l; auto]. inversion H; subst. apply in_app_or in H2. destruct H2 as [H2|[->|[]]]; [left; exists ls; auto|right; reflexivity].
        -- intros [(l & [H|H] & H2)|H].
           ++ inversion H; subst. exists (l ++ [cz]). split; [auto|]. apply in_or_app. auto.
           ++ exists l. auto.
           ++ inversion H; subst. exists (ls ++ [cz]). split; [auto|]. apply in_or_app. right. simpl. auto.
    + specialize (IH (cm, cz) (km, kz)). unfold covers in *. simpl in *. split.
      * intros (l & [H|H] & H2); [left; exists l; auto|]. destruct (proj1 IH) as [(l' & H3 & H4)|H3]; [exists l; auto|left; exists l'; auto|right; exact H3].
      * intros [(l & [H|H] & H2)|H]; [exists l; auto| |].
        -- destruct (proj2 IH) as (l' & H3 & H4); [left; exists l; auto|]. exists l'. auto.
        -- destruct (proj2 IH) as (l' & H3 & H4); [right; exact H|]. exists l'. auto.
Qed.
Lemma contact_list_covers : forall ids k, covers (contact_list ids) k <-> exists e, In e ids /\ order_contact (snd e) = k.
Proof.
  intros ids k. unfold contact_list.
  assert (G : forall l cl, covers (fold_left (fun cl e => add_contact cl (order_contact (snd e))) l cl) k <-> covers cl k \/ exists e : nat * ((nat * nat) * (Z * Z)), In e l /\ order_contact (snd e) = k).
  { induction l as [|e l IH]; intros cl; simpl.
    - split; [auto|]. intros [H|(e & [] & _)]; exact H.
    - rewrite IH, add_contact_covers. split.
      + intros [[H|H]|(x & H1 & H2)]; [auto|right; exists e; auto|right; exists x; auto].
      + intros [H|(x & [<-|H1] & H2)]; [auto|left; right; auto|right; exists x; auto]. }
  rewrite G. split; [intros [(l & [] & _)|H]; exact H|auto].
Qed.
Section ContactProps.
Context {P : Type}.
Implicit Types (d : computed P) (k : (nat * nat) * (Z * Z)).
Definition hit (x : option (option P)) : Prop := exists p, x = Some (Some p).
Lemma cset_spec : forall d k v k', cset d k v k' = if andb (npair_eqb (fst k') (fst k)) (zpair_eqb (snd k') (snd k)) then Some v else d k'.
Proof. reflexivity. Qed.
Lemma reset_contacts_spec : forall ids d k, (exists e, In e ids /\ order_contact (snd e) = k) -> reset_contacts ids d k = Some None.
Proof.
  intros ids d k. unfold reset_contacts.
  assert (K : forall l d', d' k = Some None -> fold_left (fun d (e : nat * ((nat * nat) * (Z * Z))) => cset d (order_contact (snd e)) None) l d' k = Some (None : option P)).
  { induction l as [|e l IH]; intros d' H; [exact H|]. simpl. apply IH. rewrite cset_spec. destruct (_ && _)%bool; [reflexivity|exact H]. }
  revert d. induction ids as [|e ids IH]; intros d (x & H & E); [contradiction|]. simpl. destruct H as [->|H].
  - apply K. rewrite cset_spec. subst k. destruct (npair_eqb_spec (fst (order_contact (snd x))) (fst (order_contact (snd x)))), (zpair_eqb_spec (snd (order_contact (snd x))) (snd (order_contact (snd x)))); simpl; congruence.
  - apply IH. exists x. auto.
Qed.
Lemma inner_spec : forall (e : (nat * nat) * list (Z * Z)) ps d k, 
  let r := fold_left (fun d (p : (Z * Z) * P) => if existsb (zpair_eqb (fst p)) (snd e) then cset d (fst e, fst p) (Some (snd p)) else d) ps d in
  (hit (r k) <-> hit (d k) \/ (fst e = fst k /\ In (snd k) (snd e) /\ exists p, In (snd k, p) ps)) /\ (d k <> None -> r k <> None).
Proof.
  intros e ps. induction ps as [|[z p] ps IH]; intros d k r.
  - unfold r. simpl. split; [|auto]. split; [auto|]. intros [H|(_ & _ & x & [])]. exact H.
  - unfold r. cbn [fold_left fst snd]. destruct (existsb (zpair_eqb z) (snd e)) eqn:E.
    + destruct (IH (cset d (fst e, z) (Some p)) k) as [I1 I2]. split.
      * rewrite I1. rewrite cset_spec. simpl. apply existsb_zpair in E. destruct (npair_eqb_spec (fst k) (fst e)) as [Q|Q]; [destruct (zpair_eqb_spec (snd k) z) as [Q2|Q2]|]; simpl.
        -- split; [intros _|intros _; left; exists p; reflexivity]. right. subst z. split; [auto|]. split; [exact E|]. exists p. auto.
        -- split; (intros [H|(H1 & H2 & x & H3)]; [left; exact H|right; split; [exact H1|split; [exact H2|]]]).
           ++ exists x. auto.
           ++ destruct H3 as [H3|H3]; [inversion H3; congruence|exists x; exact H3].
        -- split; (intros [H|(H1 & H2 & x & H3)]; [left; exact H|congruence]).
      * intros N. apply I2. rewrite cset_spec. destruct (_ && _)%bool; [discriminate|exact N].
    + destruct (IH d k) as [I1 I2]. split; [|exact I2]. rewrite I1. split; (intros [H|(H1 & H2 & x & H3)]; [left; exact H|right; split; [exact H1|split; [exact H2|]]]).
      * exists x. right. exact H3.
      * destruct H3 as [H3|H3]; [|exists x; exact H3]. inversion H3; subst. exfalso. apply existsb_zpair in H2. congruence.
Qed.
(** the table after compute_contacts, whatever was in it before *)
Lemma compute_spec : forall points ids d k, (exists e, In e ids /\ order_contact (snd e) = k) ->
  let r := compute_contacts points ids d k in (hit r <-> exists p : P, In (snd k, p) (points (fst (fst k)) (snd (fst k)))) /\ r <> None.
Proof.
  intros points ids d k C r. unfold r, compute_contacts. pose proof (proj2 (contact_list_covers ids k) C) as CV.
  destruct (contact_list ids) as [|e0 cl] eqn:E; [destruct CV as (l & [] & _)|]. rewrite <- E in *. clear E e0 cl.
  set (F := fun d (e : (nat * nat) * list (Z * Z)) => fold_left (fun d (p : (Z * Z) * P) => if existsb (zpair_eqb (fst p)) (snd e) then cset d (fst e, fst p) (Some (snd p)) else d) (points (fst (fst e)) (snd (fst e))) d).
  assert (G : forall cl d, (hit (fold_left F cl d k) <-> hit (d k) \/ exists e, In e cl /\ fst e = fst k /\ In (snd k) (snd e) /\ exists p, In (snd k, p) (points (fst (fst k)) (snd (fst k)))) /\ (d k <> None -> fold_left F cl d k <> None)).
  { induction cl as [|e cl IH]; intros d0.
    - simpl. split; [|auto]. split; [auto|]. intros [H|(e & [] & _)]. exact H.
    - cbn [fold_left]. destruct (IH (F d0 e)) as [I1 I2]. destruct (inner_spec e (points (fst (fst e)) (snd (fst e))) d0 k) as [J1 J2]. fold (F d0 e) in J1, J2. split.
      + rewrite I1, J1. split.
        * intros [[H|(H1 & H2 & H3)]|(x & H1 & H2)]; [auto|right; exists e; rewrite H1 in *; simpl; auto|right; exists x; split; [right; exact H1|exact H2]].
        * intros [H|(x & [<-|H1] & H2 & H3 & H4)]; [auto|left; right; rewrite H2; auto|right; exists x; auto].
      + intros N. apply I2. apply J2. exact N. }
  destruct (G (contact_list ids) (reset_contacts ids d)) as [G1 G2]. rewrite (reset_contacts_spec ids d k C) in *. split; [|apply G2; discriminate].
  rewrite G1. split.
  - intros [(p & H)|(e & _ & _ & _ & H)]; [discriminate|exact H].
  - intros H. right. destruct CV as (l & H1 & H2). exists (fst k, l). auto.
Qed.
End ContactProps.
Lemma contact_ids_spec : forall lm mm split names ids, contact_ids lm mm split names = Some ids -> forall n, In n names ->
  exists m1 l1 m2 l2 e, link_ids lm mm (fst (split n)) = Some (m1, l1) /\ link_ids lm mm (snd (split n)) = Some (m2, l2) /\
  find (fun e => Nat.eqb (fst e) n) ids = Some e /\ In e ids /\ snd e = ((m1, m2), (l1, l2)).
Proof.
  intros lm mm split. induction names as [|n0 names IH]; intros ids H n HI; [contradiction|]. simpl in H.
  destruct (link_ids lm mm (fst (split n0))) as [[m1 l1]|] eqn:E1; [|discriminate]. destruct (link_ids lm mm (snd (split n0))) as [[m2 l2]|] eqn:E2; [|discriminate].
  destruct (contact_ids lm mm split names) as [x|] eqn:E3; [|discriminate]. inversion H; subst. simpl. destruct (Nat.eqb_spec n0 n) as [->|N].
  - exists m1, l1, m2, l2, (n, (m1, m2, (l1, l2))). repeat split; auto.
  - destruct HI as [HI|HI]; [contradiction|]. destruct (IH x eq_refl n HI) as (a & b & c & d & e & K1 & K2 & K3 & K4 & K5). exists a, b, c, d, e. repeat split; auto.
Qed.

Section Flags.
Context {W P : Type}.
Variables (body_pos body_lin body_ang : W -> nat -> list R).
Variables (link_pos link_lin link_ang : W -> nat * Z -> list R).
Variables (joint_pos joint_vel : W -> nat * nat -> R).
Variable points : W -> nat -> nat -> list ((Z * Z) * P).
Variable ms : models.
Variable mm : dict nat.
Variable split : nat -> nat * nat.
Notation state := (create_sim_state body_pos body_lin body_ang link_pos link_lin link_ang joint_pos joint_vel points ms mm split).
Notation ids_of := (link_ids (snd (build_maps ms)) mm).

Lemma flag_spec : forall w spec lims d (cc : computed P) obs n m1 l1 m2 l2,
  sane body_pos body_lin body_ang link_pos link_lin link_ang w -> process_observations ms spec = Some (lims, d) -> state w spec cc = Some obs -> In (n, ContactFlag) spec ->
  ids_of (fst (split n)) = Some (m1, l1) -> ids_of (snd (split n)) = Some (m2, l2) -> 
  exists f, get_sim_state d obs n ContactFlag = Some [f] /\ (f = 0 \/ f = 1)%R /\
    (f = 1%R <-> if Nat.ltb m1 m2 then exists p, In ((l1, l2), p) (points w m1 m2) else exists p, In ((l2, l1), p) (points w m2 m1)).
Proof.
  intros w spec lims d cc obs n m1 l1 m2 l2 S HP HS HI E1 E2. unfold create_sim_state in HS. destruct (spec_contacts ms mm split spec) as [ids|] eqn:EI; [|discriminate].
  destruct (obs_parts _ _ _ _ _ _ _ _ _ _ _ _ _ _ _ _ _ S HP HS) as (_ & O2). destruct (O2 n ContactFlag HI) as (x & R1 & R2). 
  assert (HN : In n (contact_names spec)) by (unfold contact_names; apply (in_map fst _ (n, ContactFlag)); apply filter_In; auto).
  destruct (contact_ids_spec _ _ _ _ _ EI n HN) as (a & b & c & e & en & K1 & K2 & K3 & K4 & K5). rewrite E1 in K1. rewrite E2 in K2. inversion K1; inversion K2; subst a b c e.
  unfold read_entry in R1. destruct (build_maps ms) as [jm lm]. simpl in R1. unfold get_contact in R1. rewrite K3 in R1.
  destruct (compute_spec (points w) ids cc (order_contact (snd en))) as [C1 C2]; [exists en; auto|].
  set (r := compute_contacts (points w) ids cc (order_contact (snd en))) in *. 
  assert (QQ : hit r <-> if Nat.ltb m1 m2 then exists p, In ((l1, l2), p) (points w m1 m2) else exists p, In ((l2, l1), p) (points w m2 m1)).
  { rewrite C1, K5. unfold order_contact. destruct (Nat.ltb m1 m2); simpl; reflexivity. }
  clear C1. destruct r as [[p|]|]; [| |congruence]; simpl in R1; inversion R1; subst x.
  - exists 1%R. split; [exact R2|]. split; [auto|]. split; [intros _; apply QQ; exists p; reflexivity|reflexivity].
  - exists 0%R. split; [exact R2|]. split; [auto|]. split; [intros; lra|]. intros H. apply QQ in H. destruct H as (p & H). discriminate.
Qed.
(** The flag of a contact between two models is 1 exactly when the two links touch, and 0 otherwise: in whatever order the two are named and whatever the last state was. *)
Theorem pb_contact_flag : forall w spec lims d (cc : computed P) obs n m1 l1 m2 l2 (touch : nat * Z -> nat * Z -> Prop),
  sane body_pos body_lin body_ang link_pos link_lin link_ang w -> process_observations ms spec = Some (lims, d) -> state w spec cc = Some obs -> In (n, ContactFlag) spec ->
  ids_of (fst (split n)) = Some (m1, l1) -> ids_of (snd (split n)) = Some (m2, l2) -> m1 <> m2 ->
  (forall x y, touch x y -> touch y x) -> (forall a b la lb, a <> b -> (exists p, In ((la, lb), p) (points w a b)) <-> touch (a, la) (b, lb)) ->
  exists f, get_sim_state d obs n ContactFlag = Some [f] /\ (f = 0 \/ f = 1)%R /\ (f = 1%R <-> touch (m1, l1) (m2, l2)).
Proof.
  intros w spec lims d cc obs n m1 l1 m2 l2 touch S HP HS HI E1 E2 NE SY T. destruct (flag_spec _ _ _ _ _ _ _ _ _ _ _ S HP HS HI E1 E2) as (f & F1 & F2 & F3).
  exists f. split; [exact F1|]. split; [exact F2|]. rewrite F3. destruct (Nat.ltb m1 m2); rewrite T by auto; split; auto.
Qed.
(** Between two links of the same model, only points reported with the second link first count. *)
Theorem pb_self_contact : forall w spec lims d (cc : computed P) obs n m l1 l2,
  sane body_pos body_lin body_ang link_pos link_lin link_ang w -> process_observations ms spec = Some (lims, d) -> state w spec cc = Some obs -> In (n, ContactFlag) spec ->
  ids_of (fst (split n)) = Some (m, l1) -> ids_of (snd (split n)) = Some (m, l2) ->
  exists f, get_sim_state d obs n ContactFlag = Some [f] /\ (f = 0 \/ f = 1)%R /\ (f = 1%R <-> exists p, In ((l2, l1), p) (points w m m)).
Proof.
  intros w spec lims d cc obs n m l1 l2 S HP HS HI E1 E2. destruct (flag_spec _ _ _ _ _ _ _ _ _ _ _ S HP HS HI E1 E2) as (f & F1 & F2 & F3).
  exists f. split; [exact F1|]. split; [exact F2|]. rewrite F3. rewrite Nat.ltb_irrefl. reflexivity.
Qed.
(** With known names the constructor and every state exist; a body or link that does not exist is only noticed when the first state is read. *)
Theorem pb_defined : forall spec,
  (forall n t, In (n, t) spec -> match t with BodyPos | BodyLin | BodyAng => mm n <> None | LinkPos | LinkLin | LinkAng => snd (build_maps ms) n <> None
     | JntPos | JntVel => fst (build_maps ms) n <> None | ContactFlag => ids_of (fst (split n)) <> None /\ ids_of (snd (split n)) <> None end) -> NoDup (map fst ms) ->
  (exists lims d, process_observations ms spec = Some (lims, d)) /\ forall w (cc : computed P), exists obs, state w spec cc = Some obs.
Proof.
  intros spec K ND. split.
  - unfold process_observations. generalize (@nil (option R * option R)) as lims. intros lims. generalize (fun (_ : nat) (_ : pb_type) => @None (list nat)) as d. revert lims.
    induction spec as [|[n t] spec IH]; intros lims d; [simpl; eauto|]. cbn [process].
    assert (E : exists l, entry_lims ms (n, t) = Some l).
    { pose proof (K n t ltac:(left; reflexivity)) as Kn. unfold entry_lims. simpl. destruct (build_maps_spec ms) as (B1 & _).
      destruct t; eauto; destruct (fst (build_maps ms) n) as [[m j]|] eqn:E; try congruence; destruct (B1 n _ E) as (i & A & _); rewrite (joint_info_at ms m j i ND A); simpl; eauto. }
    destruct E as (l & ->). apply IH. intros n' t' H. apply K. right. exact H.
  - intros w cc. unfold create_sim_state.
    assert (E : exists ids, spec_contacts ms mm split spec = Some ids).
    { unfold spec_contacts, contact_names. clear ND. induction spec as [|[n t] spec IH]; [simpl; eauto|].
      destruct IH as (ids & IH); [intros n' t' H; apply K; right; exact H|]. simpl. destruct (pb_type_eqb_spec t ContactFlag) as [->|N]; [|eauto].
      destruct (K n ContactFlag ltac:(left; reflexivity)) as [K1 K2]. simpl. rewrite IH. destruct (ids_of (fst (split n))) as [[? ?]|]; [|congruence]. destruct (ids_of (snd (split n))) as [[? ?]|]; [|congruence]. eauto. }
    destruct E as (ids & E). rewrite E.
    assert (R : forall n t, In (n, t) spec -> exists x, read_entry body_pos body_lin body_ang link_pos link_lin link_ang joint_pos joint_vel ms mm w ids (compute_contacts (points w) ids cc) (n, t) = Some x).
    { intros n t HI. pose proof (K n t HI) as Kn. unfold read_entry. 
      assert (HC : t = ContactFlag -> get_contact ids (compute_contacts (points w) ids cc) n <> None).
      { intros ->. assert (HN : In n (contact_names spec)) by (unfold contact_names; apply (in_map fst _ (n, ContactFlag)); apply filter_In; auto).
        destruct (contact_ids_spec _ _ _ _ _ E n HN) as (a & b & c & e & en & K1 & K2 & K3 & K4 & K5). unfold get_contact. rewrite K3. apply compute_spec. exists en. auto. }
      destruct (build_maps ms) as [jm lm]. simpl in *. destruct t; simpl in *;
        try (destruct (mm n); [simpl; eauto|congruence]); try (destruct (lm n); [simpl; eauto|congruence]); try (destruct (jm n); [simpl; eauto|congruence]).
      destruct (get_contact ids (compute_contacts (points w) ids cc) n); [simpl; eauto|]. exfalso. apply HC; reflexivity. }
    clear - R. induction spec as [|[n t] spec IH]; [simpl; eauto|]. cbn [read_all]. destruct (R n t ltac:(left; reflexivity)) as (x & ->). destruct IH as (y & ->); [intros n' t' H; apply R; right; exact H|]. eauto.
Qed.
End Flags.

(** * The step and the reset *)
Section EnvProps.
Context {W Ob A U X : Type}.
Variables (simulate : W -> W) (control : W -> U -> W) (sim_state : W -> Ob).
Variables (preprocess : A -> A) (compute : Ob -> A -> U).
Variables (absorbing : Ob -> bool) (reward : Ob -> A -> Ob -> bool -> R).
Variable n_int : nat.
Notation step := (pb_step simulate control sim_state preprocess compute absorbing reward n_int).

Lemma pb_loop_spec : forall n w a, let f := fun w => simulate (control w (compute (sim_state w) a)) in
  pb_loop simulate control sim_state compute n w (sim_state w) a = (Nat.iter n f w, sim_state (Nat.iter n f w)).
Proof.
  intros n w a f. assert (I : forall n w, Nat.iter n f (f w) = f (Nat.iter n f w)) by (induction n0; intros; simpl; [reflexivity|rewrite IHn0; reflexivity]).
  revert w. induction n; intros w; [reflexivity|]. simpl. rewrite IHn. fold (f w). rewrite I. reflexivity.
Qed.
(** A step is n_intermediate_steps simulator steps, each after a control computed from the state at that moment; the stored state is always that of the
    simulator; reward and absorbing get the states before and after. *)
Theorem pb_step_control : forall w a w' st' r ab, step w (sim_state w) a = (w', st', r, ab) -> let act := preprocess a in
  w' = Nat.iter n_int (fun w => simulate (control w (compute (sim_state w) act))) w /\ st' = sim_state w' /\ ab = absorbing st' /\ r = reward (sim_state w) act st' ab.
Proof. intros w a w' st' r ab E act. unfold pb_step in E. rewrite pb_loop_spec in E. inversion E; subst. auto. Qed.
Theorem pb_step_time : forall w a w' st' r ab (time : W -> R) timestep, (forall w, time (simulate w) = time w + timestep)%R -> (forall w u, time (control w u) = time w) ->
  step w (sim_state w) a = (w', st', r, ab) -> time w' = (time w + pb_dt timestep n_int)%R.
Proof.
  intros w a w' st' r ab time ts T1 T2 E. apply pb_step_control in E. destruct E as (-> & _). unfold pb_dt.
  match goal with |- time (Nat.iter _ ?f w) = _ => assert (G : forall n, time (Nat.iter n f w) = (time w + ts * INR n)%R); [|apply G] end.
  induction n; [simpl; lra|]. rewrite S_INR. simpl. rewrite T1, T2, IHn. lra.
Qed.
(** reset does not depend on what happened before, and starts with the state of the simulator *)
Theorem pb_reset_fresh : forall (setup : W -> X -> W) initial x w1 w2, pb_reset sim_state initial setup w1 x = pb_reset sim_state initial setup w2 x /\
  snd (pb_reset sim_state initial setup w1 x) = sim_state (fst (pb_reset sim_state initial setup w1 x)) /\ fst (pb_reset sim_state initial setup w1 x) = setup initial x.
Proof. intros. repeat split. Qed.
End EnvProps.

(** * Examples *)
(** a fixed base joint and two movable joints on model 3, one on model 5 *)
Definition ex_ms : models := [(3, [mkJ 10 true 0 0 0 0 20; mkJ 11 false (-1) 1 4 5 21; mkJ 12 false (-2) 2 6 7 22]); (5, [mkJ 13 false (-3) 3 8 9 23])].
Definition ex_mm : dict nat := fun n => if Nat.eqb n 100 then Some 3 else if Nat.eqb n 101 then Some 5 else None.
(** contact 200 is 101<->22, contact 201 is 22<->21 *)
Definition ex_split (n : nat) : nat * nat := if Nat.eqb n 200 then (101, 22) else (22, 21).
Definition ex_spec : list (nat * pb_type) := [(13, JntPos); (100, BodyLin); (11, JntVel); (11, JntPos); (13, JntPos); (200, ContactFlag); (201, ContactFlag)].
Definition ex_points (w : bool) (a b : nat) : list ((Z * Z) * unit) :=
  if andb (Nat.eqb a 3) (Nat.eqb b 5) then [((1%Z, (-1)%Z), tt); ((2%Z, if w then (-1)%Z else 0%Z), tt)] else if andb (Nat.eqb a 3) (Nat.eqb b 3) then [((2%Z, 1%Z), tt)] else [].
Definition ex_state (w : bool) := create_sim_state (fun _ m => repeat 0%R 7) (fun _ m => [INR m; 0; 0]%R) (fun _ m => repeat 0%R 3) (fun _ m => repeat 0%R 7) (fun _ m => repeat 0%R 3) (fun _ m => repeat 0%R 3)
  (fun _ mj => INR (snd mj)) (fun _ mj => (10 * INR (snd mj))%R) ex_points ex_ms ex_mm ex_split w ex_spec (fun _ => None).
Example ex_maps : fst (build_maps ex_ms) 12 = Some (3, 2) /\ fst (build_maps ex_ms) 10 = None /\ snd (build_maps ex_ms) 20 = Some (3, 0%Z).
Proof. repeat split. Qed.
Example ex_states : ex_state true = Some [INR 0; INR 3; 0; 0; 10 * INR 1; INR 1; INR 0; 1; 0]%R /\ ex_state false = Some [INR 0; INR 3; 0; 0; 10 * INR 1; INR 1; INR 0; 0; 0]%R.
Proof. split; reflexivity. Qed.
Example ex_get : exists lims d, process_observations ex_ms ex_spec = Some (lims, d) /\ length lims = 9 /\ nth_error lims 4 = Some (Some (- 5)%R, Some 5%R) /\
  get_sim_state d [1; 2; 3; 4; 5; 6; 7; 8; 9]%R 100 BodyLin = Some [2; 3; 4]%R /\ joints_get d JntPos ex_spec [1; 2; 3; 4; 5; 6; 7; 8; 9]%R = Some [7; 6; 7]%R.
Proof. eexists. eexists. repeat split; reflexivity. Qed.
Example ex_control : apply_control ex_ms (action_data (fst (build_maps ex_ms)) [(13, Torque); (11, Position)]) [1; 2]%R = Some [((5, 0), CTorque 1%R); ((3, 1), CPos 2%R 5%R 4%R)].
Proof. reflexivity. Qed.
(** entry 201 asks for links 2 and 1 of model 3, which the simulator reports in this order: the flag is 0 although they touch *)
Theorem pb_self_contact_refuted : exists obs lims d, ex_state true = Some obs /\ process_observations ex_ms ex_spec = Some (lims, d) /\
  In ((2%Z, 1%Z), tt) (ex_points true 3 3) /\ link_ids (snd (build_maps ex_ms)) ex_mm 22 = Some (3, 2%Z) /\ link_ids (snd (build_maps ex_ms)) ex_mm 21 = Some (3, 1%Z) /\
  get_sim_state d obs 201 ContactFlag = Some [0%R].
Proof. eexists. eexists. eexists. split; [reflexivity|]. split; [reflexivity|]. split; [simpl; auto|]. repeat split; reflexivity. Qed.
(** a misspelled first joint: one component, which moves joint 11 *)
Example ex_misspelled : action_data (fst (build_maps ex_ms)) [(99, Torque); (11, Position)] = [((3, 1), Position)].
Proof. reflexivity. Qed.
Example ex_env : fst (fst (fst (pb_step (fun w => (fst w + snd w, snd w)) (fun w u => (fst w, u)) fst (fun a => a + 1) (fun o a => o + a) (fun o => Nat.leb 100 o) (fun o a o' ab => 0%R) 3 (1, 0) 1 1))) = (22, 12).
Proof. reflexivity. Qed.

Print Assumptions pb_names.
Print Assumptions pb_names_refuted.
Print Assumptions pb_actions.
Print Assumptions pb_unknown_joint_refuted.
Print Assumptions pb_empty_actuation_refuted.
Print Assumptions pb_observation.
Print Assumptions pb_limits.
Print Assumptions pb_contact_flag.
Print Assumptions pb_self_contact.
Print Assumptions pb_self_contact_refuted.
Print Assumptions pb_defined.
Print Assumptions pb_step_control.
Print Assumptions pb_step_time.
Print Assumptions pb_reset_fresh.

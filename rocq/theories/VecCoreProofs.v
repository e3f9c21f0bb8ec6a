From Coq Require Import List Arith Lia Bool Permutation.
From Verif Require Import Common CoreModel VecCoreModel VecCoreSpec.
Import ListNotations.

(** * Boolean vectors *)
Lemma cnt_cons : forall b l, cnt (b :: l) = (if b then 1 else 0) + cnt l.
Proof. intros [] l; unfold cnt; simpl; auto. Qed.
Lemma cnt_app : forall a b, cnt (a ++ b) = cnt a + cnt b.
Proof. intros. unfold cnt. apply count_occ_app. Qed.
Lemma cnt_repeat_t : forall k, cnt (repeat true k) = k.
Proof. induction k; simpl; auto. rewrite cnt_cons, IHk. auto. Qed.
Lemma cnt_repeat_f : forall k, cnt (repeat false k) = 0.
Proof. induction k; simpl; auto. Qed.
Lemma cnt_le : forall l, cnt l <= length l.
Proof. induction l as [|[] l]; rewrite ?cnt_cons; simpl; try lia. unfold cnt; simpl; lia. Qed.
Lemma cnt_0 : forall l, cnt l = 0 <-> forall j, nth j l false = false.
Proof.
  induction l as [|b l IH]; simpl.
  - split; auto. intros _ []; auto.
  - rewrite cnt_cons. split; intros H.
    + destruct b; [lia|]. intros [|j]; auto. apply IH. lia.
    + pose proof (H 0) as H0. simpl in H0. subst. apply IH. intros j. apply (H (S j)).
Qed.
Lemma vany_cnt : forall l, vany l = true <-> 1 <= cnt l.
Proof.
  induction l as [|[] l IH]; simpl; rewrite ?cnt_cons.
  - unfold cnt; simpl. split; [discriminate|lia].
  - split; auto; lia.
  - exact IH.
Qed.

Definition sub (a b : list bool) : Prop := forall j, nth j a false = true -> nth j b false = true.

Lemma nth_vand : forall a b, length a = length b -> forall j,
  nth j (vand a b) false = nth j a false && nth j b false.
Proof.
  induction a as [|x a IH]; destruct b as [|y b]; simpl; intros H; try discriminate; intros [|j]; auto.
  apply IH. lia.
Qed.
Lemma nth_vnot : forall a j, j < length a -> nth j (vnot a) false = negb (nth j a false).
Proof. induction a; simpl; intros; try lia. destruct j; auto. apply IHa. lia. Qed.
Lemma vand_length : forall a b, length a = length b -> length (vand a b) = length a.
Proof. intros. unfold vand. rewrite map_length, combine_length. lia. Qed.
Lemma vnot_length : forall a, length (vnot a) = length a.
Proof. intros. apply map_length. Qed.

Lemma cnt_split : forall a b, length a = length b -> cnt (vand a b) + cnt (vand (vnot a) b) = cnt b.
Proof.
  induction a as [|x a IH]; destruct b as [|y b]; simpl; intros H; try discriminate; auto.
  unfold vand, vnot in *; simpl. rewrite !cnt_cons. specialize (IH b ltac:(lia)). destruct x, y; simpl; lia.
Qed.
Lemma vand_sub : forall a b, length a = length b -> sub a b -> vand a b = a.
Proof.
  induction a as [|x a IH]; destruct b as [|y b]; simpl; intros H S; try discriminate; auto.
  unfold vand in *; simpl. f_equal.
  - pose proof (S 0) as S0; simpl in S0. destruct x, y; auto.
  - apply IH; [lia|]. intros j; apply (S (Datatypes.S j)).
Qed.
Lemma sub_cnt : forall a b, length a = length b -> sub a b -> cnt a <= cnt b.
Proof.
  intros a b L S. rewrite <- (cnt_split a b L), vand_sub; auto. lia.
Qed.

Lemma scatter_length : forall l v m, length l = length m -> length (scatter l v m) = length m.
Proof.
  induction l as [|[] l IH]; destruct m; simpl; intros; try discriminate; auto.
  destruct v; simpl; rewrite IH; auto.
Qed.
Lemma scatter_cnt : forall l v m, length l = length m -> length v = cnt l ->
  cnt (scatter l v m) = cnt v + cnt (vand (vnot l) m).
Proof.
  induction l as [|x l IH]; destruct m as [|y m]; simpl; intros H V; try discriminate.
  - destruct v; simpl in *; auto. discriminate.
  - rewrite cnt_cons in V. destruct x.
    + destruct v as [|w v]; simpl in V; [lia|]. rewrite cnt_cons, (IH v m) by lia.
      unfold vand, vnot; simpl. rewrite !cnt_cons. simpl. lia.
    + rewrite cnt_cons, (IH v m) by lia. unfold vand, vnot; simpl. rewrite !cnt_cons. destruct y; simpl; lia.
Qed.
Lemma scatter_keep : forall l v m j, length l = length m -> nth j l false = false ->
  nth j (scatter l v m) false = nth j m false.
Proof.
  induction l as [|x l IH]; destruct m as [|y m]; simpl; intros j H; try discriminate.
  - destruct j; auto.
  - destruct j; simpl; intros E.
    + subst. auto.
    + destruct x; [destruct v|]; simpl; apply IH; auto.
Qed.
Lemma scatter_all_true : forall l m, length l = length m ->
  (forall j, j < length m -> nth j l false = false -> nth j m false = true) ->
  scatter l (repeat true (cnt l)) m = repeat true (length m).
Proof.
  induction l as [|x l IH]; destruct m as [|y m]; simpl; intros H A; try discriminate; auto.
  rewrite cnt_cons. destruct x; simpl.
  - f_equal. apply IH; [lia|]. intros j Hj. apply (A (S j)). lia.
  - pose proof (A 0 ltac:(lia)) as A0; simpl in A0. rewrite A0 by auto. f_equal. apply IH; [lia|]. intros j Hj. apply (A (S j)). lia.
Qed.

(** sums over environments *)
Definition sumn (n : nat) (f : nat -> nat) : nat := list_sum (map f (seq 0 n)).
Lemma sumn_S : forall n f, sumn (S n) f = sumn n f + f n.
Proof. intros. unfold sumn. rewrite seq_S, map_app, list_sum_app. simpl. lia. Qed.
Lemma sumn_le : forall n f g, (forall j, j < n -> f j <= g j) -> sumn n f <= sumn n g.
Proof. induction n; intros; [reflexivity|]. rewrite !sumn_S. pose proof (IHn f g). pose proof (H n). assert (sumn n f <= sumn n g) by (apply H0; intros; apply H; lia). lia. Qed.
Lemma sumn_ext : forall n f g, (forall j, j < n -> f j = g j) -> sumn n f = sumn n g.
Proof. intros. apply Nat.le_antisymm; apply sumn_le; intros; rewrite H; auto. Qed.
Lemma sumn_plus : forall n f g, sumn n (fun j => f j + g j) = sumn n f + sumn n g.
Proof. induction n; intros; [reflexivity|]. rewrite !sumn_S, IHn. lia. Qed.
Lemma sumn_scal : forall n c f, sumn n (fun j => c * f j) = c * sumn n f.
Proof. induction n; intros; [unfold sumn; simpl; lia|]. rewrite !sumn_S, IHn. lia. Qed.
Lemma sumn_0 : forall n, sumn n (fun _ => 0) = 0.
Proof. induction n; auto. rewrite sumn_S, IHn. auto. Qed.
Definition b2n (b : bool) : nat := if b then 1 else 0.
Lemma cnt_sumn : forall l, cnt l = sumn (length l) (fun j => b2n (nth j l false)).
Proof.
  induction l as [|b l IH] using rev_ind; [reflexivity|].
  rewrite cnt_app, app_length, Nat.add_1_r, sumn_S, IH.
  rewrite app_nth2, Nat.sub_diag by lia. simpl.
  assert (cnt [b] = b2n b) by (destruct b; reflexivity). rewrite H. f_equal.
  apply sumn_ext. intros. rewrite app_nth1 by lia. auto.
Qed.

Lemma nth_map_combine : forall A B C (f : A * B -> C) a b da db dc j,
  length a = length b -> j < length a ->
  nth j (map f (combine a b)) dc = f (nth j a da, nth j b db).
Proof.
  intros. rewrite (nth_indep _ dc (f (da, db))) by (rewrite map_length, combine_length; lia).
  rewrite map_nth, combine_nth; auto.
Qed.

Lemma nth_repeat_lt : forall A (x d : A) k j, j < k -> nth j (repeat x k) d = x.
Proof. induction k; intros; [lia|]. destruct j; simpl; auto. apply IHk. lia. Qed.

Lemma nth_ext_len : forall A (a b : list A) d, length a = length b ->
  (forall j, j < length a -> nth j a d = nth j b d) -> a = b.
Proof. intros. eapply nth_ext; eauto. Qed.

Lemma mul_between : forall n a b, n * b <= n * a -> n * a < n * b + n -> a = b.
Proof.
  intros n a b H1 H2. destruct (lt_eq_lt_dec a b) as [[L|]|L]; auto.
  - assert (n * (a + 1) <= n * b) by (apply Nat.mul_le_mono_l; lia). lia.
  - assert (n * (b + 1) <= n * a) by (apply Nat.mul_le_mono_l; lia). lia.
Qed.

(** * Logs *)
Lemma steps_app : forall a b, steps_of (a ++ b) = steps_of a ++ steps_of b.
Proof. intros; apply flat_map_app. Qed.
Lemma vfits_app : forall a b, vfits_of (a ++ b) = vfits_of a ++ vfits_of b.
Proof. intros; apply flat_map_app. Qed.
Lemma batches_snoc : forall log cur e,
  batches cur (log ++ [e]) =
    let (bs, c) := batches cur log in
    match e with VStep t m l => (bs, c ++ [(t, m, l)]) | VFit _ => (bs ++ [c], []) end.
Proof.
  induction log as [|[t m l|d] log IH]; intros; simpl.
  - destruct e; auto.
  - apply IH.
  - rewrite IH. destruct (batches [] log). destruct e; auto.
Qed.
Lemma since_snoc_step : forall log t m l, since_fit (log ++ [VStep t m l]) = since_fit log ++ [(t, m, l)].
Proof. intros. unfold since_fit. rewrite batches_snoc. destruct (batches [] log); auto. Qed.
Lemma since_snoc_fit : forall log d, since_fit (log ++ [VFit d]) = [].
Proof. intros. unfold since_fit. rewrite batches_snoc. destruct (batches [] log); auto. Qed.
Lemma fitb_snoc_step : forall log t m l, fit_batches (log ++ [VStep t m l]) = fit_batches log.
Proof. intros. unfold fit_batches. rewrite batches_snoc. destruct (batches [] log); auto. Qed.
Lemma fitb_snoc_fit : forall log d, fit_batches (log ++ [VFit d]) = fit_batches log ++ [since_fit log].
Proof. intros. unfold fit_batches, since_fit. rewrite batches_snoc. destruct (batches [] log); auto. Qed.
Lemma batches_concat : forall log, concat (fit_batches log) ++ since_fit log = steps_of log.
Proof.
  induction log as [|e log IH] using rev_ind; [reflexivity|].
  rewrite steps_app. destruct e as [t m l|d]; simpl.
  - rewrite fitb_snoc_step, since_snoc_step, app_assoc, IH. auto.
  - rewrite fitb_snoc_fit, since_snoc_fit, concat_app, !app_nil_r. simpl. rewrite app_nil_r. auto.
Qed.

Lemma nsr_snoc : forall st t m l, n_steps_run (st ++ [(t, m, l)]) = n_steps_run st + cnt m.
Proof. intros. unfold n_steps_run. rewrite map_app, list_sum_app. simpl. lia. Qed.
Lemma ned_snoc : forall st t m l, n_eps_done (st ++ [(t, m, l)]) = n_eps_done st + cnt l.
Proof. intros. unfold n_eps_done. rewrite map_app, list_sum_app. simpl. lia. Qed.
Lemma age_snoc : forall j st t m l, age j (st ++ [(t, m, l)]) =
  if nth j l false then 0 else if nth j m false then age j st + 1 else age j st.
Proof. intros. unfold age. rewrite fold_left_app. reflexivity. Qed.

(** * Invariant *)
Section Inv.
Variable W : vworld.
Notation n := (n_envs W).
Hypothesis Hn : 1 <= n.
Hypothesis Hhor : vhorizon W <> Some 0.

(** What each schedule fixes in the logic. *)
Inductive vsched := VSteps (k : nat) | VEps (k : nat) | VNever.
Definition vhas (l : logic) (s : vsched) : Prop :=
  match s with
  | VSteps k => fit_req l = FitSteps /\ n_steps_per_fit l = Some k /\ n_episodes_per_fit l = None
  | VEps k => fit_req l = FitEpisodes /\ n_steps_per_fit l = None /\ n_episodes_per_fit l = Some k
  | VNever => fit_req l = FitNever /\ n_episodes_per_fit l = None
  end.
Definition vpos (s : vsched) : Prop := match s with VSteps k | VEps k => 1 <= k | VNever => True end.
Inductive vbudget := VBSteps (N : nat) | VBEps (N : nat).
Definition vhasb (l : logic) (b : vbudget) : Prop :=
  match b with
  | VBSteps N => move_req l = MoveSteps /\ n_steps l = Some N /\ n_episodes l = None
  | VBEps N => move_req l = MoveEpisodes /\ n_episodes l = Some N
  end.

Definition unf (r : vrun) : nat := cnt (vand (vnot (v_last r)) (running (v_log r))).
Definition st_of (r : vrun) := steps_of (v_events r).

Record Cnt (s : vsched) (b : vbudget) (r : vrun) : Prop := {
  c_s : vhas (vl (v_log r)) s;
  c_b : vhasb (vl (v_log r)) b;
  c_tot_st : tot_st (vl (v_log r)) = n_steps_run (st_of r);
  c_tot_ep : tot_ep (vl (v_log r)) = n_eps_done (st_of r);
  c_cur_st : cur_st (vl (v_log r)) = n_steps_run (since_fit (v_events r));
  c_cur_ep : cur_ep (vl (v_log r)) = n_eps_done (since_fit (v_events r));
  c_notdue : match s with VSteps k => cur_st (vl (v_log r)) < k | VEps k => cur_ep (vl (v_log r)) < k | VNever => True end;
  c_ws : well_scheduled W (st_of r);
  c_time : v_t r = length (st_of r);
  c_lr : length (running (v_log r)) = n;
  c_lm : length (v_mask r) = n;
  c_ll : length (v_last r) = n;
  c_le : length (v_esteps r) = n;
  c_age : forall j h, vhorizon W = Some h -> age j (st_of r) < h;
  c_batches : Forall (fun bt => match s with VSteps k => k <= n_steps_run bt < k + n
                                 | VEps k => n_eps_done bt = k | VNever => False end) (fit_batches (v_events r));
  c_sum : forall h, vhorizon W = Some h ->
     n_steps_run (st_of r) <= h * n_eps_done (st_of r) + sumn n (fun j => age j (st_of r));
  c_sumf : forall h, vhorizon W = Some h -> (match s with VSteps _ => False | _ => True end) ->
     n_steps_run (since_fit (v_events r)) <= h * n_eps_done (since_fit (v_events r)) + sumn n (fun j => age j (st_of r))
}.

Record Head (s : vsched) (b : vbudget) (r : vrun) : Prop := {
  h_cnt : Cnt s b r;
  h_mode : (running (v_log r) = repeat false n /\ v_last r = repeat true n /\ (forall j, j < n -> age j (st_of r) = 0)) \/
           (sub (v_last r) (running (v_log r)) /\ 1 <= cnt (running (v_log r)) /\ v_mask r = running (v_log r) /\
            (forall j, j < n ->
               if nth j (v_last r) false then age j (st_of r) = 0
               else nth j (v_esteps r) 0 = age j (st_of r) /\
                    (nth j (running (v_log r)) false = true <-> 1 <= age j (st_of r))));
  h_N : match b with VBEps N => tot_ep (vl (v_log r)) + unf r <= N | _ => True end;
  h_k : match s with VEps k => cur_ep (vl (v_log r)) + unf r <= k | _ => True end;
  h_all : match s, b with VEps _, _ | _, VBEps _ => True
          | _, _ => 1 <= cnt (running (v_log r)) -> cnt (running (v_log r)) = n end
}.

Record Mid (s : vsched) (b : vbudget) (r : vrun) : Prop := {
  m_cnt : Cnt s b r;
  m_run : running (v_log r) = v_mask r;
  m_pos : 1 <= cnt (v_mask r);
  m_es : forall j, j < n -> nth j (v_esteps r) 0 = age j (st_of r);
  m_prog : forall j, j < n -> in_progress j (st_of r) -> nth j (v_mask r) false = true;
  m_N : match b with VBEps N => tot_ep (vl (v_log r)) + cnt (v_mask r) <= N | _ => True end;
  m_k : match s with VEps k => cur_ep (vl (v_log r)) + cnt (v_mask r) <= k | _ => True end;
  m_all : match s, b with VEps _, _ | _, VBEps _ => True | _, _ => cnt (v_mask r) = n end
}.

Definition moving (b : vbudget) (l : logic) : Prop :=
  match b with VBSteps N => tot_st l < N | VBEps N => tot_ep l < N end.

Lemma vand_not_false : forall l k, length l = k -> vand (vnot l) (repeat false k) = repeat false k /\ vand l (repeat false k) = repeat false k.
Proof.
  induction l as [|x l IH]; intros k E; subst; simpl; [split; reflexivity|].
  destruct (IH _ eq_refl) as [A B]. unfold vand, vnot in *; simpl. rewrite A, B, !andb_false_r. auto.
Qed.

Lemma get_mask_spec : forall s b r, Head s b r -> vpos s -> moving b (vl (v_log r)) ->
  vany (v_last r) = true ->
  exists m, get_mask W (v_log r) (v_last r) = Some (m, mkVL (vl (v_log r)) m) /\
    length m = n /\ 1 <= cnt m /\
    (match b with VBEps N => tot_ep (vl (v_log r)) + cnt m <= N | _ => True end) /\
    (match s with VEps k => cur_ep (vl (v_log r)) + cnt m <= k | _ => True end) /\
    (forall j, nth j (v_last r) false = false -> nth j (running (v_log r)) false = true -> nth j m false = true) /\
    (match s, b with VEps _, _ | _, VBEps _ => True | _, _ => cnt m = n end).
Proof.
  intros s b r H Hp Hm Ha. destruct H as [C M HN HK HA].
  pose proof (c_lr _ _ _ C) as Lr. pose proof (c_ll _ _ _ C) as Ll.
  assert (HND := c_notdue _ _ _ C). assert (HS := c_s _ _ _ C). assert (HB := c_b _ _ _ C).
  unfold get_mask. unfold unf in *.
  set (t0 := cnt (vand (v_last r) (running (v_log r)))) in *.
  set (u := cnt (vand (vnot (v_last r)) (running (v_log r)))) in *.
  assert (TU : (t0 + u)%nat = cnt (running (v_log r))) by (apply cnt_split; lia).
  set (term := if (u =? 0) && (t0 =? 0) then n else t0) in *.
  set (mr1 := match n_episodes (vl (v_log r)) with Some N => Nat.min (N - tot_ep (vl (v_log r)) - u) term | None => term end) in *.
  set (mr2 := match n_episodes_per_fit (vl (v_log r)) with Some k => Nat.min (k - cur_ep (vl (v_log r)) - u) mr1 | None => mr1 end) in *.
  assert (M1 : mr1 <= term) by (unfold mr1; destruct (n_episodes _); lia).
  assert (M2 : mr2 <= mr1) by (unfold mr2; destruct (n_episodes_per_fit _); lia).
  assert (QN : match b with VBEps N => tot_ep (vl (v_log r)) + (mr2 + u) <= N | _ => True end).
  { destruct b; auto. destruct HB as [_ HB]. unfold mr1 in M2. rewrite HB in M2. lia. }
  assert (QK : match s with VEps k => cur_ep (vl (v_log r)) + (mr2 + u) <= k | _ => True end).
  { destruct s; auto. destruct HS as (_ & _ & HS). unfold mr2. rewrite HS. lia. }
  assert (QA : match s, b with VEps _, _ | _, VBEps _ => True | _, _ => mr2 = term end).
  { unfold mr2, mr1. destruct s, b; simpl in *; auto; destruct HB as (_ & _ & ->);
      [destruct HS as (_ & _ & ->)|destruct HS as (_ & ->)]; auto. }
  assert (Q1 : 1 <= term -> 1 <= mr2 + u).
  { intros T. unfold mr2, mr1. 
    destruct s; simpl in HS; [destruct HS as (_ & _ & ->)|destruct HS as (_ & _ & ->)|destruct HS as (_ & ->)];
    destruct b; simpl in HB; [destruct HB as (_ & _ & ->)|destruct HB as (_ & ->)| | | | ]; 
      simpl in *; try (destruct HB as (_ & _ & ->)); try (destruct HB as (_ & ->)); lia. }
  destruct ((u =? 0) && (t0 =? 0)) eqn:FB.
  - apply andb_true_iff in FB. destruct FB as [U0 T0]. apply Nat.eqb_eq in U0, T0.
    exists (repeat true mr2 ++ repeat false (term - mr2)). split; [reflexivity|].
    rewrite app_length, !repeat_length, cnt_app, cnt_repeat_t, cnt_repeat_f, Nat.add_0_r.
    unfold term in *. repeat split; try lia.
    + destruct b; auto; lia.
    + destruct s; auto; lia.
    + intros j _ R. assert (cnt (running (v_log r)) = 0) as Z by lia.
      apply (proj1 (cnt_0 _)) with (j := j) in Z. congruence.
    + destruct s, b; auto.
  - assert (NZ : 1 <= cnt (running (v_log r))).
    { apply andb_false_iff in FB. destruct FB as [F|F]; apply Nat.eqb_neq in F; lia. }
    destruct M as [(R0 & _)|(SB & _ & MR & AG)].
    { rewrite R0, cnt_repeat_f in NZ. lia. }
    assert (TC : t0 = cnt (v_last r)) by (unfold t0; rewrite vand_sub; auto; lia).
    unfold term in *. rewrite TC, Nat.eqb_refl.
    eexists. split; [reflexivity|]. apply vany_cnt in Ha.
    rewrite scatter_length, scatter_cnt by (rewrite ?app_length, ?repeat_length; lia).
    rewrite cnt_app, cnt_repeat_t, cnt_repeat_f. fold u. rewrite Nat.add_0_r.
    repeat split; try lia; auto.
    + intros j F R. rewrite scatter_keep; auto. lia.
    + destruct s, b; auto; simpl in HA; lia.
Qed.

Lemma Cnt_ext : forall s b r r', Cnt s b r ->
  vl (v_log r') = vl (v_log r) -> v_events r' = v_events r -> v_t r' = v_t r -> v_last r' = v_last r ->
  length (running (v_log r')) = n -> length (v_mask r') = n -> length (v_esteps r') = n -> Cnt s b r'.
Proof.
  intros s b r r' [] E1 E2 E3 E4 L1 L2 L3. unfold st_of in *.
  constructor; unfold st_of; rewrite ?E1, ?E2, ?E3, ?E4; auto.
Qed.

Lemma vreset_mid : forall s b r, Head s b r -> vpos s -> moving b (vl (v_log r)) ->
  exists r1, vreset W r = Some r1 /\ Mid s b r1 /\ v_ds r1 = v_ds r /\ v_events r1 = v_events r /\ v_t r1 = v_t r /\
     vl (v_log r1) = vl (v_log r).
Proof.
  intros s b r H Hp Hm. unfold vreset. destruct (vany (v_last r)) eqn:Ha.
  - destruct (get_mask_spec _ _ _ H Hp Hm Ha) as (m & -> & Lm & Pm & PN & PK & Keep & All).
    eexists. split; [reflexivity|]. simpl. split; [|auto].
    destruct H as [C M HN HK HA]. pose proof (c_ll _ _ _ C) as Ll. pose proof (c_le _ _ _ C) as Le.
    constructor; simpl; auto.
    + eapply Cnt_ext; eauto. simpl. rewrite map_length, combine_length. lia.
    + intros j Hj. unfold st_of; simpl. rewrite (nth_map_combine _ _ _ _ _ _ false 0) by lia. simpl.
      destruct M as [(R0 & L0 & A0)|(SB & _ & MR & AG)].
      * rewrite L0, nth_repeat_lt by auto. symmetry. apply A0; auto.
      * specialize (AG j Hj). destruct (nth j (v_last r) false); [auto|]. tauto.
    + intros j Hj. unfold in_progress, st_of; simpl. fold (st_of r). intros P.
      destruct M as [(R0 & L0 & A0)|(SB & _ & MR & AG)].
      * rewrite A0 in P by auto. lia.
      * specialize (AG j Hj). destruct (nth j (v_last r) false) eqn:E; [lia|]. apply Keep; auto. apply AG; auto.
  - assert (L0 : forall j, nth j (v_last r) false = false).
    { apply cnt_0. destruct (Nat.eq_0_gt_0_cases (cnt (v_last r))) as [|X]; auto. apply vany_cnt in X. congruence. }
    exists r. split; auto. split; [|auto].
    destruct H as [C M HN HK HA]. destruct M as [(R0 & L1 & A0)|(SB & P & MR & AG)].
    { pose proof (L0 0) as X. rewrite L1, nth_repeat_lt in X by lia. discriminate. }
    assert (U : unf r = cnt (running (v_log r))).
    { unfold unf. pose proof (cnt_split (v_last r) (running (v_log r))) as X.
      rewrite (c_ll _ _ _ C), (c_lr _ _ _ C) in X. specialize (X eq_refl).
      rewrite vand_sub in X; auto. 2:{ rewrite (c_ll _ _ _ C), (c_lr _ _ _ C); auto. }
      assert (cnt (v_last r) = 0) by (apply cnt_0; auto). lia. }
    constructor; auto.
    + rewrite MR; auto.
    + intros j Hj. specialize (AG j Hj). rewrite L0 in AG. tauto.
    + intros j Hj Pj. specialize (AG j Hj). rewrite L0 in AG. rewrite MR. apply AG. auto.
    + rewrite MR, <- U. auto.
    + rewrite MR, <- U. auto.
    + rewrite MR. destruct s, b; auto.
Qed.

(** Flags computed by a step. *)
Lemma vstep_last : forall s b r, Mid s b r -> forall j, j < n ->
  nth j (v_last (vstep W r)) false =
    nth j (v_mask r) false && (absb W (v_t r) j || match vhorizon W with Some h => h <=? age j (st_of r) + 1 | None => false end).
Proof.
  intros s b r M j Hj. destruct M as [C Mr Mp Me Mg _ _ _].
  pose proof (c_lm _ _ _ C) as Lm. pose proof (c_le _ _ _ C) as Le.
  unfold vstep; simpl.
  rewrite (nth_map_combine _ _ _ _ _ _ false 0) by (rewrite ?map_length, ?combine_length, ?seq_length; lia). simpl.
  rewrite (nth_map_combine _ _ _ _ _ _ false 0) by (rewrite ?seq_length; lia). simpl.
  rewrite (nth_map_combine _ _ _ _ _ _ false 0) by lia. simpl.
  rewrite seq_nth by auto. simpl. rewrite Me by auto.
  destruct (nth j (v_mask r) false) eqn:E; simpl; auto.
  destruct (vhorizon W) as [h|] eqn:EH; auto. apply Nat.leb_gt. apply (c_age _ _ _ C); auto.
Qed.

Lemma vstep_lengths : forall s b r, Mid s b r -> length (v_last (vstep W r)) = n /\ length (v_esteps (vstep W r)) = n.
Proof.
  intros s b r M. destruct M as [C _ _ _ _ _ _ _]. pose proof (c_lm _ _ _ C) as Lm. pose proof (c_le _ _ _ C) as Le.
  unfold vstep; simpl. rewrite !map_length, !combine_length, !map_length, !combine_length, seq_length. lia.
Qed.

Lemma vstep_sub : forall s b r, Mid s b r -> sub (v_last (vstep W r)) (v_mask r).
Proof.
  intros s b r M j. destruct (le_lt_dec n j) as [G|L].
  - rewrite nth_overflow; [discriminate|]. rewrite (proj1 (vstep_lengths _ _ _ M)). auto.
  - rewrite (vstep_last _ _ _ M j L). rewrite andb_true_iff. tauto.
Qed.

Lemma ws_snoc : forall st t m l, well_scheduled W st ->
  (t = length st /\ length m = n /\ length l = n /\ 1 <= cnt m /\
    forall j, j < n -> (in_progress j st -> nth j m false = true) /\
      (nth j l false = true <-> nth j m false = true /\
         (absb W t j = true \/ exists h, vhorizon W = Some h /\ h <= age j st + 1))) ->
  well_scheduled W (st ++ [(t, m, l)]).
Proof.
  intros st t m l H X pre t' m' l' post E.
  destruct post as [|p post] using rev_ind.
  - apply app_inj_tail in E. destruct E as [-> E]. inversion E; subst. auto.
  - rewrite app_comm_cons, app_assoc in E. apply app_inj_tail in E. destruct E as [E _]. eapply H; eauto.
Qed.

Lemma sum_step : forall h st t m l, vhorizon W = Some h -> length m = n -> length l = n ->
  (forall j, age j st < h) -> (forall j, j < n -> in_progress j st -> nth j m false = true) -> sub l m ->
  cnt m + sumn n (fun j => age j st) <= h * cnt l + sumn n (fun j => age j (st ++ [(t, m, l)])).
Proof.
  intros h st t m l Hh Lm Ll A P S.
  rewrite (cnt_sumn m), (cnt_sumn l), Lm, Ll, <- sumn_scal, <- !sumn_plus.
  apply sumn_le. intros j Hj. rewrite age_snoc. specialize (A j). specialize (P j Hj). specialize (S j). unfold in_progress in P.
  destruct (nth j l false), (nth j m false); simpl; try lia.
Qed.

Lemma sumn_age_bound : forall h st m l t, vhorizon W = Some h -> length m = n -> length l = n ->
  (forall j, age j (st ++ [(t, m, l)]) < h) -> (forall j, j < n -> in_progress j st -> nth j m false = true) ->
  sumn n (fun j => age j (st ++ [(t, m, l)])) <= (h - 1) * cnt (vand (vnot l) m).
Proof.
  intros h st m l t Hh Lm Ll A P.
  rewrite (cnt_sumn (vand (vnot l) m)), vand_length, vnot_length, Ll by (rewrite vnot_length; lia).
  rewrite <- sumn_scal. apply sumn_le. intros j Hj. specialize (A j). specialize (P j Hj). unfold in_progress in P.
  rewrite nth_vand by (rewrite vnot_length; lia). rewrite nth_vnot by lia.
  rewrite age_snoc in *. destruct (nth j l false), (nth j m false); simpl in *; try lia.
Qed.

(** Mid state to head state (before a fit). *)
Definition after (r : vrun) (ds : vdata) : vrun :=
  let r2 := vstep W r in
  mkVR (vafter_step (v_log r2) (vand (v_last r2) (v_mask r2))) (v_t r2) (v_last r2) (v_mask r2) (v_esteps r2) ds (v_events r2).

Record Pre (s : vsched) (b : vbudget) (r : vrun) : Prop := {
  p_hs : vhas (vl (v_log r)) s; p_hb : vhasb (vl (v_log r)) b;
  p_tot_st : tot_st (vl (v_log r)) = n_steps_run (st_of r);
  p_tot_ep : tot_ep (vl (v_log r)) = n_eps_done (st_of r);
  p_cur_st : cur_st (vl (v_log r)) = n_steps_run (since_fit (v_events r));
  p_cur_ep : cur_ep (vl (v_log r)) = n_eps_done (since_fit (v_events r));
  p_ws : well_scheduled W (st_of r);
  p_time : v_t r = length (st_of r);
  p_lr : length (running (v_log r)) = n; p_lm : length (v_mask r) = n;
  p_ll : length (v_last r) = n; p_le : length (v_esteps r) = n;
  p_age : forall j h, vhorizon W = Some h -> age j (st_of r) < h;
  p_batches : Forall (fun bt => match s with VSteps k => k <= n_steps_run bt < k + n
                                 | VEps k => n_eps_done bt = k | VNever => False end) (fit_batches (v_events r));
  p_sum : forall h, vhorizon W = Some h ->
     n_steps_run (st_of r) <= h * n_eps_done (st_of r) + sumn n (fun j => age j (st_of r));
  p_sumf : forall h, vhorizon W = Some h -> (match s with VSteps _ => False | _ => True end) ->
     n_steps_run (since_fit (v_events r)) <= h * n_eps_done (since_fit (v_events r)) + sumn n (fun j => age j (st_of r));
  p_mode : sub (v_last r) (running (v_log r)) /\ 1 <= cnt (running (v_log r)) /\ v_mask r = running (v_log r) /\
            (forall j, j < n ->
               if nth j (v_last r) false then age j (st_of r) = 0
               else nth j (v_esteps r) 0 = age j (st_of r) /\
                    (nth j (running (v_log r)) false = true <-> 1 <= age j (st_of r)));
  p_N : match b with VBEps N => tot_ep (vl (v_log r)) + unf r <= N | _ => True end;
  p_k : match s with VEps k => cur_ep (vl (v_log r)) + unf r <= k | _ => True end;
  p_all : match s, b with VEps _, _ | _, VBEps _ => True | _, _ => cnt (running (v_log r)) = n end;
  p_cs : match s with VSteps k => cur_st (vl (v_log r)) < k + n | _ => True end;
  p_sumage : forall h, vhorizon W = Some h -> sumn n (fun j => age j (st_of r)) <= (h - 1) * unf r
}.

Lemma after_pre : forall s b r ds, Mid s b r -> Pre s b (after r ds).
Proof.
  intros s b r ds M. pose proof (vstep_sub _ _ _ M) as SB. pose proof (vstep_lengths _ _ _ M) as [L1 L2].
  pose proof (vstep_last _ _ _ M) as VL.
  destruct M as [C Mr Mp Me Mg MN MK MA].
  pose proof (c_lm _ _ _ C) as Lm. pose proof (c_le _ _ _ C) as Le.
  remember (v_last (vstep W r)) as L eqn:EL. remember (v_esteps (vstep W r)) as E eqn:EE.
  assert (AF : after r ds = mkVR (vafter_step (v_log r) (vand L (v_mask r))) (S (v_t r)) L (v_mask r) E ds
                                 (v_events r ++ [VStep (v_t r) (v_mask r) L])) by (subst; reflexivity).
  rewrite AF.
  assert (VA : vand L (v_mask r) = L) by (apply vand_sub; auto; lia).
  assert (ST : st_of (mkVR (vafter_step (v_log r) (vand L (v_mask r))) (S (v_t r)) L (v_mask r) E ds
                                 (v_events r ++ [VStep (v_t r) (v_mask r) L])) = st_of r ++ [(v_t r, v_mask r, L)]).
  { unfold st_of; simpl. rewrite steps_app. reflexivity. }
  assert (AGE : forall j h, vhorizon W = Some h -> age j (st_of r ++ [(v_t r, v_mask r, L)]) < h).
  { intros j h Hh. rewrite age_snoc. pose proof (c_age _ _ _ C j h Hh) as X.
    destruct (nth j L false) eqn:EN; [lia|]. destruct (nth j (v_mask r) false) eqn:EM; auto.
    destruct (le_lt_dec n j) as [G|Lt]; [rewrite nth_overflow in EM by lia; discriminate|].
    rewrite VL, EM, Hh in EN by auto. simpl in EN. apply orb_false_iff in EN. destruct EN as [_ EN].
    apply Nat.leb_gt in EN. auto. }
  assert (UN : cnt (vand (vnot L) (v_mask r)) + cnt L = cnt (v_mask r)).
  { pose proof (cnt_split L (v_mask r) ltac:(lia)). rewrite VA in H. lia. }
  constructor; unfold unf; rewrite ?ST; simpl; rewrite ?VA, ?Mr.
  - apply C.
  - apply C.
  - rewrite nsr_snoc, (c_tot_st _ _ _ C). auto.
  - rewrite ned_snoc, (c_tot_ep _ _ _ C). auto.
  - rewrite since_snoc_step, nsr_snoc, (c_cur_st _ _ _ C). auto.
  - rewrite since_snoc_step, ned_snoc, (c_cur_ep _ _ _ C). auto.
  - apply ws_snoc; [apply C|]. split; [apply C|]. do 3 (split; [auto|]). intros j Hj. split; [auto|]. split.
    + intros H0. rewrite VL in H0 by auto. apply andb_true_iff in H0. destruct H0 as [Hm0 H0]. split; auto. apply orb_true_iff in H0.
      destruct H0 as [|H0]; auto. right. destruct (vhorizon W) as [h|]; [|discriminate]. exists h. split; auto. apply Nat.leb_le; auto.
    + intros [X Y]. rewrite VL, X by auto. simpl. apply orb_true_iff. destruct Y as [|(h & -> & Y)]; auto. right. apply Nat.leb_le; auto.
  - rewrite app_length, (c_time _ _ _ C). simpl. lia.
  - auto.
  - auto.
  - auto.
  - auto.
  - exact AGE.
  - rewrite fitb_snoc_step. apply C.
  - intros h Hh. rewrite nsr_snoc, ned_snoc. pose proof (c_sum _ _ _ C h Hh).
    pose proof (sum_step h (st_of r) (v_t r) (v_mask r) L Hh Lm L1 (fun j => c_age _ _ _ C j h Hh) Mg SB). lia.
  - intros h Hh Hs. rewrite since_snoc_step, nsr_snoc, ned_snoc. pose proof (c_sumf _ _ _ C h Hh Hs).
    pose proof (sum_step h (st_of r) (v_t r) (v_mask r) L Hh Lm L1 (fun j => c_age _ _ _ C j h Hh) Mg SB). lia.
  - repeat split; auto. intros j Hj. rewrite age_snoc. destruct (nth j L false) eqn:EN; auto.
    subst E. unfold vstep; simpl. rewrite (nth_map_combine _ _ _ _ _ _ false 0) by lia. simpl. rewrite Me by auto.
    specialize (Mg j Hj). unfold in_progress in Mg.
    destruct (nth j (v_mask r) false); (split; [lia|]).
    + split; auto. lia.
    + split; [discriminate|]. auto.
  - destruct b; auto. lia.
  - destruct s; auto. lia.
  - destruct s, b; auto.
  - destruct s; auto. pose proof (c_notdue _ _ _ C) as ND. simpl in ND. pose proof (cnt_le (v_mask r)). lia.
  - intros h Hh. apply sumn_age_bound; auto.
Qed.

Lemma pre_head : forall s b r, Pre s b r ->
  (match s with VSteps k => cur_st (vl (v_log r)) < k | VEps k => cur_ep (vl (v_log r)) < k | VNever => True end) ->
  Head s b r.
Proof.
  intros s b r [] ND. constructor; auto.
  - constructor; auto.
  - destruct s, b; auto.
Qed.

Lemma unf_0_ages : forall s b r, Pre s b r -> unf r = 0 -> forall j, j < n -> age j (st_of r) = 0.
Proof.
  intros s b r P U j Hj. destruct (p_mode _ _ _ P) as (SB & _ & _ & AG). specialize (AG j Hj).
  unfold unf in U. apply (proj1 (cnt_0 _)) with (j := j) in U.
  rewrite nth_vand, nth_vnot in U by (rewrite ?vnot_length, (p_ll _ _ _ P), ?(p_lr _ _ _ P); auto).
  destruct (nth j (v_last r) false); auto. simpl in U. rewrite U in AG.
  destruct (age j (st_of r)); auto. destruct AG as [_ AG]. assert (false = true) by (apply AG; lia). discriminate.
Qed.

(** Fit. *)
Lemma pre_fit_head : forall s b r flat ds, Pre s b r -> vpos s ->
  (match s with VSteps k => k <= cur_st (vl (v_log r)) | VEps k => k <= cur_ep (vl (v_log r)) | VNever => False end) ->
  let (lg', last') := after_fit_vectorized W (v_log r) (v_last r) in
  Head s b (mkVR lg' (v_t r) last' (v_mask r) (v_esteps r) ds (v_events r ++ [VFit flat])).
Proof.
  intros s b r flat ds P Hp D.
  pose proof (unf_0_ages _ _ _ P) as U0.
  destruct (p_mode _ _ _ P) as (SB & P1 & MR & AG).
  unfold after_fit_vectorized; simpl.
  assert (ST : steps_of (v_events r ++ [VFit flat]) = st_of r) by (rewrite steps_app; simpl; apply app_nil_r).
  destruct s as [k|k|]; [|  |contradiction]; pose proof (p_hs _ _ _ P) as HS; simpl in HS; destruct HS as (HF & HS1 & HS2); rewrite HS2.
  - destruct P. simpl in *. constructor; simpl; auto.
    + constructor; unfold st_of; simpl; rewrite ?ST; auto.
      * rewrite since_snoc_fit. auto.
      * rewrite since_snoc_fit. auto.
      * rewrite fitb_snoc_fit. apply Forall_app. split; auto. constructor; auto. rewrite <- p_cur_st0. auto.
      * intros; contradiction.
    + right. unfold st_of; simpl. rewrite ST. repeat split; auto; apply AG; auto.
    + destruct b; auto.
  - assert (U : unf r = 0) by (pose proof (p_k _ _ _ P) as X; simpl in X; lia). specialize (U0 U).
    assert (SZ : sumn n (fun j => age j (st_of r)) = 0) by (rewrite (sumn_ext _ _ (fun _ => 0)), sumn_0; auto).
    pose proof (p_k _ _ _ P) as PK. destruct P. simpl in *. constructor; simpl; auto.
    + constructor; unfold st_of; simpl; rewrite ?ST; rewrite ?repeat_length; auto.
      * rewrite since_snoc_fit. auto.
      * rewrite since_snoc_fit. auto.
      * rewrite fitb_snoc_fit. apply Forall_app. split; auto. constructor; auto. rewrite <- p_cur_ep0. lia.
      * intros. rewrite since_snoc_fit. unfold n_steps_run; simpl. lia.
    + left. unfold st_of; simpl. rewrite ST. auto.
    + destruct b; auto. unfold unf; simpl. rewrite (proj1 (vand_not_false (repeat true n) n (repeat_length _ _))), cnt_repeat_f. lia.
    + unfold unf; simpl. rewrite (proj1 (vand_not_false (repeat true n) n (repeat_length _ _))), cnt_repeat_f. lia.
Qed.

Lemma move_moving : forall b l, vhasb l b -> move_required l = Some true -> moving b l.
Proof.
  intros [N|N] l H; unfold move_required; simpl in *; [destruct H as (-> & -> & _)|destruct H as (-> & ->)];
    intros E; inversion E as [X]; apply Nat.ltb_lt in X; auto.
Qed.
Lemma move_total : forall b l, vhasb l b -> move_required l <> None.
Proof.
  intros [N|N] l H; unfold move_required; simpl in *; [destruct H as (-> & -> & _)|destruct H as (-> & ->)]; discriminate.
Qed.

(** One iteration: either the buffer append fails or the invariant is kept. *)
Definition is_fit (s : vsched) (l : logic) : bool :=
  match s with VSteps k => k <=? cur_st l | VEps k => k <=? cur_ep l | VNever => false end.

Lemma viterate_cases : forall cap s b r, Head s b r -> vpos s -> move_required (vl (v_log r)) = Some true ->
  exists r1, vreset W r = Some r1 /\ Mid s b r1 /\ v_ds r1 = v_ds r /\ v_events r1 = v_events r /\ v_t r1 = v_t r /\
    vl (v_log r1) = vl (v_log r) /\
    match vappend W cap (v_ds r) (row_of W (v_t r) (v_last (vstep W r1))) (v_mask r1) with
    | None => viterate W cap r = None
    | Some ds =>
        let p := after r1 ds in Pre s b p /\
        if is_fit s (vl (v_log p)) then
          let (flat, ds') := flatten W ds (n_steps_per_fit (vl (v_log p))) in
          let (lg', last') := after_fit_vectorized W (v_log p) (v_last p) in
          viterate W cap r = Some (mkVR lg' (v_t p) last' (v_mask p) (v_esteps p)
                 (vclear W cap ds' (n_steps_per_fit (vl (v_log p)))) (v_events p ++ [VFit flat]))
        else viterate W cap r = Some p
    end.
Proof.
  intros cap s b r H Hp Hm.
  destruct (vreset_mid _ _ _ H Hp (move_moving _ _ (c_b _ _ _ (h_cnt _ _ _ H)) Hm)) as (r1 & E1 & M & Ed & Ee & Et & El).
  exists r1. repeat (split; auto). unfold viterate, obind. rewrite E1. cbv zeta.
  change (vappend W cap (v_ds (vstep W r1)) (row_of W (v_t r1) (v_last (vstep W r1))) (v_mask (vstep W r1)))
    with (vappend W cap (v_ds r1) (row_of W (v_t r1) (v_last (vstep W r1))) (v_mask r1)). rewrite Ed, Et.
  destruct (vappend W cap (v_ds r) (row_of W (v_t r) (v_last (vstep W r1))) (v_mask r1)) as [ds|]; [|reflexivity].
  assert (P := after_pre _ _ _ ds M). split; auto.
  assert (FR : fit_required (vl (v_log (after r1 ds))) = Some (is_fit s (vl (v_log (after r1 ds))))).
  { pose proof (p_hs _ _ _ P) as HS. unfold fit_required, is_fit.
    unfold vhas in HS; destruct s; [destruct HS as (-> & -> & _)|destruct HS as (-> & _ & ->)|destruct HS as (-> & _)]; auto. }
  change (vafter_step (v_log (vstep W r1)) (vand (v_last (vstep W r1)) (v_mask (vstep W r1)))) with (v_log (after r1 ds)).
  change (v_last (vstep W r1)) with (v_last (after r1 ds)).
  rewrite FR. destruct (is_fit s (vl (v_log (after r1 ds)))).
  - destruct (flatten W ds _) as [flat ds'].
    destruct (after_fit_vectorized W (v_log (after r1 ds)) (v_last (after r1 ds))) as [lg' last']. reflexivity.
  - reflexivity.
Qed.

Lemma viterate_head : forall cap s b r r', Head s b r -> vpos s -> move_required (vl (v_log r)) = Some true ->
  viterate W cap r = Some r' -> Head s b r'.
Proof.
  intros cap s b r r' H Hp Hm E.
  destruct (viterate_cases cap _ _ _ H Hp Hm) as (r1 & _ & M & _ & _ & _ & _ & X).
  destruct (vappend W cap (v_ds r) _ _) as [ds|]; [|congruence].
  destruct X as [P X]. destruct (is_fit s (vl (v_log (after r1 ds)))) eqn:F.
  - destruct (flatten W ds _) as [flat ds'].
    pose proof (pre_fit_head s b (after r1 ds) flat (vclear W cap ds' (n_steps_per_fit (vl (v_log (after r1 ds))))) P Hp) as Q.
    assert (D : match s with VSteps k => k <= cur_st (vl (v_log (after r1 ds))) | VEps k => k <= cur_ep (vl (v_log (after r1 ds))) | VNever => False end).
    { unfold is_fit in F. destruct s; try apply Nat.leb_le; auto; discriminate. }
    specialize (Q D). 
    destruct (after_fit_vectorized W _ _) as [lg' last']. rewrite E in X. inversion X; subst. exact Q.
  - rewrite E in X. inversion X; subst. apply pre_head; auto.
    unfold is_fit in F. destruct s; try apply Nat.leb_gt in F; auto.
Qed.

(** * Data *)
Definition prow (p : pstep) : list cell := row_of W (fst (fst p)) (snd p).
Definition pmask (p : pstep) : list bool := snd (fst p).

Lemma cut_snoc : forall st t m l, cut (st ++ [(t, m, l)]) = st ++ [(t, m, map (fun _ => true) l)].
Proof. intros. unfold cut. rewrite rev_app_distr. simpl. rewrite rev_involutive. auto. Qed.

Lemma cut_rows : forall st, close_last_row (map prow st) = map prow (cut st).
Proof.
  intros st. destruct st as [|[[t m] l] st] using rev_ind; [reflexivity|].
  rewrite cut_snoc, !map_app. unfold close_last_row. rewrite rev_app_distr. simpl. rewrite rev_involutive. f_equal. f_equal.
  unfold prow, row_of; simpl. rewrite map_map.
  generalize (seq 0 n). intros q. revert l. induction q; destruct l; simpl; auto. f_equal. auto.
Qed.

Lemma cut_masks : forall st, map pmask (cut st) = map pmask st.
Proof.
  intros st. destruct st as [|[[t m] l] st] using rev_ind; [reflexivity|].
  rewrite cut_snoc, !map_app. reflexivity.
Qed.

Lemma pack_transitions : forall st, Forall (fun p => length (snd p) = n) st ->
  pack W (map prow st) (map pmask st) = transitions n st.
Proof.
  intros st H. unfold pack, transitions. rewrite !flat_map_concat_map. f_equal.
  apply map_ext_in. intros j Hj. apply in_seq in Hj. induction H as [|[[t m] l] st E F IH]; [reflexivity|].
  simpl. rewrite IH. f_equal. unfold took, ended, pmask; simpl. destruct (nth j m false); auto. f_equal.
  unfold prow, row_of; simpl in *. rewrite (nth_map_combine _ _ _ _ _ _ 0 false) by (rewrite seq_length; lia).
  simpl. rewrite seq_nth by lia. auto.
Qed.

Lemma transitions_length : forall st, Forall (fun p => length (pmask p) = n) st -> length (transitions n st) = n_steps_run st.
Proof.
  intros st H. unfold transitions.
  assert (E : length (flat_map (cells_of_env st) (seq 0 n)) = sumn n (fun j => length (cells_of_env st j))).
  { unfold sumn. induction (seq 0 n); simpl; auto. rewrite app_length, IHl. auto. }
  rewrite E. clear E. induction st as [|[[t m] l] st IH] using rev_ind.
  - unfold cells_of_env. simpl. apply sumn_0.
  - apply Forall_app in H. destruct H as [H1 H2]. inversion H2; subst. unfold pmask in *. simpl in *.
    rewrite nsr_snoc, <- IH by auto. rewrite (cnt_sumn m), H3, <- sumn_plus. apply sumn_ext. intros j Hj.
    unfold cells_of_env. rewrite flat_map_app, app_length. simpl. unfold took; simpl. destruct (nth j m false); simpl.
    all: reflexivity.
Qed.

Lemma transitions_cut_id : forall st t m l, length l = n -> (forall j, j < n -> nth j m false = true -> nth j l false = true) ->
  transitions n (cut (st ++ [(t, m, l)])) = transitions n (st ++ [(t, m, l)]).
Proof.
  intros st t m l Ll H. unfold transitions. rewrite !flat_map_concat_map. f_equal. apply map_ext_in. intros j Hj. apply in_seq in Hj.
  rewrite cut_snoc. unfold cells_of_env. rewrite !flat_map_app. f_equal. simpl. unfold took, ended; simpl.
  destruct (nth j m false) eqn:E; auto. rewrite H by (auto; lia).
  do 3 f_equal. rewrite (nth_indep _ false true) by (rewrite map_length; lia). rewrite (map_nth (fun _ : bool => true) l true). reflexivity.
Qed.

Record Data (cap : nat) (s : vsched) (b : vbudget) (r : vrun) : Prop := {
  d_rows : vrows (v_ds r) = map prow (since_fit (v_events r));
  d_masks : dmask (v_ds r) = map pmask (since_fit (v_events r));
  d_len : length (maskarr (v_ds r)) = cap;
  d_lens : Forall (fun p => length (pmask p) = n /\ length (snd p) = n) (since_fit (v_events r));
  d_fits : Forall2 (fun bt d => d = transitions n (cut bt) /\
              match s with VEps _ => d = transitions n bt | VSteps k => length d = k | _ => True end)
             (fit_batches (v_events r)) (vfits_of (v_events r));
  d_pos : length (since_fit (v_events r)) <= n_steps_run (since_fit (v_events r));
  d_all : match s with VSteps _ => n_steps_run (since_fit (v_events r)) = n * length (since_fit (v_events r)) | _ => True end
}.

Definition clean (s : vsched) (b : vbudget) (cap : nat) : Prop :=
  match s, b with
  | VSteps k, VBSteps N => cap = k /\ exists q, k = n * q
  | VSteps k, VBEps N => False
  | VEps k, _ => exists h, vhorizon W = Some h /\ cap = h * k
  | VNever, VBSteps N => cap = N
  | VNever, VBEps N => exists h, vhorizon W = Some h /\ cap = h * N
  end.

Hypothesis Hn2 : n <> 1.

Lemma never_since : forall b r, Cnt VNever b r -> since_fit (v_events r) = st_of r /\ fit_batches (v_events r) = [].
Proof.
  clear Hn2.
  intros b r C. pose proof (c_batches _ _ _ C) as B. unfold st_of. rewrite <- batches_concat.
  destruct (fit_batches (v_events r)); [auto|]. inversion B. contradiction.
Qed.

Lemma mid_sum : forall s b r h, Mid s b r -> vhorizon W = Some h -> sumn n (fun j => age j (st_of r)) <= (h - 1) * cnt (v_mask r).
Proof.
  intros s b r h M Hh. rewrite (cnt_sumn (v_mask r)), (c_lm _ _ _ (m_cnt _ _ _ M)), <- sumn_scal. apply sumn_le. intros j Hj.
  pose proof (m_prog _ _ _ M j Hj) as P. unfold in_progress in P. pose proof (c_age _ _ _ (m_cnt _ _ _ M) j h Hh) as A.
  destruct (nth j (v_mask r) false); simpl; [lia|]. destruct (age j (st_of r)); [lia|]. assert (false = true) by (apply P; lia). discriminate.
Qed.

Lemma mid_tot : forall s N r h, Mid s (VBEps N) r -> vhorizon W = Some h -> tot_st (vl (v_log r)) < h * N.
Proof.
  intros s N r h M Hh. pose proof (mid_sum _ _ _ _ M Hh) as S. pose proof (m_N _ _ _ M) as MN. pose proof (m_pos _ _ _ M) as MP.
  pose proof (c_sum _ _ _ (m_cnt _ _ _ M) h Hh) as T. rewrite <- (c_tot_st _ _ _ (m_cnt _ _ _ M)), <- (c_tot_ep _ _ _ (m_cnt _ _ _ M)) in T.
  simpl in MN. assert (1 <= h) by (destruct h; [congruence|lia]). nia.
Qed.

Lemma mid_cur : forall k b r h, Mid (VEps k) b r -> vhorizon W = Some h -> cur_st (vl (v_log r)) < h * k.
Proof.
  intros k b r h M Hh. pose proof (mid_sum _ _ _ _ M Hh) as S. pose proof (m_k _ _ _ M) as MN. pose proof (m_pos _ _ _ M) as MP.
  pose proof (c_sumf _ _ _ (m_cnt _ _ _ M) h Hh I) as T. rewrite <- (c_cur_st _ _ _ (m_cnt _ _ _ M)), <- (c_cur_ep _ _ _ (m_cnt _ _ _ M)) in T.
  simpl in MN. assert (1 <= h) by (destruct h; [congruence|lia]). nia.
Qed.

Lemma firstn_setnth_snoc : forall A (l : list A) i x, i < length l -> firstn (S i) (setnth l i x) = firstn i l ++ [x].
Proof. induction l; destruct i; simpl; intros; try lia; auto. f_equal. apply IHl. lia. Qed.

Lemma list_sum_pmask : forall st, list_sum (map cnt (map pmask st)) = n_steps_run st.
Proof. intros. unfold n_steps_run. rewrite map_map. reflexivity. Qed.

Lemma viterate_ok : forall cap s b r, Head s b r -> Data cap s b r -> vpos s -> clean s b cap ->
  move_required (vl (v_log r)) = Some true ->
  exists r', viterate W cap r = Some r' /\ Data cap s b r' /\ tot_st (vl (v_log r)) < tot_st (vl (v_log r')) /\
    (forall N h, b = VBEps N -> vhorizon W = Some h -> tot_st (vl (v_log r)) < h * N).
Proof.
  intros cap s b r H D Hp Hc Hm.
  destruct (viterate_cases cap _ _ _ H Hp Hm) as (r1 & _ & M & Ed & Ee & Et & El & X).
  assert (RL : length (vrows (v_ds r)) = length (since_fit (v_events r))) by (rewrite (d_rows _ _ _ _ D), map_length; auto).
  assert (CS : cur_st (vl (v_log r)) = n_steps_run (since_fit (v_events r))) by apply (h_cnt _ _ _ H).
  assert (LT : length (vrows (v_ds r)) < cap).
  { rewrite RL. destruct s as [k|k|], b as [N|N]; simpl in Hc.
    - destruct Hc as [-> [q Hq]]. pose proof (c_notdue _ _ _ (h_cnt _ _ _ H)) as ND. simpl in ND.
      pose proof (d_all _ _ _ _ D) as DA. simpl in DA. nia.
    - contradiction.
    - destruct Hc as (h & Hh & ->). pose proof (mid_cur _ _ _ _ M Hh) as MC. rewrite El in MC. pose proof (d_pos _ _ _ _ D). lia.
    - destruct Hc as (h & Hh & ->). pose proof (mid_cur _ _ _ _ M Hh) as MC. rewrite El in MC. pose proof (d_pos _ _ _ _ D). lia.
    - subst cap. pose proof (move_moving _ _ (c_b _ _ _ (h_cnt _ _ _ H)) Hm) as MM. simpl in MM.
      rewrite (c_tot_st _ _ _ (h_cnt _ _ _ H)) in MM. pose proof (d_pos _ _ _ _ D) as DP.
      rewrite (proj1 (never_since _ _ (h_cnt _ _ _ H))) in *. lia.
    - destruct Hc as (h & Hh & ->). pose proof (mid_tot _ _ _ _ M Hh) as MC. rewrite El in MC. pose proof (d_pos _ _ _ _ D) as DP.
      rewrite (c_tot_st _ _ _ (h_cnt _ _ _ H)) in MC.
      rewrite (proj1 (never_since _ _ (h_cnt _ _ _ H))) in *. lia. }
  unfold vappend in X. rewrite (proj2 (Nat.ltb_lt _ _) LT), (proj2 (Nat.eqb_neq _ _) Hn2) in X. cbn [negb andb] in X.
  remember (mkVD (vrows (v_ds r) ++ [row_of W (v_t r) (v_last (vstep W r1))])
                 (setnth (maskarr (v_ds r)) (length (vrows (v_ds r))) (v_mask r1)) (allocs (v_ds r))) as ds eqn:EDS.
  destruct X as [P X].
  assert (EV : v_events (after r1 ds) = v_events r ++ [VStep (v_t r) (v_mask r1) (v_last (vstep W r1))]).
  { simpl. rewrite Ee, Et. reflexivity. }
  assert (LL : length (v_last (vstep W r1)) = n) by (apply (vstep_lengths _ _ _ M)).
  assert (LM : length (v_mask r1) = n) by (apply (c_lm _ _ _ (m_cnt _ _ _ M))).
  assert (DS : vrows ds = map prow (since_fit (v_events (after r1 ds)))).
  { rewrite EV, since_snoc_step, map_app, <- (d_rows _ _ _ _ D). subst ds. reflexivity. }
  assert (DM : dmask ds = map pmask (since_fit (v_events (after r1 ds)))).
  { rewrite EV, since_snoc_step, map_app, <- (d_masks _ _ _ _ D). subst ds. unfold dmask. cbn [vrows maskarr].
    rewrite app_length, Nat.add_1_r, firstn_setnth_snoc; [reflexivity|]. rewrite (d_len _ _ _ _ D). auto. }
  assert (DL : length (maskarr ds) = cap) by (subst ds; simpl; rewrite setnth_length; apply D).
  assert (DLens : Forall (fun p => length (pmask p) = n /\ length (snd p) = n) (since_fit (v_events (after r1 ds)))).
  { rewrite EV, since_snoc_step. apply Forall_app. split; [apply D|]. constructor; auto. }
  assert (DF : Forall2 (fun bt d => d = transitions n (cut bt) /\
              match s with VEps _ => d = transitions n bt | VSteps k => length d = k | _ => True end)
             (fit_batches (v_events (after r1 ds))) (vfits_of (v_events (after r1 ds)))).
  { rewrite EV, fitb_snoc_step, vfits_app. simpl. rewrite app_nil_r. apply D. }
  assert (DP : length (since_fit (v_events (after r1 ds))) <= n_steps_run (since_fit (v_events (after r1 ds)))).
  { rewrite EV, since_snoc_step, app_length, nsr_snoc. simpl. pose proof (d_pos _ _ _ _ D). pose proof (m_pos _ _ _ M). lia. }
  assert (DA : match s with VSteps _ => n_steps_run (since_fit (v_events (after r1 ds))) = n * length (since_fit (v_events (after r1 ds))) | _ => True end).
  { destruct s; auto. destruct b; [|contradiction]. rewrite EV, since_snoc_step, app_length, nsr_snoc. simpl.
    pose proof (d_all _ _ _ _ D) as A. simpl in A. pose proof (m_all _ _ _ M) as B. simpl in B. lia. }
  assert (TS : tot_st (vl (v_log (after r1 ds))) = tot_st (vl (v_log r)) + cnt (v_mask r1)).
  { simpl. rewrite El, (m_run _ _ _ M). auto. }
  pose proof (m_pos _ _ _ M) as MP.
  assert (TB : forall N h, b = VBEps N -> vhorizon W = Some h -> tot_st (vl (v_log r)) < h * N).
  { intros N h -> Hh. rewrite <- El. eapply mid_tot; eauto. }
  destruct (is_fit s (vl (v_log (after r1 ds)))) eqn:F.
  - assert (FL : flatten W ds (n_steps_per_fit (vl (v_log (after r1 ds)))) =
       (transitions n (cut (since_fit (v_events (after r1 ds)))), mkVD (close_last_row (vrows ds)) (maskarr ds) (allocs ds))
       /\ match s with VEps _ => transitions n (cut (since_fit (v_events (after r1 ds)))) = transitions n (since_fit (v_events (after r1 ds)))
          | VSteps k => length (transitions n (cut (since_fit (v_events (after r1 ds))))) = k
          | _ => True end
       /\ vclear W cap (mkVD (close_last_row (vrows ds)) (maskarr ds) (allocs ds)) (n_steps_per_fit (vl (v_log (after r1 ds)))) = mkVD [] (maskarr ds) (allocs ds)).
    { assert (PT : pack W (close_last_row (vrows ds)) (dmask ds) = transitions n (cut (since_fit (v_events (after r1 ds))))).
      { rewrite DS, DM, cut_rows, <- cut_masks. apply pack_transitions.
        rewrite EV, since_snoc_step, cut_snoc. apply Forall_app. rewrite EV, since_snoc_step in DLens. apply Forall_app in DLens.
        split. { eapply Forall_impl; [|apply DLens]. simpl; tauto. } constructor; auto. simpl. rewrite map_length. auto. }
      pose proof (p_hs _ _ _ P) as HS. pose proof (p_k _ _ _ P) as PK. pose proof (p_cs _ _ _ P) as PC. pose proof (p_cur_st _ _ _ P) as PS.
      unfold flatten. rewrite PT. unfold is_fit in F. destruct s as [k|k|]; [| |discriminate].
      - destruct b; [|contradiction]. unfold vhas in HS. destruct HS as (_ & -> & _). simpl in Hc. destruct Hc as [_ [q Hq]].
        apply Nat.leb_le in F. rewrite PS in F, PC. rewrite DA in F, PC.
        assert (K : n * length (since_fit (v_events (after r1 ds))) = k) by (rewrite Hq in F, PC |- *; f_equal; apply (mul_between n); auto).
        assert (TL : length (transitions n (cut (since_fit (v_events (after r1 ds))))) = k).
        { rewrite transitions_length. 
          - rewrite <- K, <- DA, <- !list_sum_pmask, cut_masks. auto.
          - rewrite EV, since_snoc_step, cut_snoc. apply Forall_app. rewrite EV, since_snoc_step in DLens. apply Forall_app in DLens.
            split. { eapply Forall_impl; [|apply DLens]. simpl; tauto. } constructor; auto. }
        split; [|split]; auto.
        + rewrite <- TL at 1. rewrite firstn_all. auto.
        + unfold vclear. unfold dmask; simpl. assert (length (close_last_row (vrows ds)) = length (vrows ds)) as ->.
          { rewrite DS, cut_rows, !map_length. rewrite EV, since_snoc_step, cut_snoc, !app_length. auto. }
          fold (dmask ds). rewrite DM, list_sum_pmask, DA, K, Nat.ltb_irrefl. auto.
      - unfold vhas in HS. destruct HS as (_ & -> & _). split; [|split]; auto.
        apply Nat.leb_le in F. assert (U : unf (after r1 ds) = 0) by lia.
        rewrite EV, since_snoc_step. apply transitions_cut_id; auto. intros j Hj Mj.
        unfold unf in U. apply (proj1 (cnt_0 _)) with (j := j) in U.
        rewrite nth_vand, nth_vnot in U by (rewrite ?vnot_length, (p_ll _ _ _ P), ?(p_lr _ _ _ P); auto).
        change (v_last (after r1 ds)) with (v_last (vstep W r1)) in U. change (running (v_log (after r1 ds))) with (running (v_log r1)) in U.
        rewrite (m_run _ _ _ M), Mj, andb_true_r in U. destruct (nth j (v_last (vstep W r1)) false); auto. }
    destruct FL as (FL & FL2 & FL3). rewrite FL, FL3 in X.
    assert (AFT : tot_st (vl (fst (after_fit_vectorized W (v_log (after r1 ds)) (v_last (after r1 ds))))) = tot_st (vl (v_log (after r1 ds)))).
    { unfold after_fit_vectorized. destruct (n_episodes_per_fit _); reflexivity. }
    destruct (after_fit_vectorized W (v_log (after r1 ds)) (v_last (after r1 ds))) as [lg' last'].
    eexists. split; [exact X|]. split; [|split; [cbn [v_log fst] in *; lia|auto]].
    constructor; cbn [v_ds v_events vrows maskarr]; rewrite ?since_snoc_fit; auto.
    + rewrite fitb_snoc_fit, vfits_app. apply Forall2_app; auto. simpl. constructor; auto.
    + destruct s; auto.
  - eexists. split; [exact X|]. split; [|split; [lia|auto]]. constructor; auto.
Qed.

(** * Loop *)
Lemma vloop_safe : forall fuel cap s b r r' out, Head s b r -> vpos s ->
  vloop W fuel cap r = VDone r' out -> Head s b r' /\ move_required (vl (v_log r')) = Some false /\
    out = fst (flatten W (v_ds r') None).
Proof.
  clear Hn2.
  induction fuel; simpl; intros cap s b r r' out H Hp E; destruct (move_required (vl (v_log r))) as [[]|] eqn:Em; try discriminate.
  - inversion E; subst. auto.
  - destruct (viterate W cap r) eqn:EI; [|discriminate]. apply (IHfuel cap s b v); auto. apply (viterate_head cap s b r); auto.
  - inversion E; subst. auto.
Qed.

Lemma vloop_clean : forall fuel cap s b r, Head s b r -> Data cap s b r -> vpos s -> clean s b cap ->
  vloop W fuel cap r <> VCrash /\
  (forall r' out, vloop W fuel cap r = VDone r' out -> Data cap s b r') /\
  (match b with VBSteps N => N <= fuel + tot_st (vl (v_log r))
              | VBEps N => exists h, vhorizon W = Some h /\ h * N <= fuel + tot_st (vl (v_log r)) end ->
   exists r' out, vloop W fuel cap r = VDone r' out).
Proof.
  induction fuel; simpl; intros cap s b r H D Hp Hc.
  - destruct (move_required (vl (v_log r))) as [[]|] eqn:Em.
    + split; [discriminate|]. split; [discriminate|]. intros X. exfalso.
      pose proof (move_moving _ _ (c_b _ _ _ (h_cnt _ _ _ H)) Em) as MM.
      destruct (viterate_ok _ _ _ _ H D Hp Hc Em) as (r' & _ & _ & _ & T).
      destruct b; simpl in MM; [lia|]. destruct X as (h & Hh & X). specialize (T _ _ eq_refl Hh). lia.
    + split; [discriminate|]. split; [intros r' out E; inversion E; subst; auto|]. intros _. eauto.
    + exfalso. eapply move_total; eauto. apply H.
  - destruct (move_required (vl (v_log r))) as [[]|] eqn:Em.
    + destruct (viterate_ok _ _ _ _ H D Hp Hc Em) as (r' & E & D' & L & T). rewrite E.
      assert (H' := viterate_head _ _ _ _ _ H Hp Em E).
      destruct (IHfuel cap s b r' H' D' Hp Hc) as (A & B & C). split; auto. split; auto.
      intros X. apply C. destruct b; [lia|]. destruct X as (h & Hh & X). exists h. split; auto. lia.
    + split; [discriminate|]. split; [intros r' out E; inversion E; subst; auto|]. intros _. eauto.
    + exfalso. eapply move_total; eauto. apply H.
Qed.

Lemma age_nil : forall j, age j [] = 0. Proof. reflexivity. Qed.

Lemma vstart_head : forall cap s b l, vpos s -> vhas l s -> vhasb l b ->
  tot_ep l = 0 -> tot_st l = 0 -> cur_ep l = 0 -> cur_st l = 0 -> Head s b (vstart W cap l).
Proof.
  clear Hn2.
  intros cap s b l Hp Hs Hb T1 T2 C1 C2. constructor.
  - constructor; simpl; rewrite ?repeat_length; auto.
    + destruct s; simpl in *; lia.
    + intros pre t m l0 post E. destruct pre; discriminate.
    + intros j h Hh. unfold age; simpl. destruct h; [congruence|lia].
    + constructor.
    + intros. unfold n_steps_run; simpl. lia.
    + intros. unfold n_steps_run; simpl. lia.
  - left. simpl. auto.
  - destruct b; auto. unfold unf; simpl. rewrite (proj1 (vand_not_false (repeat true n) n (repeat_length _ _))), cnt_repeat_f. lia.
  - destruct s; auto. unfold unf; simpl. rewrite (proj1 (vand_not_false (repeat true n) n (repeat_length _ _))), cnt_repeat_f. lia.
  - simpl. rewrite cnt_repeat_f. destruct s, b; auto; lia.
Qed.

Lemma vstart_data : forall cap s b l, Data cap s b (vstart W cap l).
Proof.
  intros. constructor; simpl; auto.
  - unfold np_empty. rewrite map_length, seq_length. auto.
  - constructor.
  - constructor.
  - destruct s; auto.
Qed.

Lemma vloop_tot : forall fuel cap s b N r r' out, b = VBSteps N -> Head s b r -> vpos s ->
  tot_st (vl (v_log r)) < N + n -> vloop W fuel cap r = VDone r' out ->
  N <= tot_st (vl (v_log r')) < N + n.
Proof.
  clear Hn2.
  induction fuel; simpl; intros cap s b N r r' out Eb H Hp T E; destruct (move_required (vl (v_log r))) as [[]|] eqn:Em; try discriminate.
  - inversion E; subst. pose proof (c_b _ _ _ (h_cnt _ _ _ H)) as (A & B & _). unfold move_required in Em. rewrite A, B in Em.
    inversion Em as [X]. apply Nat.ltb_ge in X. lia.
  - destruct (viterate W cap r) eqn:EI; [|discriminate]. apply (IHfuel cap s b N v r' out); auto.
    + apply (viterate_head cap s b r); auto.
    + destruct (viterate_cases cap _ _ _ H Hp Em) as (r1 & _ & M & _ & _ & _ & El & X).
      destruct (vappend W cap (v_ds r) _ _) as [ds|]; [|congruence]. destruct X as [P X].
      pose proof (move_moving _ _ (c_b _ _ _ (h_cnt _ _ _ H)) Em) as MM. subst b. simpl in MM.
      assert (TS : tot_st (vl (v_log (after r1 ds))) = tot_st (vl (v_log r)) + cnt (v_mask r1)).
      { simpl. rewrite El, (m_run _ _ _ M). auto. }
      pose proof (cnt_le (v_mask r1)) as CL. rewrite (c_lm _ _ _ (m_cnt _ _ _ M)) in CL.
      assert (tot_st (vl (v_log v)) = tot_st (vl (v_log (after r1 ds)))).
      { destruct (is_fit s _).
        - destruct (flatten W ds _).
          assert (AFT : tot_st (vl (fst (after_fit_vectorized W (v_log (after r1 ds)) (v_last (after r1 ds))))) = tot_st (vl (v_log (after r1 ds)))).
          { unfold after_fit_vectorized. destruct (n_episodes_per_fit _); reflexivity. }
          destruct (after_fit_vectorized W (v_log (after r1 ds)) (v_last (after r1 ds))). rewrite EI in X. inversion X; subst v. exact AFT.
        - rewrite EI in X. inversion X; subst v. auto. }
      lia.
  - inversion E; subst. pose proof (c_b _ _ _ (h_cnt _ _ _ H)) as (A & B & _). unfold move_required in Em. rewrite A, B in Em.
    inversion Em as [X]. apply Nat.ltb_ge in X. lia.
Qed.

(** Everything in progress has been closed when the episode budget is used up. *)
Lemma head_done_eps : forall s N r, Head s (VBEps N) r -> move_required (vl (v_log r)) = Some false ->
  n_eps_done (st_of r) = N /\ forall j, j < n -> age j (st_of r) = 0.
Proof.
  clear Hn2.
  intros s N r H E. pose proof (c_b _ _ _ (h_cnt _ _ _ H)) as (A & B). unfold move_required in E. rewrite A, B in E.
  inversion E as [X]. apply Nat.ltb_ge in X. pose proof (h_N _ _ _ H) as HN. simpl in HN.
  rewrite <- (c_tot_ep _ _ _ (h_cnt _ _ _ H)). split; [lia|].
  assert (U : unf r = 0) by lia. intros j Hj. destruct (h_mode _ _ _ H) as [(_ & _ & AG)|(SB & _ & _ & AG)]; auto.
  specialize (AG j Hj). unfold unf in U. apply (proj1 (cnt_0 _)) with (j := j) in U.
  rewrite nth_vand, nth_vnot in U by (rewrite ?vnot_length, (c_ll _ _ _ (h_cnt _ _ _ H)), ?(c_lr _ _ _ (h_cnt _ _ _ H)); auto).
  destruct (nth j (v_last r) false); auto. simpl in U. rewrite U in AG.
  destruct (age j (st_of r)); auto. destruct AG as [_ AG]. assert (false = true) by (apply AG; lia). discriminate.
Qed.

Lemma ws_last_ended : forall st t m l, well_scheduled W (st ++ [(t, m, l)]) ->
  (forall j, j < n -> age j (st ++ [(t, m, l)]) = 0) -> forall j, j < n -> nth j m false = true -> nth j l false = true.
Proof.
  clear Hn2.
  intros st t m l _ A j Hj Mj. specialize (A j Hj). rewrite age_snoc in A. destruct (nth j l false); auto. rewrite Mj in A. lia.
Qed.

Lemma data_out : forall cap s b r, Data cap s b r ->
  fst (flatten W (v_ds r) None) = transitions n (cut (since_fit (v_events r))).
Proof.
  clear Hn2.
  intros cap s b r D. unfold flatten. simpl. rewrite (d_masks _ _ _ _ D), (d_rows _ _ _ _ D), cut_rows, <- cut_masks.
  apply pack_transitions. pose proof (d_lens _ _ _ _ D) as DL.
  destruct (since_fit (v_events r)) as [|[[t m] l] st] using rev_ind; [constructor|].
  rewrite cut_snoc. apply Forall_app in DL. destruct DL as [D1 D2]. apply Forall_app. split.
  - eapply Forall_impl; [|apply D1]. simpl; tauto.
  - inversion D2; subst. constructor; auto. simpl in *. rewrite map_length. tauto.
Qed.

End Inv.

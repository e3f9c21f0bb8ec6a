(** C54: batch value methods. *)
From Coq Require Import List Arith Lia Reals Lra Bool FunctionalExtensionality.
From Verif Require Import Common FeatModel FeatSpec FeatProofs FeatProps TdModel DqnModel DqnSpec DqnProofs ApproxModel Mat BatchModel.
Import ListNotations.
Local Open Scope R_scope.

Section Fqi.
Context {X M : Type}.
Variable pred : M -> X -> list R.
Variable fit : M -> list X -> list nat -> list R -> M.
Variable gamma : R.
Notation samp := (bsample X).

(** The regression target of a sample given the current values *)
Definition fqi_target (m : M) (x : samp) (y : R) : Prop :=
  (b_abs x = true -> y = b_r x) /\
  (b_abs x = false -> exists v, is_max (pred m (b_s' x)) v /\ y = b_r x + gamma * v).

Lemma Forall2_map_r_in : forall A B (P : A -> B -> Prop) f l, (forall x, In x l -> P x (f x)) -> Forall2 P l (map f l).
Proof. induction l; simpl; intros H; constructor; auto. Qed.
Lemma Rabs_le_inv : forall a b, Rabs a <= b -> - b <= a <= b.
Proof. intros a b H. pose proof (Rle_abs a). pose proof (Rle_abs (- a)). rewrite Rabs_Ropp in *. lra. Qed.
Lemma combine_map2 : forall A B C (f : A -> B) (g : A -> C) l, combine (map f l) (map g l) = map (fun x => (f x, g x)) l.
Proof. induction l; simpl; auto. f_equal. auto. Qed.
Lemma existsb_flags : forall D : list samp, existsb (fun b => b) (map b_abs D) = existsb b_abs D.
Proof. induction D; simpl; auto. rewrite IHD. auto. Qed.
Lemma add_targets_map : forall (D : list samp) f, add_targets gamma (map b_r D) (map f D) = map (fun x => b_r x + gamma * f x) D.
Proof. intros. unfold add_targets. rewrite combine_map2, map_map. reflexivity. Qed.
Lemma no_abs : forall (D : list samp) x, existsb b_abs D = false -> In x D -> b_abs x = false.
Proof. intros D x E I. destruct (b_abs x) eqn:F; auto. exfalso. assert (existsb b_abs D = true); [|congruence]. apply existsb_exists. eauto. Qed.
Lemma next_map : forall (D : list samp) (f : samp -> list R),
  dqn_next_q (map f D) (map b_abs D) = map (fun x => if b_abs x then 0 else rowmax (f x)) D.
Proof.
  intros D f. unfold dqn_next_q. rewrite existsb_flags. destruct (existsb b_abs D) eqn:E.
  - rewrite combine_map2, !map_map. apply map_ext_in. intros x I. cbn [fst snd]. destruct (b_abs x); [apply rowmax_zero|rewrite map_one; reflexivity].
  - rewrite map_map. apply map_ext_in. intros x I. rewrite (no_abs D x E I). reflexivity.
Qed.

(** After n+1 iterations from scratch: a chain of regressions, the first on the rewards and the
    others on the one-step targets of the model before *)
Theorem fqi_run : forall n (D : list samp) m0, (forall m x, pred m x <> []) ->
  exists (ms : nat -> M) (ts : nat -> list R), ms 0%nat = m0 /\ ts 0%nat = map b_r D /\
    (forall k, (k <= n)%nat -> ms (S k) = fit (ms k) (map b_s D) (map b_a D) (ts k)) /\
    (forall k, (k < n)%nat -> Forall2 (fqi_target (ms (S k))) D (ts (S k))) /\
    fqi_fit pred fit gamma (S n) D (m0, None) = (ms (S n), Some (ts n)).
Proof.
  intros n D m0 HP.
  assert (GEN : forall n m t, exists (ms : nat -> M) (ts : nat -> list R), ms 0%nat = m /\ ts 0%nat = t /\
    (forall k, (k < n)%nat -> ms (S k) = fit (ms k) (map b_s D) (map b_a D) (ts (S k))) /\
    (forall k, (k < n)%nat -> Forall2 (fqi_target (ms k)) D (ts (S k))) /\
    fqi_fit pred fit gamma n D (m, Some t) = (ms n, Some (ts n))).
  { clear n. induction n as [|n IH]; intros m t.
    - exists (fun _ => m), (fun _ => t). repeat split; auto; intros; lia.
    - cbn [fqi_fit]. set (st := fqi_iter pred fit gamma D (m, Some t)). unfold fqi_iter in st.
      set (t' := add_targets gamma (map b_r D) (dqn_next_q (map (fun x => pred m (b_s' x)) D) (map b_abs D))) in st.
      set (m' := fit m (map b_s D) (map b_a D) t') in st. destruct (IH m' t') as (ms & ts & A & B & C & E & F).
      exists (fun k => match k with O => m | S k' => ms k' end), (fun k => match k with O => t | S k' => ts k' end).
      split; [auto|]. split; [auto|]. split; [|split].
      + intros [|k] Hk; [rewrite A, B; reflexivity|apply C; lia].
      + intros [|k] Hk; [|apply E; lia]. rewrite B. unfold t'. rewrite next_map, add_targets_map.
        apply Forall2_map_r_in. intros x I. split; intros HA; rewrite HA; [ring|].
        exists (rowmax (pred m (b_s' x))). split; [apply rowmax_spec; auto|ring].
      + exact F. }
  destruct (GEN n (fit m0 (map b_s D) (map b_a D) (map b_r D)) (map b_r D)) as (ms & ts & A & B & C & E & F).
  exists (fun k => match k with O => m0 | S k' => ms k' end), ts. split; [auto|]. split; [auto|]. split; [|split].
  - intros [|k] Hk; [rewrite A, B; reflexivity|apply C; lia].
  - intros k Hk. apply E. auto.
  - exact F.
Qed.

(** Fitting n and then k iterations on the same data is fitting n + k *)
Theorem fqi_resume : forall n k (D : list samp) st,
  fqi_fit pred fit gamma k D (fqi_fit pred fit gamma n D st) = fqi_fit pred fit gamma (n + k) D st.
Proof. induction n; intros; simpl; auto. Qed.

(** If the data cover all the actions of the next states and each regression is accurate to eps,
    the values on the data approach the solution of the optimality equation geometrically *)
Theorem fqi_error : forall n (D : list samp) m0 nA (Qs : X -> nat -> R) eps B,
  (1 <= nA)%nat -> (forall m x, length (pred m x) = nA) -> 0 <= gamma < 1 ->
  (forall x, In x D -> exists v, is_max (map (Qs (b_s' x)) (seq 0 nA)) v /\ Qs (b_s x) (b_a x) = if b_abs x then b_r x else b_r x + gamma * v) ->
  (forall x a, In x D -> b_abs x = false -> (a < nA)%nat -> exists y, In y D /\ b_s y = b_s' x /\ b_a y = a) ->
  (forall m ts, length ts = length D -> forall x t, In (x, t) (combine D ts) ->
     Rabs (nth (b_a x) (pred (fit m (map b_s D) (map b_a D) ts) (b_s x)) 0 - t) <= eps) ->
  (forall x, In x D -> Rabs (b_r x - Qs (b_s x) (b_a x)) <= B) ->
  forall x, In x D ->
  Rabs (nth (b_a x) (pred (fst (fqi_fit pred fit gamma (S n) D (m0, None))) (b_s x)) 0 - Qs (b_s x) (b_a x))
  <= gamma ^ n * B + eps * (1 - gamma ^ S n) / (1 - gamma).
Proof.
  intros n D m0 nA Qs eps B HA HL [G0 G1] HQ HC HF HB.
  assert (NE : forall m x, pred m x <> []) by (intros m x E; specialize (HL m x); rewrite E in HL; simpl in HL; lia).
  destruct (fqi_run n D m0 NE) as (ms & ts & E0 & T0 & HM & HT & ->). cbn [fst].
  assert (LT : forall k, (k <= n)%nat -> length (ts k) = length D).
  { intros [|k] Hk; [rewrite T0, map_length; auto|]. specialize (HT k ltac:(lia)). clear -HT. symmetry. revert HT. generalize (ts (S k)). induction D; intros l H; inversion H; subst; simpl; auto. }
  assert (STEP : forall k, (k <= n)%nat -> forall x, In x D -> Rabs (nth (b_a x) (pred (ms (S k)) (b_s x)) 0 - Qs (b_s x) (b_a x)) <= gamma ^ k * B + eps * (1 - gamma ^ S k) / (1 - gamma)).
  { induction k as [|k IH]; intros Hk x I.
    - rewrite HM by lia. assert (In (x, b_r x) (combine D (ts 0%nat))).
      { rewrite T0. clear -I. induction D; simpl in *; [tauto|]. destruct I as [->|I]; auto. }
      pose proof (HF (ms 0%nat) (ts 0%nat) (LT 0%nat Hk) x (b_r x) H) as P1. pose proof (HB x I) as P2.
      replace (gamma ^ 0 * B + eps * (1 - gamma ^ 1) / (1 - gamma)) with (B + eps) by (field; lra).
      eapply Rle_trans; [|apply Rplus_le_compat; [apply P2|apply P1]]. rewrite Rplus_comm.
      eapply Rle_trans; [|apply Rabs_triang]. right. f_equal. ring.
    - set (e := gamma ^ k * B + eps * (1 - gamma ^ S k) / (1 - gamma)) in *. specialize (IH ltac:(lia)).
      rewrite HM by lia. specialize (HT k ltac:(lia)). specialize (LT (S k) Hk).
      assert (exists t, In (x, t) (combine D (ts (S k))) /\ fqi_target (ms (S k)) x t).
      { clear -I HT. induction HT; simpl in *; [tauto|]. destruct I as [->|I]; [eauto|]. destruct (IHHT I) as (t & A & Bx). eauto. }
      destruct H as (t & It & [TA TN]). pose proof (HF (ms (S k)) (ts (S k)) LT x t It) as P1.
      assert (e0 : 0 <= e). { eapply Rle_trans; [apply Rabs_pos|apply (IH x I)]. }
      assert (P2 : Rabs (t - Qs (b_s x) (b_a x)) <= gamma * e).
      { destruct (HQ x I) as (v & Mv & EQ). destruct (b_abs x) eqn:AB.
        - rewrite TA, EQ by auto. rewrite Rminus_diag_eq, Rabs_R0 by auto. apply Rmult_le_pos; auto.
        - destruct (TN eq_refl) as (u & Mu & ->). rewrite EQ. replace (b_r x + gamma * u - (b_r x + gamma * v)) with (gamma * (u - v)) by ring.
          rewrite Rabs_mult, (Rabs_pos_eq gamma) by auto. apply Rmult_le_compat_l; auto.
          assert (CL : forall a, (a < nA)%nat -> Rabs (nth a (pred (ms (S k)) (b_s' x)) 0 - Qs (b_s' x) a) <= e).
          { intros a Ha. destruct (HC x a I AB Ha) as (y & Iy & E1 & E2). specialize (IH y Iy). rewrite E1, E2 in IH. exact IH. }
          destruct Mu as [Iu Lu]. destruct Mv as [Iv Lv]. apply Rabs_le. split.
          + apply in_map_iff in Iv. destruct Iv as (a & <- & Ia). apply in_seq in Ia. specialize (CL a ltac:(lia)). apply Rabs_le_inv in CL.
            assert (nth a (pred (ms (S k)) (b_s' x)) 0 <= u) by (apply Lu, nth_In; rewrite HL; lia). lra.
          + apply (In_nth _ _ 0) in Iu. destruct Iu as (a & Ha & <-). rewrite HL in Ha. specialize (CL a Ha). apply Rabs_le_inv in CL.
            assert (Qs (b_s' x) a <= v) by (apply Lv, in_map, in_seq; lia). lra. }
      replace (gamma ^ S k * B + eps * (1 - gamma ^ S (S k)) / (1 - gamma)) with (gamma * e + eps) by (unfold e; simpl; field; lra).
      eapply Rle_trans; [|apply Rplus_le_compat; [apply P2|apply P1]]. rewrite Rplus_comm.
      eapply Rle_trans; [|apply Rabs_triang]. right. f_equal. ring. }
  intros x I. apply STEP; auto.
Qed.

(** * Double FQI *)
(** The two models see the two halves; only the last sample of an odd dataset is never used. *)
Theorem dfqi_split : forall D : list samp, exists rest, D = dfqi_part D 0 ++ dfqi_part D 1 ++ rest /\
  length (dfqi_part D 0) = (length D / 2)%nat /\ length (dfqi_part D 1) = (length D / 2)%nat /\ length rest = (length D mod 2)%nat.
Proof.
  intros D. pose proof (Nat.div_mod (length D) 2 ltac:(lia)) as DM. pose proof (Nat.mod_upper_bound (length D) 2 ltac:(lia)).
  set (h := (length D / 2)%nat) in *. exists (skipn (h + h) D). unfold dfqi_part. fold h.
  replace (0 * h)%nat with 0%nat by lia. replace ((0 + 1) * h)%nat with h by lia. replace (1 * h)%nat with h by lia. replace ((1 + 1) * h)%nat with (h + h)%nat by lia.
  rewrite !slice_length. unfold slice. rewrite Nat.sub_0_r. replace (h + h - h)%nat with h by lia. split; [|rewrite skipn_length; lia].
  cbn [skipn]. rewrite <- (firstn_skipn h D) at 1. f_equal. rewrite <- (firstn_skipn h (skipn h D)) at 1. f_equal.
  assert (SK : forall a b (l : list samp), skipn a (skipn b l) = skipn (b + a) l).
  { clear. intros a b. induction b; intros l; [reflexivity|]. destruct l; simpl; auto. destruct a; reflexivity. }
  apply SK.
Qed.
(** The action is chosen by the model being fitted and valued by the other one *)
Definition dfqi_target (own other : M) (x : samp) (y : R) : Prop :=
  (b_abs x = true -> y = b_r x) /\
  (b_abs x = false -> exists a, (a < length (pred own (b_s' x)))%nat /\ is_max (pred own (b_s' x)) (nth a (pred own (b_s' x)) 0) /\
     y = b_r x + gamma * nth a (pred other (b_s' x)) 0).
Lemma double_map : forall (D : list samp) (f g : samp -> list R),
  double_next_q (map f D) (map g D) (map b_abs D) = map (fun x => if b_abs x then 0 else nth (argmax (f x)) (g x) 0) D.
Proof.
  intros D f g. unfold double_next_q. rewrite existsb_flags, combine_map2, map_map. cbn [fst snd]. destruct (existsb b_abs D) eqn:E.
  - rewrite combine_map2, map_map. apply map_ext_in. intros x I. cbn [fst snd]. destruct (b_abs x); unfold flag; ring.
  - apply map_ext_in. intros x I. rewrite (no_abs D x E I). reflexivity.
Qed.
Theorem dfqi_step : forall (D : list samp) m0 m1 target, (forall m x, pred m x <> []) ->
  exists t0 t1,
    dfqi_iter pred fit gamma D ((m0, m1), target)
    = ((fit m0 (map b_s (dfqi_part D 0)) (map b_a (dfqi_part D 0)) t0, fit m1 (map b_s (dfqi_part D 1)) (map b_a (dfqi_part D 1)) t1), Some (t0, t1)) /\
    (target = None -> t0 = map b_r (dfqi_part D 0) /\ t1 = map b_r (dfqi_part D 1)) /\
    (target <> None -> Forall2 (dfqi_target m0 m1) (dfqi_part D 0) t0 /\ Forall2 (dfqi_target m1 m0) (dfqi_part D 1) t1).
Proof.
  intros D m0 m1 [t|] HP; unfold dfqi_iter.
  - eexists _, _. split; [reflexivity|]. split; [congruence|]. intros _.
    assert (G : forall own other Di, Forall2 (dfqi_target own other) Di
       (add_targets gamma (map b_r Di) (double_next_q (map (fun x => pred own (b_s' x)) Di) (map (fun x => pred other (b_s' x)) Di) (map b_abs Di)))).
    { intros own other Di. rewrite double_map, add_targets_map. apply Forall2_map_r_in. intros x I. split; intros HA; rewrite HA; [ring|].
      exists (argmax (pred own (b_s' x))). destruct (argmax_spec (pred own (b_s' x)) (HP own (b_s' x))) as [A B]. auto. }
    split; apply G.
  - eexists _, _. split; [reflexivity|]. split; [auto|congruence].
Qed.

(** * Boosted FQI *)
Definition bsumm (ts : nat -> samp -> R) (k : nat) (x : samp) : R := sm k (fun j => ts j x).
(** Sum of the values of the first k models *)
Definition bvalue (nA : nat) (mods : list M) (d : M) (k : nat) (s : X) : list R :=
  map (fun a => sm k (fun j => nth a (pred (nth j mods d) s) 0)) (seq 0 nA).
Definition boosted_full (nA : nat) (mods : list M) (d : M) (k : nat) (x : samp) (y : R) : Prop :=
  (k = 0%nat \/ b_abs x = true -> y = b_r x) /\
  (k <> 0%nat -> b_abs x = false -> exists v, is_max (bvalue nA mods d k (b_s' x)) v /\ y = b_r x + gamma * v).

Lemma bvalue_ext : forall nA mods mods' d k s, (forall j, (j < k)%nat -> nth j mods d = nth j mods' d) -> bvalue nA mods d k s = bvalue nA mods' d k s.
Proof. intros. unfold bvalue. apply map_ext. intros a. apply sm_ext. intros j Hj. rewrite H by auto. reflexivity. Qed.
Lemma full_ext : forall nA mods mods' d k x y, (forall j, (j < k)%nat -> nth j mods d = nth j mods' d) -> boosted_full nA mods d k x y -> boosted_full nA mods' d k x y.
Proof. intros nA mods mods' d k x y H [A B]. split; auto. intros H1 H2. rewrite <- (bvalue_ext nA mods mods' d k _ H). auto. Qed.

Theorem boosted_run : forall nA (D : list samp) ms d n, (1 <= nA)%nat -> (forall m x, length (pred m x) = nA) -> (n < length ms)%nat ->
  exists st ts, boosted_fit pred fit gamma (S n) D (boosted_init ms) = Some st /\ f_idx st = S n /\ length (f_models st) = length ms /\
    (forall j, (j <= n)%nat -> nth j (f_models st) d = fit (nth j ms d) (map b_s D) (map b_a D) (map (ts j) D)) /\
    (forall j, (n < j)%nat -> nth j (f_models st) d = nth j ms d) /\
    (forall k x, (k <= n)%nat -> In x D -> boosted_full nA (f_models st) d k x (bsumm ts (S k) x)).
Proof.
  intros nA D ms d n HA HL Hn.
  assert (INV : forall k, (k <= n)%nat -> exists st ts, boosted_fit pred fit gamma (S k) D (boosted_init ms) = Some st /\ f_idx st = S k /\ length (f_models st) = length ms /\
    (forall j, (j <= k)%nat -> nth j (f_models st) d = fit (nth j ms d) (map b_s D) (map b_a D) (map (ts j) D)) /\
    (forall j, (k < j)%nat -> nth j (f_models st) d = nth j ms d) /\
    (forall i x, (i <= k)%nat -> In x D -> boosted_full nA (f_models st) d i x (bsumm ts (S i) x)) /\
    f_target st <> None /\ f_pred st = Some (map (bsumm ts (S k)) D) /\
    f_nextq st = (if Nat.eqb k 0 then None else Some (map (fun x => if b_abs x then repeat 0 nA else bvalue nA (f_models st) d k (b_s' x)) D))).
  { assert (SN : forall k st, boosted_fit pred fit gamma (S k) D st = match boosted_fit pred fit gamma k D st with None => None | Some st' => boosted_iter pred fit gamma D st' end).
    { induction k; intros st; [simpl; destruct (boosted_iter pred fit gamma D st); reflexivity|].
      change (boosted_fit pred fit gamma (S (S k)) D st) with (match boosted_iter pred fit gamma D st with None => None | Some st' => boosted_fit pred fit gamma (S k) D st' end).
      change (boosted_fit pred fit gamma (S k) D st) with (match boosted_iter pred fit gamma D st with None => None | Some st' => boosted_fit pred fit gamma k D st' end).
      destruct (boosted_iter pred fit gamma D st); auto. }
    assert (NTH : forall (l : list M) j, (j < length l)%nat -> nth_error l j = Some (nth j l d)) by (intros; apply nth_error_nth'; auto).
    induction k as [|k IH]; intros Hk.
    - cbn [boosted_fit]. unfold boosted_iter, boosted_targets, boosted_init. cbn [f_target f_models f_idx f_pred f_nextq]. cbn [fst snd bsub baddv].
      rewrite (NTH ms 0%nat) by lia. eexists _, (fun _ x => b_r x). split; [reflexivity|]. cbn [f_target f_models f_idx f_pred f_nextq].
      split; [auto|]. split; [apply setnth_length|]. split; [|split; [|split; [|split; [|split]]]].
      + intros j Hj. replace j with 0%nat by lia. rewrite nth_setnth_eq by lia. reflexivity.
      + intros j Hj. rewrite nth_setnth_neq by lia. reflexivity.
      + intros i x Hi I. replace i with 0%nat by lia. split; [|lia]. intros _. unfold bsumm, sm. simpl. ring.
      + discriminate.
      + f_equal. apply map_ext. intros x. unfold bsumm, sm. simpl. ring.
      + reflexivity.
    - destruct (IH ltac:(lia)) as (st & ts & E & I1 & L1 & H1 & H2 & H3 & H4 & H5 & H6). rewrite SN, E. clear IH.
      unfold boosted_iter, boosted_targets. destruct (f_target st) as [t0|] eqn:FT; [|congruence]. clear H4.
      rewrite I1. replace (S k - 1)%nat with k by lia. rewrite (NTH (f_models st) k) by lia.
      set (q := bmask (map b_abs D) (badd (f_nextq st) (map (fun x => pred (nth k (f_models st) d) (b_s' x)) D))).
      assert (LV : forall l, length l = nA -> map (fun a => nth a l 0) (seq 0 nA) = l).
      { intros l Hl. rewrite <- Hl. clear. induction l; simpl; auto. f_equal. rewrite <- seq_shift, map_map. auto. }
      assert (Eq : q = map (fun x => if b_abs x then repeat 0 nA else bvalue nA (f_models st) d (S k) (b_s' x)) D).
      { assert (BV : badd (f_nextq st) (map (fun x => pred (nth k (f_models st) d) (b_s' x)) D)
                 = map (fun x => TdModel.vadd (if b_abs x then repeat 0 nA else bvalue nA (f_models st) d k (b_s' x)) (pred (nth k (f_models st) d) (b_s' x))) D).
        { rewrite H6. destruct (Nat.eqb_spec k 0) as [->|NK].
          - cbn [badd]. apply map_ext. intros x. set (p := pred (nth 0 (f_models st) d) (b_s' x)). assert (LP : length p = nA) by apply HL.
            assert (Z : (if b_abs x then repeat 0 nA else bvalue nA (f_models st) d 0 (b_s' x)) = repeat 0 nA).
            { destruct (b_abs x); auto. unfold bvalue. clear. rewrite <- (seq_length nA 0) at 2. induction (seq 0 nA); simpl; auto. f_equal. auto. }
            rewrite Z, <- LP. clear. induction p; simpl; auto. unfold TdModel.vadd in *. simpl. f_equal; [ring|auto].
          - cbn [badd]. rewrite combine_map2, map_map. reflexivity. }
        assert (BS : forall x, TdModel.vadd (bvalue nA (f_models st) d k (b_s' x)) (pred (nth k (f_models st) d) (b_s' x)) = bvalue nA (f_models st) d (S k) (b_s' x)).
        { intros x. unfold TdModel.vadd, bvalue. rewrite <- (LV (pred (nth k (f_models st) d) (b_s' x))) at 1 by apply HL. rewrite combine_map2, map_map. apply map_ext. intros a. cbn [fst snd]. rewrite sm_S. reflexivity. }
        unfold q. rewrite BV. unfold bmask. rewrite existsb_flags. destruct (existsb b_abs D) eqn:EX.
        - rewrite combine_map2, map_map. apply map_ext_in. intros x I. cbn [fst snd]. destruct (b_abs x); [|rewrite map_one; apply BS].
          set (p := pred (nth k (f_models st) d) (b_s' x)). assert (LP : length p = nA) by apply HL. rewrite <- LP. clear.
          induction p; simpl; auto. unfold TdModel.vadd in *. simpl. f_equal; [ring|auto].
        - apply map_ext_in. intros x I. rewrite (no_abs D x EX I). apply BS. }
      cbn [fst snd]. rewrite Eq, map_map, add_targets_map, H5. cbn [bsub baddv]. rewrite combine_map2, map_map. cbn [fst snd].
      set (tn := fun x : samp => b_r x + gamma * rowmax (if b_abs x then repeat 0 nA else bvalue nA (f_models st) d (S k) (b_s' x)) - bsumm ts (S k) x).
      rewrite (NTH (f_models st) (S k)) by lia.
      set (ts' := fun j => if Nat.eqb j (S k) then tn else ts j).
      assert (S1 : forall i x, (i <= S k)%nat -> bsumm ts' i x = bsumm ts i x).
      { intros i x Hi. apply sm_ext. intros j Hj. unfold ts'. destruct (Nat.eqb_spec j (S k)); [lia|auto]. }
      assert (S2 : forall x, bsumm ts' (S (S k)) x = b_r x + gamma * rowmax (if b_abs x then repeat 0 nA else bvalue nA (f_models st) d (S k) (b_s' x))).
      { intros x. unfold bsumm. rewrite sm_S. fold (bsumm ts' (S k) x). rewrite S1 by lia. unfold ts'. rewrite Nat.eqb_refl. unfold tn. ring. }
      eexists _, ts'. split; [reflexivity|]. cbn [f_target f_models f_idx f_pred f_nextq].
      assert (AG : forall j, (j < S k)%nat -> nth j (f_models st) d = nth j (setnth (f_models st) (S k) (fit (nth (S k) (f_models st) d) (map b_s D) (map b_a D) (map tn D))) d).
      { intros j Hj. rewrite nth_setnth_neq by lia. reflexivity. }
      split; [auto|]. split; [rewrite setnth_length; auto|]. split; [|split; [|split; [|split; [|split]]]].
      + intros j Hj. destruct (Nat.eq_dec j (S k)) as [->|NE].
        * rewrite nth_setnth_eq by lia. rewrite H2 by lia. unfold ts'. rewrite Nat.eqb_refl. reflexivity.
        * rewrite nth_setnth_neq by lia. rewrite H1 by lia. unfold ts'. destruct (Nat.eqb_spec j (S k)); [lia|reflexivity].
      + intros j Hj. rewrite nth_setnth_neq by lia. apply H2. lia.
      + intros i x Hi I. destruct (Nat.eq_dec i (S k)) as [->|NE].
        * apply (full_ext nA (f_models st)); [intros; apply AG; auto|]. rewrite S2. split.
          -- intros [|AB]; [lia|]. rewrite AB. assert (Z : rowmax (repeat 0 nA) = 0).
             { assert (NN : repeat 0 nA <> []) by (destruct nA; [lia|discriminate]). destruct (rowmax_spec _ NN) as [IN _]. apply repeat_spec in IN. auto. }
             rewrite Z. ring.
          -- intros _ AB. rewrite AB. eexists. split; [|reflexivity]. apply rowmax_spec. unfold bvalue. destruct nA; [lia|discriminate].
        * rewrite S1 by lia. apply (full_ext nA (f_models st)); [intros; apply AG; lia|]. apply H3; [lia|auto].
      + discriminate.
      + f_equal. unfold TdModel.vadd. rewrite combine_map2, map_map. apply map_ext. intros x. cbn [fst snd]. rewrite S2. unfold tn. ring.
      + cbn [Nat.eqb]. f_equal. apply map_ext. intros x. destruct (b_abs x); auto. apply bvalue_ext. intros; apply AG; auto. }
  destruct (INV n ltac:(lia)) as (st & ts & H). exists st, ts. tauto.
Qed.
(** Models fitted exactly: the sum of the ensemble is the last full target *)
Theorem boosted_exact : forall nA (D : list samp) ms d n, (1 <= nA)%nat -> (forall m x, length (pred m x) = nA) -> (n < length ms)%nat ->
  (forall m f x, In x D -> nth (b_a x) (pred (fit m (map b_s D) (map b_a D) (map f D)) (b_s x)) 0 = f x) ->
  exists st, boosted_fit pred fit gamma (S n) D (boosted_init ms) = Some st /\
    forall k x, (k <= n)%nat -> In x D -> boosted_full nA (f_models st) d k x (sm (S k) (fun j => nth (b_a x) (pred (nth j (f_models st) d) (b_s x)) 0)).
Proof.
  intros nA D ms d n HA HL Hn HF. destruct (boosted_run nA D ms d n HA HL Hn) as (st & ts & E & _ & _ & H1 & _ & H3).
  exists st. split; auto. intros k x Hk I. rewrite (sm_ext (S k) _ (fun j => ts j x)); [apply H3; auto|].
  intros j Hj. rewrite H1 by lia. apply HF. auto.
Qed.
(** A second call has no model left to fit *)
Theorem boosted_overflow : forall (D : list samp) ms n, (length ms < n)%nat -> boosted_fit pred fit gamma n D (boosted_init ms) = None.
Proof.
  intros D ms n Hn. assert (G : forall n st, (length (f_models st) < f_idx st + n)%nat -> (f_idx st <= length (f_models st))%nat -> boosted_fit pred fit gamma n D st = None).
  { clear. induction n; intros st H L; [lia|]. cbn [boosted_fit]. unfold boosted_iter. destruct (boosted_targets pred gamma D st) as [tq|]; auto.
    destruct (nth_error (f_models st) (f_idx st)) as [m|] eqn:E; auto. apply IHn; cbn [f_models f_idx]; rewrite setnth_length; [lia|].
    assert (f_idx st < length (f_models st))%nat by (apply nth_error_Some; congruence). lia. }
  apply G; simpl; lia.
Qed.
End Fqi.

(** * LSPI *)
Section Lspi.
Context {X : Type}.
Variable phi : X -> list R.
Variables (nphi nA : nat).
Variable gamma : R.
Variable solve : mat -> vec -> vec.
Hypothesis phi_len : forall x, length (phi x) = nphi.
Notation samp := (bsample X).
Definition qw (w : vec) (s : X) (a : nat) : R := nth a (lspi_q phi nphi nA w s) 0.
Notation dimw := (lspi_dim nphi nA).

Lemma dot_rows : forall (p : list R) f, TdModel.dot p (map f (seq 0 (length p))) = rsum (map (fun k => nth k p 0 * f k) (seq 0 (length p))).
Proof.
  induction p as [|x p IH]; intros f; [reflexivity|]. cbn [length seq map TdModel.dot rsum nth]. f_equal.
  rewrite <- seq_shift, !map_map. rewrite (IH (fun k => f (S k))). reflexivity.
Qed.
Lemma qw_features : forall w s a, (a < nA)%nat -> qw w s a = sm dimw (fun k => lspi_phi phi nA s a k * w k).
Proof.
  intros w s a Ha. unfold qw, lspi_q, lin_row. rewrite map_map.
  rewrite (nth_indep _ 0 (TdModel.dot (phi s) (map (fun k => w (0 * nphi + k)%nat) (seq 0 nphi)))) by (rewrite map_length, seq_length; auto).
  rewrite (map_nth (fun a => TdModel.dot (phi s) (map (fun k => w (a * nphi + k)%nat) (seq 0 nphi)))), seq_nth by auto. simpl plus.
  destruct (action_features_block (phi s) a nA w Ha) as [_ E]. rewrite phi_len in E. unfold sm, lspi_dim, lspi_phi. rewrite E.
  pose proof (dot_rows (phi s) (fun k => w (a * nphi + k)%nat)) as DR. rewrite phi_len in DR. rewrite DR. f_equal. apply map_ext. intros k. f_equal. f_equal. lia.
Qed.
Lemma lspi_q_len : forall w s, length (lspi_q phi nphi nA w s) = nA.
Proof. intros. unfold lspi_q, lin_row. rewrite !map_length, seq_length. auto. Qed.
Lemma rsum_sm : forall A (l : list A) k (f : A -> nat -> R), rsum (map (fun x => sm k (f x)) l) = sm k (fun j => rsum (map (fun x => f x j) l)).
Proof. induction l; intros k f; cbn [map rsum]; [rewrite sm_0; reflexivity|]. rewrite IHl, <- sm_plus. reflexivity. Qed.
Lemma next_lt : forall D w x, (1 <= nA)%nat -> (lspi_next phi nphi nA D w x < nA)%nat.
Proof.
  intros D w x H. unfold lspi_next. set (q := if existsb b_abs D then _ else _).
  assert (L : length q = nA) by (unfold q; destruct (existsb b_abs D); rewrite ?map_length; apply lspi_q_len).
  assert (NE : q <> []) by (intros E; rewrite E in L; simpl in L; lia). pose proof (proj1 (argmax_spec q NE)). lia.
Qed.
Lemma rsum_eq_sub : forall A (l : list A) f g, rsum (map (fun x => f x - g x) l) = rsum (map f l) - rsum (map g l).
Proof. induction l; intros; cbn [map rsum]; [ring|]. rewrite IHl. ring. Qed.
Lemma rsum_eq_scal : forall A (l : list A) f c, rsum (map (fun x => f x * c) l) = rsum (map f l) * c.
Proof. induction l; intros; cbn [map rsum]; [ring|]. rewrite IHl. ring. Qed.

(** The linear system of one step says that the residuals are orthogonal to the features *)
Lemma lspi_system : forall (D : list samp) w v, (1 <= nA)%nat -> (forall x, In x D -> (b_a x < nA)%nat) -> forall j,
  sm dimw (fun k => lspi_A phi nphi nA gamma D w j k * v k) - lspi_b phi nA D j
  = rsum (map (fun x => lspi_phi phi nA (b_s x) (b_a x) j * (qw v (b_s x) (b_a x) - (b_r x + gamma * qw v (b_s' x) (lspi_next phi nphi nA D w x)))) D).
Proof.
  intros D w v HA HD j. unfold lspi_A, lspi_b.
  rewrite (sm_ext dimw _ (fun k => rsum (map (fun x => lspi_phi phi nA (b_s x) (b_a x) j * (lspi_phi phi nA (b_s x) (b_a x) k - gamma * lspi_phi phi nA (b_s' x) (lspi_next phi nphi nA D w x) k) * v k) D))) by (intros; rewrite <- rsum_eq_scal; reflexivity).
  rewrite <- (rsum_sm _ D dimw (fun x k => lspi_phi phi nA (b_s x) (b_a x) j * (lspi_phi phi nA (b_s x) (b_a x) k - gamma * lspi_phi phi nA (b_s' x) (lspi_next phi nphi nA D w x) k) * v k)).
  rewrite <- rsum_eq_sub. f_equal. apply map_ext_in. intros x I. rewrite !qw_features by (auto; apply next_lt; auto).
  rewrite (sm_ext dimw _ (fun k => lspi_phi phi nA (b_s x) (b_a x) j * (lspi_phi phi nA (b_s x) (b_a x) k * v k - gamma * (lspi_phi phi nA (b_s' x) (lspi_next phi nphi nA D w x) k * v k)))) by (intros; ring).
  rewrite sm_scal, sm_minus, sm_scal. ring.
Qed.

(** When the loop ends, the last step is smaller than the threshold, and the returned values have
    one-step residuals orthogonal to every feature, the next actions being greedy for the
    values before the last step *)
Theorem lspi_result : forall fuel eps (D : list samp) w0 w w_old, (1 <= nA)%nat -> (forall x, In x D -> (b_a x < nA)%nat) ->
  (forall u j, (j < dimw)%nat -> sm dimw (fun k => lspi_A phi nphi nA gamma D u j k * solve (lspi_A phi nphi nA gamma D u) (lspi_b phi nA D) k) = lspi_b phi nA D j) ->
  lspi_loop phi nphi nA gamma solve fuel eps D w0 = Some (w, w_old) ->
  sqrt (sm dimw (fun k => (w k - w_old k) ^ 2)) <= eps /\
  exists next : samp -> nat,
    (forall x, In x D -> b_abs x = false -> (next x < nA)%nat /\ forall a, (a < nA)%nat -> qw w_old (b_s' x) a <= qw w_old (b_s' x) (next x)) /\
    (forall x, In x D -> b_abs x = true -> next x = 0%nat) /\
    forall j, (j < dimw)%nat -> rsum (map (fun x => lspi_phi phi nA (b_s x) (b_a x) j * (qw w (b_s x) (b_a x) - (b_r x + gamma * qw w (b_s' x) (next x)))) D) = 0.
Proof.
  intros fuel eps D w0 w w_old HA HD HS HL.
  assert (W : w = lspi_step phi nphi nA gamma solve D w_old /\ vnorm nphi nA (vsub w w_old) <= eps).
  { revert w0 HL. induction fuel as [|f IH]; intros w0 HL; [discriminate|]. cbn [lspi_loop] in HL.
    destruct (Rlt_dec eps _) as [|N]; [eapply IH; eauto|]. inversion HL; subst. split; [reflexivity|lra]. }
  destruct W as [W1 W2]. split; [exact W2|]. exists (lspi_next phi nphi nA D w_old). split; [|split].
  - intros x I AB. split; [apply next_lt; auto|]. intros a Ha. unfold lspi_next. rewrite AB.
    replace (if existsb b_abs D then map (fun v => v * (1 - flag false)) (lspi_q phi nphi nA w_old (b_s' x)) else lspi_q phi nphi nA w_old (b_s' x)) with (lspi_q phi nphi nA w_old (b_s' x)) by (destruct (existsb b_abs D); rewrite ?map_one; reflexivity).
    pose proof (lspi_q_len w_old (b_s' x)) as LQ. assert (NE : lspi_q phi nphi nA w_old (b_s' x) <> []) by (intros E; rewrite E in LQ; simpl in LQ; lia).
    destruct (argmax_spec _ NE) as [_ [_ M]]. apply M. unfold qw. apply nth_In. lia.
  - intros x I AB. unfold lspi_next. replace (existsb b_abs D) with true by (symmetry; apply existsb_exists; eauto). rewrite AB.
    generalize (lspi_q phi nphi nA w_old (b_s' x)). intros q. destruct q as [|y q]; [reflexivity|]. cbn [map argmax].
    assert (G : forall l v b i, v = 0 -> argmaxl b v i (map (fun v => v * (1 - flag true)) l) = b).
    { clear. induction l; intros v b i E; cbn [map argmaxl]; auto. destruct (Rlt_dec v (a * (1 - flag true))) as [C|C]; [|auto]. unfold flag in C. exfalso. lra. }
    apply G. unfold flag. ring.
  - intros j Hj. rewrite <- lspi_system by auto. specialize (HS w_old j Hj). fold (lspi_step phi nphi nA gamma solve D w_old) in HS. rewrite <- W1 in HS. lra.
Qed.

(** Values that solve the optimality equation on data without absorbing samples are kept *)
Theorem lspi_optimal_fixed : forall fuel eps (D : list samp) w, (1 <= nA)%nat -> (forall x, In x D -> (b_a x < nA)%nat) -> 0 <= eps ->
  (forall x, In x D -> b_abs x = false) ->
  (forall x, In x D -> exists v, is_max (lspi_q phi nphi nA w (b_s' x)) v /\ qw w (b_s x) (b_a x) = b_r x + gamma * v) ->
  (forall A b v, (forall j, (j < dimw)%nat -> sm dimw (fun k => A j k * v k) = b j) -> A = lspi_A phi nphi nA gamma D w -> forall k, (k < dimw)%nat -> solve A b k = v k) ->
  exists w', lspi_loop phi nphi nA gamma solve (S fuel) eps D w = Some (w', w) /\ forall k, (k < dimw)%nat -> w' k = w k.
Proof.
  intros fuel eps D w HA HD He HN HB HS. exists (lspi_step phi nphi nA gamma solve D w).
  assert (E : forall k, (k < dimw)%nat -> lspi_step phi nphi nA gamma solve D w k = w k).
  { intros k Hk. unfold lspi_step. apply HS; auto. intros j Hj. apply Rminus_diag_uniq. rewrite lspi_system by auto.
    rewrite (map_ext_in _ (fun _ => 0)).
    - clear. induction D; cbn [map rsum]; auto. rewrite IHD. ring.
    - intros x I. destruct (HB x I) as (v & Mv & ->). assert (EV : qw w (b_s' x) (lspi_next phi nphi nA D w x) = v); [|rewrite EV; ring].
      unfold lspi_next. assert (EX : existsb b_abs D = false).
      { destruct (existsb b_abs D) eqn:EX; auto. apply existsb_exists in EX. destruct EX as (y & Iy & Ey). rewrite (HN y Iy) in Ey. discriminate. }
      rewrite EX. pose proof (lspi_q_len w (b_s' x)) as LQ. assert (NE : lspi_q phi nphi nA w (b_s' x) <> []) by (intros C; rewrite C in LQ; simpl in LQ; lia).
      apply (max_unique (lspi_q phi nphi nA w (b_s' x))); auto. apply (proj2 (argmax_spec _ NE)). }
  split; [|exact E]. cbn [lspi_loop]. destruct (Rlt_dec eps _) as [C|C]; [|reflexivity]. exfalso. unfold vnorm in C.
  rewrite sm_zero in C; [rewrite sqrt_0 in C; lra|]. intros k Hk. unfold vsub. rewrite E by auto. ring.
Qed.
End Lspi.

(** The flag of absorbing samples only affects the choice of the next action: the value of the
    absorbing state is still added.  One transition to an absorbing state with reward 1, one
    action, feature 1, discount 9/10: the returned value is 10 instead of 1. *)
Theorem lspi_absorbing_refuted : exists (D : list (bsample unit)) (solve : mat -> vec -> vec) w w_old,
  let phi := fun _ : unit => [1] in
  (forall x, In x D -> b_abs x = true /\ b_r x = 1) /\ D <> [] /\
  (forall u, sm 1 (fun k => lspi_A phi 1 1 (9 / 10) D u 0%nat k * solve (lspi_A phi 1 1 (9 / 10) D u) (lspi_b phi 1 D) k) = lspi_b phi 1 D 0%nat) /\
  lspi_loop phi 1 1 (9 / 10) solve 2 (1 / 100) D (fun _ => 0) = Some (w, w_old) /\
  qw phi 1 1 w tt 0 = 10.
Proof.
  set (D := [{| b_s := tt; b_a := 0%nat; b_r := 1; b_s' := tt; b_abs := true |}]).
  exists D, (fun A b _ => b 0%nat / A 0%nat 0%nat), (fun _ => 10), (fun _ => 10). cbv zeta.
  assert (EA : forall u, lspi_A (fun _ : unit => [1]) 1 1 (9 / 10) D u 0%nat 0%nat = 1 / 10).
  { intros u. unfold lspi_A, D. cbn [map rsum b_s b_a b_s']. unfold lspi_next. cbn [existsb b_abs orb]. unfold lspi_q, lin_row. simpl. unfold lspi_phi, action_features. simpl. lra. }
  assert (EB : lspi_b (fun _ : unit => [1]) 1 D 0%nat = 1) by (unfold lspi_b, D, lspi_phi, action_features; simpl; lra).
  split; [intros x [<-|[]]; split; reflexivity|]. split; [discriminate|]. split; [|split].
  - intros u. unfold sm. cbn [seq map rsum]. rewrite EA, EB. lra.
  - assert (ES : forall u, lspi_step (fun _ : unit => [1]) 1 1 (9 / 10) (fun A b _ => b 0%nat / A 0%nat 0%nat) D u = fun _ => 10).
    { intros u. apply functional_extensionality. intros k. unfold lspi_step. rewrite EA, EB. lra. }
    cbn [lspi_loop]. rewrite !ES. unfold vnorm, lspi_dim, vsub, sm. cbn [Nat.mul Nat.add seq map rsum].
    replace ((10 - 0) ^ 2 + 0) with (10 * 10) by ring. rewrite sqrt_square by lra. destruct (Rlt_dec (1 / 100) 10) as [_|N]; [|exfalso; lra].
    replace ((10 - 10) ^ 2 + 0) with 0 by ring. rewrite sqrt_0. destruct (Rlt_dec (1 / 100) 0) as [C|_]; [exfalso; lra|]. reflexivity.
  - unfold qw, lspi_q, lin_row. simpl. lra.
Qed.

(** * Concrete cases: one state, one action, reward 1, discount 1/2, a model that stores the mean target *)
Definition ex_sample (abs : bool) : bsample unit := {| b_s := tt; b_a := 0%nat; b_r := 1; b_s' := tt; b_abs := abs |}.
Definition ex_fit (m : R) (s : list unit) (a : list nat) (t : list R) : R := rsum t / INR (length t).
Definition ex_pred (m : R) (s : unit) : list R := [m].
Example fqi_ex : fst (fqi_fit ex_pred ex_fit (1 / 2) 3 [ex_sample false] (0, None)) = 7 / 4.
Proof. simpl. unfold ex_fit, add_targets, dqn_next_q. simpl. field. Qed.
Example fqi_abs_ex : fst (fqi_fit ex_pred ex_fit (1 / 2) 3 [ex_sample true] (0, None)) = 1.
Proof. simpl. unfold ex_fit, add_targets, dqn_next_q. simpl. field. Qed.
(** the hypotheses of fqi_error hold here with Q* = 2, eps = 0, B = 1; the bound is attained *)
Example fqi_error_ex : Rabs (fst (fqi_fit ex_pred ex_fit (1 / 2) 3 [ex_sample false] (0, None)) - 2) <= (1 / 2) ^ 2 * 1 + 0 * (1 - (1 / 2) ^ 3) / (1 - 1 / 2).
Proof.
  apply (fqi_error ex_pred ex_fit (1 / 2) 2 [ex_sample false] 0 1 (fun _ _ => 2) 0 1) with (x := ex_sample false); auto; try lra; try (simpl; auto; fail).
  - intros x [<-|[]]. exists 2. split; [|simpl; lra]. split; [left; reflexivity|]. intros y [<-|[]]. lra.
  - intros x a [<-|[]] _ Ha. exists (ex_sample false). simpl. repeat split; auto. lia.
  - intros m ts L x t. destruct ts as [|t0 [|]]; try discriminate L. simpl. intros [E|[]]. inversion E; subst. unfold ex_fit. simpl.
    replace ((t + 0) / 1 - t) with 0 by field. rewrite Rabs_R0. lra.
  - intros x [<-|[]]. simpl. rewrite Rabs_left; lra.
Qed.
Example dfqi_ex : fst (dfqi_fit ex_pred ex_fit (1 / 2) 2 [ex_sample false; ex_sample true; ex_sample false] ((0, 0), None)) = (3 / 2, 1).
Proof. simpl. unfold ex_fit, add_targets, double_next_q, dfqi_part. simpl. f_equal; field. Qed.
Example boosted_ex : match boosted_fit ex_pred ex_fit (1 / 2) 3 [ex_sample false] (boosted_init [0; 0; 0]) with
  | Some st => nth 0 (f_models st) 0 = 1 /\ nth 1 (f_models st) 0 = 1 / 2 /\ nth 2 (f_models st) 0 = 1 / 4 | None => False end.
Proof. simpl. unfold ex_fit, add_targets, bmask. simpl. repeat split; field. Qed.
(** one non-absorbing self-loop: the value is 1 / (1 - 9/10) = 10 *)
Example lspi_ex : qw (fun _ : unit => [1]) 1 1 (lspi_step (fun _ : unit => [1]) 1 1 (9 / 10) (fun A b _ => b 0%nat / A 0%nat 0%nat) [ex_sample false] (fun _ => 0)) tt 0 = 10.
Proof.
  unfold qw, lspi_q, lin_row, lspi_step, lspi_A, lspi_b, ex_sample. cbn [map rsum b_s b_a b_s' b_r]. unfold lspi_next. cbn [existsb b_abs orb].
  unfold lspi_q, lin_row, lspi_phi, action_features. simpl. field.
Qed.

Print Assumptions fqi_run.
Print Assumptions fqi_resume.
Print Assumptions fqi_error.
Print Assumptions dfqi_split.
Print Assumptions dfqi_step.
Print Assumptions boosted_run.
Print Assumptions boosted_exact.
Print Assumptions boosted_overflow.
Print Assumptions lspi_result.
Print Assumptions lspi_optimal_fixed.
Print Assumptions lspi_absorbing_refuted.

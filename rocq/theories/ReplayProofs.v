From Coq Require Import List Arith Lia Reals Lra Bool.
From Verif Require Import Common ReplayModel ReplaySpec.
Import ListNotations.

Section Proofs.
Variables St Ac Ps : Type.
Notation sample := (sample St Ac Ps).
Notation memory := (memory St Ac Ps).

Definition wf (m : memory) : Prop :=
  1 <= m_max m /\ m_idx m < m_max m /\
  (if m_full m then length (m_data m) = m_max m else length (m_data m) = m_idx m).

Lemma wf_init : forall a b, 1 <= b -> wf (mem_init a b).
Proof. intros a b H. unfold wf, mem_init; simpl. repeat split; lia. Qed.

Lemma chron_length : forall m, wf m -> length (chronological m) = size m.
Proof.
  intros m (H1 & H2 & H3). unfold chronological, size. destruct (m_full m).
  - rewrite app_length, skipn_length, firstn_length. lia.
  - lia.
Qed.

Lemma store_spec : forall m x, wf m ->
  exists m', store m x = Some m' /\ wf m' /\ m_max m' = m_max m /\ m_initial m' = m_initial m /\
    chronological m' = lastn (m_max m) (chronological m ++ [x]).
Proof.
  intros m x Hwf. pose proof (chron_length m Hwf) as HL.
  destruct Hwf as (H1 & H2 & H3). unfold store.
  destruct (m_full m) eqn:F.
  - rewrite upd_Some by lia. simpl.
    assert (E : skipn (m_idx m + 1) (setnth (m_data m) (m_idx m) x) = skipn (S (m_idx m)) (m_data m)).
    { rewrite setnth_split by lia. replace (m_idx m + 1) with (length (firstn (m_idx m) (m_data m)) + 1)
        by (rewrite firstn_length; lia).
      rewrite skipn_app. rewrite skipn_all2 by lia. simpl.
      replace (length (firstn (m_idx m) (m_data m)) + 1 - length (firstn (m_idx m) (m_data m))) with 1 by lia.
      reflexivity. }
    assert (E2 : firstn (m_idx m + 1) (setnth (m_data m) (m_idx m) x) = firstn (m_idx m) (m_data m) ++ [x]).
    { rewrite setnth_split by lia. replace (m_idx m + 1) with (length (firstn (m_idx m) (m_data m)) + 1)
        by (rewrite firstn_length; lia). rewrite firstn_app_2. reflexivity. }
    assert (C : lastn (m_max m) (chronological m ++ [x]) =
                skipn (S (m_idx m)) (m_data m) ++ firstn (m_idx m) (m_data m) ++ [x]).
    { unfold chronological. rewrite F. unfold lastn.
      rewrite (skipn_S_nth _ (m_data m) (m_idx m) x) by lia.
      match goal with |- skipn ?k _ = _ => replace k with 1
        by (rewrite !app_length; cbn [length]; rewrite skipn_length, firstn_length; lia) end.
      simpl. rewrite <- app_assoc. reflexivity. }
    destruct (m_idx m + 1 =? m_max m) eqn:E3.
    + apply Nat.eqb_eq in E3. eexists; split; [reflexivity|]. split; [|split; [reflexivity|split;[reflexivity|]]].
      * unfold wf; simpl. rewrite setnth_length. repeat split; lia.
      * rewrite C. rewrite (skipn_all2 (n:=S (m_idx m))) by lia.
        unfold chronological; simpl. rewrite app_nil_r. rewrite <- E2. rewrite firstn_all2; [reflexivity|]. rewrite setnth_length; lia.
    + apply Nat.eqb_neq in E3. eexists; split; [reflexivity|]. split; [|split; [reflexivity|split;[reflexivity|]]].
      * unfold wf; simpl. rewrite setnth_length. repeat split; lia.
      * rewrite C. unfold chronological; cbn [m_full m_idx m_data]. rewrite E, E2. reflexivity.
  - unfold ds_append. destruct (Nat.ltb_spec (length (m_data m)) (m_max m)) as [L|L]; [|lia]. simpl.
    assert (C : lastn (m_max m) (chronological m ++ [x]) = m_data m ++ [x]).
    { unfold chronological; rewrite F. apply lastn_all. rewrite app_length; simpl; lia. }
    destruct (m_idx m + 1 =? m_max m) eqn:E3.
    + apply Nat.eqb_eq in E3. eexists; split; [reflexivity|]. split; [|split; [reflexivity|split;[reflexivity|]]].
      * unfold wf; simpl. rewrite app_length; simpl. repeat split; lia.
      * rewrite C. unfold chronological; simpl. rewrite app_nil_r. reflexivity.
    + apply Nat.eqb_neq in E3. eexists; split; [reflexivity|]. split; [|split; [reflexivity|split;[reflexivity|]]].
      * unfold wf; simpl. rewrite app_length; simpl. repeat split; lia.
      * rewrite C. unfold chronological; simpl. reflexivity.
Qed.

(** Partial n-step sum. *)
Definition psum (r0 : nat -> R) (g : R) (i k : nat) : R :=
  rsum (map (fun t => g ^ t * r0 (i + t)%nat)%R (seq 0 k)).

Lemma psum_S : forall r0 g i k, psum r0 g i (S k) = (psum r0 g i k + g ^ k * r0 (i + k)%nat)%R.
Proof. intros. unfold psum. rewrite seq_S, map_app, rsum_app. simpl. lra. Qed.

Lemma inner_spec : forall lasts g i k j rew (r0 : nat -> R),
  length lasts = length rew -> i + j + k < length rew ->
  nth i rew 0%R = psum r0 g i (S j) ->
  (forall t, i < t -> nth t rew 0%R = r0 t) ->
  exists rew',
    length rew' = length rew /\
    (forall t, i < t -> nth t rew' 0%R = r0 t) /\
    ((inner lasts g i j k rew = Some (rew', None) /\
      (forall t, j <= t < j + k -> nth (i + t) lasts false = false) /\
      nth i rew' 0%R = psum r0 g i (S (j + k)))
     \/
     (exists p, j <= p < j + k /\ nth (i + p) lasts false = true /\
        inner lasts g i j k rew = Some (rew', Some (i + p + 1)))).
Proof.
  induction k as [|k IH]; intros j rew r0 HL Hlen H1 H2; simpl.
  - exists rew. repeat split; auto. left. repeat split; auto; try (intros; lia).
    replace (S (j + 0)) with (S j) by lia. auto.
  - rewrite (nth_error_nth' _ lasts (i + j) false) by lia. simpl.
    destruct (nth (i + j) lasts false) eqn:El.
    + exists rew. repeat split; auto. right. exists j. repeat split; auto; lia.
    + rewrite (nth_error_nth' _ rew i 0%R) by lia. simpl.
      rewrite (nth_error_nth' _ rew (i + (j + 1)) 0%R) by lia. simpl.
      rewrite upd_Some by lia. simpl.
      destruct (IH (j + 1) (setnth rew i (nth i rew 0 + g ^ (j + 1) * nth (i + (j + 1)) rew 0)%R) r0)
        as (rew' & L' & T' & D).
      * rewrite setnth_length; auto.
      * rewrite setnth_length; lia.
      * rewrite nth_setnth_eq by lia. rewrite H1, H2 by lia.
        replace (S (j + 1)) with (S (S j)) by lia. rewrite (psum_S r0 g i (S j)).
        replace (j + 1) with (S j) by lia. reflexivity.
      * intros t Ht. rewrite nth_setnth_neq by lia. auto.
      * exists rew'. rewrite setnth_length in L'. repeat split; auto.
        destruct D as [(D1 & D2 & D3) | (p & P1 & P2 & P3)].
        -- left. repeat split; auto.
           ++ intros t Ht. destruct (Nat.eq_dec t j); [subst; auto|]. apply D2; lia.
           ++ rewrite D3. f_equal. lia.
        -- right. exists p. repeat split; auto; lia.
Qed.

Lemma inner_zero : forall lasts g i j rew, inner lasts g i j 0 rew = Some (rew, None).
Proof. reflexivity. Qed.

Lemma chron_le : forall m, wf m -> length (chronological m) <= m_max m.
Proof.
  intros m H. rewrite chron_length by auto. destruct H as (A & B & C). unfold size. destruct (m_full m); lia.
Qed.

Section Loop.
Variables (ds : list sample) (n : nat) (g : R) (d : sample).
Hypothesis Hn : 1 <= n.

Let r0 (t : nat) : R := nth t (map s_reward ds) 0%R.

Lemma r0_nth : forall t, t < length ds -> r0 t = s_reward (nth t ds d).
Proof.
  intros t Ht. unfold r0. rewrite (nth_indep _ 0%R (s_reward d)) by (rewrite map_length; lia).
  rewrite map_nth. reflexivity.
Qed.

Lemma psum_nstep : forall i, i + n <= length ds -> psum r0 g i n = nstep_return ds n g i d.
Proof.
  intros i Hi. unfold psum, nstep_return. apply rsum_map_ext.
  intros t Ht. apply in_seq in Ht. rewrite r0_nth by lia. reflexivity.
Qed.

Lemma lasts_nth : forall t, t < length ds -> nth t (map s_last ds) false = s_last (nth t ds d).
Proof.
  intros t Ht. rewrite (nth_indep _ false (s_last d)) by (rewrite map_length; lia).
  rewrite map_nth. reflexivity.
Qed.

Lemma window_ok_true : forall i, i + n <= length ds ->
  (forall t, t < n - 1 -> nth (i + t) (map s_last ds) false = false) -> window_ok ds n i = true.
Proof.
  intros i Hi H. unfold window_ok. apply forallb_forall. intros x Hx.
  apply (In_nth _ _ d) in Hx. destruct Hx as (t & Ht & E).
  assert (L : length (slice i (i + (n - 1)) ds) = n - 1).
  { unfold slice. rewrite firstn_length, skipn_length. lia. }
  rewrite L in Ht. rewrite nth_slice in E by lia. subst x.
  rewrite <- lasts_nth by lia. rewrite H by lia. reflexivity.
Qed.

Lemma window_ok_false : forall i p, i + n <= length ds -> i <= p < i + (n - 1) ->
  nth p (map s_last ds) false = true -> window_ok ds n i = false.
Proof.
  intros i p Hi Hp H. unfold window_ok.
  destruct (forallb _ _) eqn:E; auto. exfalso.
  rewrite forallb_forall in E. specialize (E (nth p ds d)).
  rewrite lasts_nth in H by lia. rewrite H in E. simpl in E.
  assert (In (nth p ds d) (slice i (i + (n - 1)) ds)).
  { replace p with (i + (p - i)) by lia. rewrite <- (nth_slice _ ds i (i + (n - 1))) by lia.
    apply nth_In. unfold slice. rewrite firstn_length, skipn_length. lia. }
  specialize (E H0). discriminate.
Qed.

Definition todo (i : nat) : list nat := filter (window_ok ds n) (seq i (length ds + 1 - n - i)).

Lemma todo_skip : forall i i', i <= i' ->
  (forall t, i <= t < i' -> t + n <= length ds -> window_ok ds n t = false) -> todo i = todo i'.
Proof.
  intros i i' Hle. revert i Hle. 
  assert (forall k i, i + k = i' -> (forall t, i <= t < i' -> t + n <= length ds -> window_ok ds n t = false) -> todo i = todo i').
  { induction k; intros i E H. - replace i with i' by lia. reflexivity.
    - unfold todo at 1. destruct (length ds + 1 - n - i) eqn:El.
      + unfold todo. replace (length ds + 1 - n - i') with 0 by lia. reflexivity.
      + simpl. rewrite H by lia. rewrite <- (IHk (S i)); [|lia|intros; apply H; lia].
        unfold todo. f_equal. f_equal. lia. }
  intros. apply (H (i' - i)); auto. lia.
Qed.

Lemma add_loop_spec : forall fuel i rew m,
  wf m -> i <= length ds + 1 -> length ds + 2 <= fuel + i ->
  length rew = length ds -> (forall t, i <= t -> nth t rew 0%R = r0 t) ->
  exists m' rew', add_loop fuel ds n g i rew m = Some (m', rew') /\ wf m' /\
    m_max m' = m_max m /\ m_initial m' = m_initial m /\
    chronological m' = lastn (m_max m) (chronological m ++ map (nstep_sample ds n g d) (todo i)).
Proof.
  induction fuel as [|fuel IH]; intros i rew m Hwf Hi Hf HL Hr; [lia|].
  simpl. destruct (Nat.ltb_spec (i + n) (length ds + 1)) as [Hlt|Hge].
  - destruct (inner_spec (map s_last ds) g i (n - 1) 0 rew r0) as (rew' & L' & T' & D).
    + rewrite map_length; lia.
    + lia.
    + unfold psum; simpl. rewrite Hr by lia. rewrite Nat.add_0_r. lra.
    + intros; apply Hr; lia.
    + destruct D as [(D1 & D2 & D3) | (p & P1 & P2 & P3)].
      * rewrite D1. simpl.
        unfold mk_row. rewrite (nth_error_nth' _ ds i d) by lia. simpl.
        rewrite (nth_error_nth' _ rew' i 0%R) by lia. simpl.
        rewrite (nth_error_nth' _ ds (i + (n - 1)) d) by lia. simpl.
        assert (EX : {| s_state := s_state (nth i ds d); s_action := s_action (nth i ds d);
            s_reward := nth i rew' 0%R; s_next := s_next (nth (i + (n - 1)) ds d);
            s_absorbing := s_absorbing (nth (i + (n - 1)) ds d);
            s_last := s_last (nth (i + (n - 1)) ds d); s_ps := s_ps (nth i ds d);
            s_pns := s_pns (nth (i + (n - 1)) ds d) |} = nstep_sample ds n g d i).
        { unfold nstep_sample. f_equal. rewrite D3. replace (S (0 + (n - 1))) with n by lia.
          apply psum_nstep. lia. }
        rewrite EX.
        destruct (store_spec m (nstep_sample ds n g d i) Hwf) as (m1 & S1 & W1 & M1 & I1 & C1).
        rewrite S1. simpl.
        destruct (IH (i + 1) rew' m1) as (m2 & rew2 & A2 & W2 & M2 & I2 & C2); auto; try lia.
        -- intros t Ht. apply T'. lia.
        -- exists m2, rew2. rewrite A2. repeat split; auto; try congruence; try apply W2.
           rewrite C2, M1, C1. rewrite lastn_app. rewrite <- app_assoc. f_equal. f_equal.
           unfold todo at 2. replace (length ds + 1 - n - i) with (S (length ds + 1 - n - (i + 1))) by lia.
           simpl. rewrite window_ok_true; [|lia|intros; apply D2; lia].
           simpl. unfold todo. replace (i + 1) with (S i) by lia. reflexivity.
      * rewrite P3. simpl.
        destruct (IH (i + p + 1) rew' m) as (m2 & rew2 & A2 & W2 & M2 & I2 & C2); auto; try lia.
        -- intros t Ht. apply T'. lia.
        -- exists m2, rew2. rewrite A2. repeat split; auto; try apply W2.
           rewrite C2. f_equal. f_equal. f_equal. symmetry. apply todo_skip; [lia|].
           intros t Ht Hw. apply (window_ok_false t (i + p)); auto; lia.
  - exists m, rew. repeat split; auto; try apply Hwf.
    unfold todo. replace (length ds + 1 - n - i) with 0 by lia. simpl. rewrite app_nil_r.
    symmetry. apply lastn_all. apply chron_le. auto.
Qed.

End Loop.

Lemma add_spec : forall m ds n g, wf m -> 1 <= n ->
  exists m' rew', add m ds n g = Some (m', rew') /\ wf m' /\
    m_max m' = m_max m /\ m_initial m' = m_initial m /\
    chronological m' = lastn (m_max m) (chronological m ++ nstep_samples ds n g).
Proof.
  intros m ds n g Hwf Hn. unfold add. destruct (Nat.ltb_spec 0 n); [|lia].
  destruct ds as [|d ds'].
  - simpl. destruct (Nat.ltb_spec n 1); [lia|]. exists m, []. repeat split; auto; try apply Hwf.
    rewrite app_nil_r. symmetry. apply lastn_all, chron_le, Hwf.
  - set (ds := d :: ds') in *.
    destruct (add_loop_spec ds n g d Hn (length ds + 2) 0 (map s_reward ds) m) as (m' & rew' & A & W & M & I & C); auto; try lia.
    + apply map_length.
    + exists m', rew'. repeat split; auto; try apply W. rewrite C. unfold todo, ds.
      rewrite Nat.sub_0_r. reflexivity.
Qed.

Lemma add_all_spec : forall calls m, wf m -> Forall (fun c => 1 <= snd (fst c)) calls ->
  exists m', add_all m calls = Some m' /\ wf m' /\ m_max m' = m_max m /\ m_initial m' = m_initial m /\
    chronological m' = lastn (m_max m) (chronological m ++ offered calls).
Proof.
  induction calls as [|[[ds n] g] t IH]; intros m Hwf HF; simpl.
  - exists m. repeat split; auto; try apply Hwf. rewrite app_nil_r. symmetry. apply lastn_all, chron_le, Hwf.
  - inversion HF; subst. simpl in *. destruct (add_spec m ds n g Hwf H1) as (m1 & r1 & A & W & M & I & C).
    rewrite A. simpl. destruct (IH m1 W H2) as (m2 & A2 & W2 & M2 & I2 & C2).
    exists m2. rewrite A2. repeat split; auto; try congruence; try apply W2.
    rewrite C2, M, C, lastn_app. rewrite <- app_assoc. reflexivity.
Qed.

(** Samples returned by [get] are samples currently held. *)
Lemma get_spec : forall m idxs, wf m -> Forall (fun i => i < length (m_data m)) idxs ->
  exists out, get m idxs = Some out /\ length out = length idxs /\
    Forall (fun x => In x (chronological m)) out.
Proof.
  intros m idxs Hwf. assert (HIn : forall x, In x (m_data m) -> In x (chronological m)).
  { intros x Hx. unfold chronological. destruct (m_full m); auto.
    rewrite <- (firstn_skipn (m_idx m)) in Hx. apply in_app_iff in Hx. apply in_app_iff. tauto. }
  induction idxs as [|i t IH]; intros H.
  - exists []. repeat split; auto.
  - inversion H; subst. destruct (IH H3) as (out & E & L & F). unfold get in *. simpl.
    destruct (nth_error (m_data m) i) eqn:En.
    + simpl. rewrite E. simpl. exists (s :: out). simpl. repeat split; auto.
      constructor; auto. apply HIn. eapply nth_error_In; eauto.
    + apply nth_error_None in En. lia.
Qed.

(** With n = 1 the caller's rewards are untouched. *)
Lemma add_loop_one : forall (ds : list sample) g fuel i rew (m m' : memory) rew',
  add_loop fuel ds 1 g i rew m = Some (m', rew') -> rew' = rew.
Proof.
  intros ds g. induction fuel as [|fuel IH]; intros i rew m m' rew' H; [discriminate|].
  simpl in H. destruct (i + 1 <? length ds + 1).
  - unfold obind in H at 1. destruct (mk_row ds rew i 0); [|discriminate].
    simpl in H. unfold obind in H. destruct (store m s); [|discriminate]. eapply IH; eauto.
  - congruence.
Qed.

Lemma run_ops_spec : forall ops m hist, wf m -> 
  Forall (fun o => match o with OpAdd _ _ _ _ n _ => 1 <= n | OpReset _ _ _ => True end) ops ->
  chronological m = lastn (m_max m) hist ->
  exists m', run_ops m ops = Some m' /\ wf m' /\ m_max m' = m_max m /\ m_initial m' = m_initial m /\
    chronological m' = lastn (m_max m) (spec_ops hist ops).
Proof.
  induction ops as [|o t IH]; intros m hist Hwf HF HC; simpl.
  - exists m. repeat split; auto; apply Hwf.
  - inversion HF; subst. destruct o as [ds n g|]; simpl in *.
    + destruct (add_spec m ds n g Hwf H1) as (m1 & r1 & A & W & M & I & C).
      rewrite A. simpl. destruct (IH m1 (hist ++ nstep_samples ds n g) W H2) as (m2 & A2 & W2 & M2 & I2 & C2).
      * rewrite C, HC, lastn_app. congruence.
      * exists m2. rewrite A2. repeat split; auto; try apply W2; congruence.
    + destruct (IH (mem_reset m) []) as (m2 & A2 & W2 & M2 & I2 & C2); auto.
      * unfold wf, mem_reset; simpl. destruct Hwf as (Q1 & Q2 & Q3); repeat split; simpl; auto; lia.
      * exists m2. rewrite A2. repeat split; auto; apply W2.
Qed.

Lemma nstep_samples_one : forall (ds : list sample) g, nstep_samples ds 1 g = ds.
Proof.
  intros [|d ds'] g; [reflexivity|]. unfold nstep_samples. set (ds := d :: ds').
  assert (E : forall i, window_ok ds 1 i = true).
  { intros i. unfold window_ok, slice. replace (i + (1 - 1) - i) with 0 by lia. reflexivity. }
  assert (F : forall l, filter (window_ok ds 1) l = l).
  { induction l; simpl; auto. rewrite E, IHl. reflexivity. }
  rewrite F. replace (length ds + 1 - 1) with (length ds) by lia. clearbody ds.
  assert (G : forall i, i < length ds -> nstep_sample ds 1 g d i = nth i ds d).
  { intros i Hi. unfold nstep_sample, nstep_return. simpl seq. simpl map. simpl rsum.
    replace (i + (1 - 1)) with i by lia. rewrite Nat.add_0_r. simpl pow.
    destruct (nth i ds d). simpl. f_equal. lra. }
  clear E F. rewrite (map_ext_in _ (fun i => nth i ds d)).
  - clear. generalize ds as l. clear. intros l. induction l as [|x l IH]; simpl; auto.
    f_equal. rewrite <- seq_shift, map_map. simpl. exact IH.
  - intros i Hi. apply in_seq in Hi. apply G. lia.
Qed.

End Proofs.

(** C97: videos of several environments. *)
From Coq Require Import String List Arith Lia Bool.
From Verif Require Import Common VecRecModel.
Import ListNotations.

(** Every environment that is switched on comes before all that are switched off *)
Definition prefix_mask (mask : list bool) : Prop :=
  forall i j, i < j -> nth_error mask i = Some false -> nth_error mask j = Some true -> False.
(** The frame of environment [i] is added to its own video *)
Definition recorded {F} (mask : list bool) (frames : list F) (recs recs' : list (list F)) : Prop :=
  length recs' = length recs /\
  forall i b f r, nth_error mask i = Some b -> nth_error frames i = Some f -> nth_error recs i = Some r ->
    nth_error recs' i = Some (if b then r ++ [f] else r).

Section Proofs.
Context {F : Type}.
Lemma render_all_false : forall mask (frames : list F), (forall b, In b mask -> b = false) -> render_all mask frames = [].
Proof.
  induction mask as [|b mask IH]; intros [|f frames] H; try reflexivity. cbn [render_all].
  rewrite (H b (or_introl eq_refl)). apply IH. intros; apply H; simpl; auto.
Qed.
Lemma prefix_tail b mask : prefix_mask (b :: mask) -> prefix_mask mask.
Proof. intros P i j Hij A B. apply (P (S i) (S j)); auto. lia. Qed.
Lemma prefix_false mask : prefix_mask (false :: mask) -> forall b, In b mask -> b = false.
Proof.
  intros P b I. apply In_nth_error in I as [j E]. destruct b; auto. exfalso. apply (P 0 (S j)); auto. lia.
Qed.

Lemma record_loop_ok : forall mask (frames : list F) recs pre, prefix_mask mask -> length frames = length mask -> length recs = length mask ->
  exists recs', record_loop (length pre) mask (pre ++ render_all mask frames) recs = Some recs' /\ recorded mask frames recs recs'.
Proof.
  induction mask as [|b mask IH]; intros frames recs pre P Lf Lr.
  - destruct recs; [|discriminate]. exists []. split; auto. split; auto. intros i b f r E. destruct i; discriminate.
  - destruct frames as [|f frames]; [discriminate|]. destruct recs as [|r recs]; [discriminate|]. cbn [length] in Lf, Lr.
    cbn [record_loop render_all]. destruct b.
    + rewrite nth_error_app2, Nat.sub_diag by auto. cbn [nth_error].
      destruct (IH frames recs (pre ++ [f])) as (rs & E & L & R); [eapply prefix_tail; eauto|lia|lia|].
      rewrite app_length in E. cbn [length] in E. rewrite Nat.add_1_r in E. rewrite <- app_assoc in E. cbn [app] in E. rewrite E.
      eexists. split; [reflexivity|]. split; [simpl; lia|]. intros [|i] b' f' r' A B C; cbn [nth_error] in *; [|eapply R; eauto].
      inversion A; inversion B; inversion C; reflexivity.
    + assert (Z : forall m i (sh : list F) rs, (forall b, In b m -> b = false) -> length rs = length m -> record_loop i m sh rs = Some rs).
      { clear. induction m as [|b m IH]; intros i sh rs H L; destruct rs; try discriminate; auto. cbn [record_loop].
        rewrite (H b (or_introl eq_refl)). rewrite IH; auto. intros; apply H; simpl; auto. }
      rewrite Z; [|apply prefix_false; auto|lia]. eexists. split; [reflexivity|]. split; auto.
      intros [|i] b' f' r' A B C; cbn [nth_error] in *; [inversion A; subst; auto|].
      assert (b' = false) as -> by (apply (prefix_false mask P); apply nth_error_In in A; exact A). exact C.
Qed.

(** When the environments that are switched off are the last ones, each video gets the frame of
    its environment *)
Theorem vec_record_prefix : forall mask (frames : list F) recs, prefix_mask mask -> length frames = length mask -> length recs = length mask ->
  exists recs', record_step mask frames recs = Some recs' /\ recorded mask frames recs recs'.
Proof. intros. apply (record_loop_ok mask frames recs []); auto. Qed.

Lemma render_all_length : forall mask (frames : list F), length frames = length mask -> length (render_all mask frames) = count_occ bool_dec mask true.
Proof.
  induction mask as [|b mask IH]; intros [|f frames] L; try discriminate; auto. cbn [render_all count_occ]. simpl in L.
  destruct b; simpl; rewrite IH by lia; reflexivity.
Qed.
Lemma record_loop_index : forall mask i (sh : list F) rs rs', length rs = length mask -> record_loop i mask sh rs = Some rs' ->
  forall j, nth_error mask j = Some true -> i + j < length sh.
Proof.
  induction mask as [|b mask IH]; intros i sh rs rs' L E j Hj; [destruct j; discriminate|].
  destruct rs as [|r rs]; [discriminate|]. cbn [record_loop] in E.
  destruct (if b then match nth_error sh i with Some f => Some (r ++ [f]) | None => None end else Some r) as [r'|] eqn:Er; [|discriminate].
  destruct (record_loop (S i) mask sh rs) as [rs0|] eqn:El; [|discriminate]. destruct j as [|j].
  - cbn [nth_error] in Hj. inversion Hj; subst. rewrite Nat.add_0_r. apply nth_error_Some. destruct (nth_error sh i); congruence.
  - cbn [nth_error] in Hj. simpl in L. replace (i + S j) with (S i + j) by lia. eapply (IH (S i)); eauto.
Qed.
Lemma count_le_last : forall mask j, nth_error mask j = Some true -> (forall k, j < k -> nth_error mask k <> Some true) ->
  count_occ bool_dec mask true <= S j.
Proof.
  induction mask as [|b mask IH]; intros j E H; [destruct j; discriminate|]. destruct j as [|j].
  - cbn [nth_error] in E. inversion E; subst. cbn [count_occ]. destruct (bool_dec true true); [|congruence].
    assert (Z : count_occ bool_dec mask true = 0); [|lia]. apply count_occ_not_In. intros I. apply In_nth_error in I as [k Ek].
    apply (H (S k)); auto. lia.
  - cbn [nth_error] in E. assert (IHj := IH j E ltac:(intros k Hk; apply (H (S k)); lia)). cbn [count_occ]. destruct (bool_dec b true); lia.
Qed.
Lemma count_lt_last : forall mask i j, i < j -> nth_error mask i = Some false -> nth_error mask j = Some true ->
  (forall k, j < k -> nth_error mask k <> Some true) -> count_occ bool_dec mask true <= j.
Proof.
  induction mask as [|b mask IH]; intros i j Hij Ei Ej H; [destruct i; discriminate|]. destruct j as [|j]; [lia|]. cbn [nth_error] in Ej.
  assert (H' : forall k, j < k -> nth_error mask k <> Some true) by (intros k Hk; apply (H (S k)); lia). destruct i as [|i].
  - cbn [nth_error] in Ei. inversion Ei; subst. cbn [count_occ]. destruct (bool_dec false true); [discriminate|].
    apply count_le_last; auto.
  - cbn [nth_error] in Ei. specialize (IH i j ltac:(lia) Ei Ej H'). cbn [count_occ]. destruct (bool_dec b true); lia.
Qed.
Lemma last_true : forall mask j, nth_error mask j = Some true -> exists m, j <= m /\ nth_error mask m = Some true /\ forall k, m < k -> nth_error mask k <> Some true.
Proof.
  induction mask as [|b mask IH]; intros j E; [destruct j; discriminate|].
  destruct (in_dec bool_dec true mask) as [I|N].
  - apply In_nth_error in I as [k Ek]. destruct j as [|j].
    + destruct (IH k Ek) as (m & A & B & C). exists (S m). split; [lia|]. split; auto. intros [|q] Hq; [lia|]. apply C. lia.
    + destruct (IH j E) as (m & A & B & C). exists (S m). split; [lia|]. split; auto. intros [|q] Hq; [lia|]. apply C. lia.
  - destruct j as [|j]; [|exfalso; apply N; cbn [nth_error] in E; apply nth_error_In in E; auto].
    exists 0. split; auto. split; auto. intros [|q] Hq; [lia|]. cbn [nth_error]. intros Eq. apply nth_error_In in Eq. auto.
Qed.
(** In all other cases, that is as soon as an environment is switched off before one that is
    still running, recording raises an IndexError *)
Theorem vec_record_mask_refuted : forall mask (frames : list F) recs, length frames = length mask -> length recs = length mask ->
  (exists i j, i < j /\ nth_error mask i = Some false /\ nth_error mask j = Some true) ->
  record_step mask frames recs = None.
Proof.
  intros mask frames recs Lf Lr (i & j & Hij & Ei & Ej). destruct (last_true mask j Ej) as (m & Hm & Em & Lm).
  assert (C := count_lt_last mask i m ltac:(lia) Ei Em Lm).
  destruct (record_step mask frames recs) as [rs|] eqn:E; auto. exfalso. unfold record_step in E.
  assert (B := record_loop_index mask 0 _ recs rs Lr E m Em). rewrite render_all_length in B by auto. simpl in B. lia.
Qed.
End Proofs.

(** All the recorders of a VectorCore write to the same file when a tag is given, and otherwise
    when they are built within the same second: there is one video for all environments *)
Theorem vec_record_paths_refuted : forall n tag name clock counter show i j a b,
  (exists t, tag = Some t) \/ (forall k, k < n -> clock k = clock 0) ->
  nth_error (vec_paths n tag name clock counter show) i = Some a ->
  nth_error (vec_paths n tag name clock counter show) j = Some b -> a = b.
Proof.
  intros n tag name clock counter show i j a b H Ea Eb. unfold vec_paths in *. rewrite nth_error_map in Ea, Eb.
  assert (G : forall k c, option_map (fun i => rec_path tag name (clock i) counter show) (nth_error (seq 0 n) k) = Some c ->
              c = rec_path tag name (clock 0) counter show).
  { intros k c E. destruct (nth_error (seq 0 n) k) as [q|] eqn:Q; [|discriminate]. inversion E; subst. unfold rec_path. f_equal.
    destruct H as [[t ->]|H]; [reflexivity|]. unfold rec_tag. destruct tag; auto. apply H. apply nth_error_In in Q. apply in_seq in Q. lia. }
  rewrite (G i a Ea), (G j b Eb). reflexivity.
Qed.
(** Videos of one recorder never share a name *)
Theorem vec_record_names : forall tag name now show c1 c2,
  (forall a b, show a = show b -> a = b) ->
  rec_path tag name now c1 show = rec_path tag name now c2 show -> c1 = c2.
Proof.
  intros tag name now show c1 c2 Inj E. unfold rec_path in E. apply (f_equal snd) in E. cbn [snd] in E. unfold rec_name in E.
  set (base := match name with Some s => if String.eqb s "" then "recording"%string else s | None => "recording"%string end) in *.
  assert (Cancel : forall (p a b : string), (p ++ a = p ++ b)%string -> a = b).
  { induction p as [|c p IH]; intros a b H; [exact H|]. simpl in H. inversion H. auto. }
  assert (Len : forall a b : string, String.length (a ++ b)%string = String.length a + String.length b).
  { induction a as [|c a IH]; intros b; simpl; auto. }
  assert (CancelR : forall a b s : string, (a ++ s = b ++ s)%string -> a = b).
  { induction a as [|c a IH]; intros [|d b] s H; auto.
    - exfalso. apply (f_equal String.length) in H. simpl in H. rewrite Len in H. lia.
    - exfalso. apply (f_equal String.length) in H. simpl in H. rewrite Len in H. lia.
    - simpl in H. inversion H. f_equal. eauto. }
  destruct c1 as [|c1], c2 as [|c2]; auto; apply Cancel in E.
  - simpl in E. discriminate.
  - simpl in E. discriminate.
  - apply (Cancel "-"%string) in E. apply CancelR in E. apply Inj. exact E.
Qed.

(** Three environments: with the last one off the videos are right, with the first one off the
    recording raises *)
Example vec_record_demo :
  record_step [true; true; false] ["f0"; "f1"; "f2"]%string [["a"]; ["b"]; ["c"]]%string = Some [["a"; "f0"]; ["b"; "f1"]; ["c"]]%string /\
  record_step [false; true; true] ["f0"; "f1"; "f2"]%string [["a"]; ["b"]; ["c"]]%string = None /\
  vec_paths 3 None None (fun _ => "15-11-2026_10-00-00"%string) 0 (fun _ => "1"%string) = repeat ("15-11-2026_10-00-00"%string, "recording.mp4"%string) 3.
Proof. repeat split; reflexivity. Qed.

Print Assumptions vec_record_prefix.
Print Assumptions vec_record_mask_refuted.
Print Assumptions vec_record_paths_refuted.
Print Assumptions vec_record_names.

(** Auxiliary facts for C45. *)
From Coq Require Import List Arith Lia Reals Bool Lra Psatz Permutation.
From Verif Require Import Common FeatModel FeatProofs FeatProps TdModel TdProofs UtilProofs ApproxModel.
Import ListNotations.

Lemma dot_app : forall u v u' v', length u = length u' -> dot (u ++ v) (u' ++ v') = (dot u u' + dot v v')%R.
Proof. induction u as [|x u IH]; intros v [|y u'] v' H; simpl in *; try discriminate; [lra|]. rewrite IH by lia. lra. Qed.
Lemma dot_zero : forall u n, dot u (repeat 0%R n) = 0%R.
Proof. induction u as [|x u IH]; intros [|n]; simpl; auto. rewrite IH. lra. Qed.

Definition rect (c : nat) (W : list (list R)) : Prop := Forall (fun r => length r = c) W.
Lemma rect_concat : forall c W, rect c W -> length (concat W) = length W * c.
Proof. induction W as [|r W IH]; intros H; simpl; auto. inversion H; subst. rewrite app_length, IH; auto. Qed.
Lemma chunk_concat : forall c W, rect c W -> chunk (length W) c (concat W) = W.
Proof.
  induction W as [|r W IH]; intros H; simpl; auto. inversion H; subst.
  rewrite firstn_app, Nat.sub_diag, firstn_all, skipn_app, Nat.sub_diag, skipn_all. simpl. rewrite app_nil_r, IH; auto.
Qed.
Lemma concat_chunk : forall r c w, length w = r * c -> concat (chunk r c w) = w /\ rect c (chunk r c w) /\ length (chunk r c w) = r.
Proof.
  induction r as [|r IH]; intros c w H; simpl in *.
  - destruct w; [|discriminate]. repeat split; auto. constructor.
  - destruct (IH c (skipn c w)) as (A & B & C); [rewrite skipn_length; lia|]. rewrite A, firstn_skipn. split; auto. split; [|lia].
    constructor; auto. rewrite firstn_length. lia.
Qed.
Lemma rect_hd : forall c W, rect c W -> W <> [] -> n_phi W = c.
Proof. intros c [|r W] H N; [congruence|]. inversion H; subst. reflexivity. Qed.

Lemma set_slice_zeros : forall n st f, st + length f <= n -> set_slice (repeat 0%R n) st f = repeat 0%R st ++ f ++ repeat 0%R (n - st - length f).
Proof.
  intros n st f H. unfold set_slice. replace n with (st + (length f + (n - st - length f))) at 1 2 by lia.
  rewrite repeat_app. rewrite firstn_app, repeat_length, Nat.sub_diag, firstn_O, app_nil_r. rewrite firstn_all2 by (rewrite repeat_length; lia).
  f_equal. f_equal. rewrite skipn_app, repeat_length, (skipn_all2 (repeat 0%R st)) by (rewrite repeat_length; lia).
  rewrite app_nil_l. replace (st + length f - st) with (length f) by lia. rewrite repeat_app, skipn_app, repeat_length, Nat.sub_diag.
  rewrite skipn_all2 by (rewrite repeat_length; lia). reflexivity.
Qed.

Lemma dot_block : forall c W a phi, rect c W -> length phi = c -> a < length W ->
  dot (concat W) (set_slice (repeat 0%R (c * length W)) (a * c) phi) = dot phi (nth a W []) /\
  length (set_slice (repeat 0%R (c * length W)) (a * c) phi) = length W * c.
Proof.
  intros c W a phi HR HP Ha.
  assert (L : a * c + c <= c * length W) by nia.
  rewrite set_slice_zeros by lia. split.
  - rewrite <- (firstn_skipn a W) at 1. rewrite concat_app. rewrite (skipn_S_nth _ W a []) by auto. simpl concat.
    assert (R1 : rect c (firstn a W)).
    { apply Forall_forall. intros r Hr. eapply Forall_forall in HR; eauto. rewrite <- (firstn_skipn a W). apply in_or_app. auto. }
    assert (R2 : length (nth a W []) = c) by (eapply Forall_forall in HR; [eauto|apply nth_In; auto]).
    rewrite dot_app by (rewrite (rect_concat c), repeat_length by auto; rewrite firstn_length; f_equal; lia).
    rewrite dot_app by lia. rewrite !dot_zero. rewrite dot_comm. lra.
  - rewrite !app_length, !repeat_length. nia.
Qed.

(** Sums over distinct indexes as sums over the whole range. *)
Lemma rsum_filter : forall A (p : A -> bool) (f : A -> R) l, rsum (map f (filter p l)) = rsum (map (fun x => (if p x then 1 else 0) * f x)%R l).
Proof. induction l as [|x l IH]; simpl; auto. destruct (p x); simpl; rewrite IH; lra. Qed.
Lemma rsum_indexes : forall n idx (f : nat -> R), NoDup idx -> (forall k, In k idx -> k < n) ->
  rsum (map f idx) = rsum (map (fun k => (if in_dec Nat.eq_dec k idx then 1 else 0) * f k)%R (seq 0 n)).
Proof.
  intros n idx f ND HB. set (p := fun k => if in_dec Nat.eq_dec k idx then true else false).
  assert (P : Permutation idx (filter p (seq 0 n))).
  { apply NoDup_Permutation; auto; [apply NoDup_filter, seq_NoDup|]. intros k. rewrite filter_In, in_seq. unfold p.
    destruct (in_dec Nat.eq_dec k idx); split; intros; auto; try tauto; try (split; [specialize (HB _ i)|]; auto; lia).
    destruct H as [_ X]; discriminate. }
  rewrite (rsum_perm (map f idx) (map f (filter p (seq 0 n)))) by (apply Permutation_map; auto). rewrite rsum_filter.
  apply rsum_map_ext. intros k _. unfold p. destruct (in_dec _ _ _); auto.
Qed.

(** Facts about the features of a CMAC. *)
Definition tilings_ok {X} (ts : tilings X) : Prop := Forall (fun t => forall x i, snd t x = Some i -> i < fst t) ts.
Definition size {X} (ts : tilings X) : nat := fold_right plus 0 (map fst ts).
Lemma answers_ok : forall X (ts : tilings X) x, tilings_ok ts -> tf_ok (answers ts x) /\ tf_size (answers ts x) = size ts.
Proof.
  intros X ts x H. split.
  - unfold tf_ok, answers. induction H as [|t ts A B IH]; simpl; constructor; auto. simpl. destruct (snd t x) eqn:E; [apply (A x); auto|exact I].
  - unfold answers, size. induction ts as [|t ts IH]; [reflexivity|]. cbn [map]. rewrite tf_size_cons. simpl. inversion H; subst. rewrite IH; auto.
Qed.
Lemma phi_facts : forall X (ts : tilings X) x, tilings_ok ts ->
  length (cmac_phi ts x) = size ts /\ NoDup (cmac_indexes ts x) /\ (forall k, In k (cmac_indexes ts x) -> k < size ts) /\
  (forall k, k < size ts -> nth k (cmac_phi ts x) 0%R = if in_dec Nat.eq_dec k (cmac_indexes ts x) then 1%R else 0%R).
Proof.
  intros X ts x H. destruct (answers_ok X ts x H) as [A B]. destruct (tiles_features_indexes _ A) as (C & D & _ & E & F).
  rewrite B in *. auto.
Qed.
Lemma rsum_seq_nth : forall l, rsum l = rsum (map (fun k => nth k l 0%R) (seq 0 (length l))).
Proof. induction l as [|x l IH]; simpl; auto. rewrite <- seq_shift, map_map. rewrite <- IH. reflexivity. Qed.
Lemma phi_sum : forall X (ts : tilings X) x, tilings_ok ts -> rsum (cmac_phi ts x) = INR (length (cmac_indexes ts x)).
Proof.
  intros X ts x H. destruct (phi_facts X ts x H) as (A & B & C & D). rewrite rsum_seq_nth, A.
  rewrite (rsum_map_ext _ _ (fun k => (if in_dec Nat.eq_dec k (cmac_indexes ts x) then 1 else 0) * 1)%R).
  - rewrite <- (rsum_indexes (size ts) _ (fun _ => 1%R)) by auto. rewrite rsum_map_const. lra.
  - intros k Hk. apply in_seq in Hk. rewrite D by lia. lra.
Qed.
Lemma phi_dot : forall X (ts : tilings X) x w, tilings_ok ts -> length w = size ts ->
  dot (cmac_phi ts x) w = rsum (map (fun j => nth j w 0%R) (cmac_indexes ts x)).
Proof.
  intros X ts x w H L. destruct (phi_facts X ts x H) as (A & B & C & D). rewrite dot_nth by lia. rewrite A.
  rewrite (rsum_indexes (size ts) (cmac_indexes ts x)) by auto. apply rsum_map_ext. intros k Hk. apply in_seq in Hk. rewrite D by lia. reflexivity.
Qed.

(** Double sums. *)
Definition rs (n : nat) (f : nat -> R) : R := rsum (map f (seq 0 n)).
Lemma rs_ext : forall n f g, (forall i, i < n -> f i = g i) -> rs n f = rs n g.
Proof. intros. unfold rs. apply rsum_map_ext. intros i Hi. apply in_seq in Hi. apply H. lia. Qed.
Lemma rs_S : forall n f, rs (S n) f = (rs n f + f n)%R.
Proof. intros. unfold rs. rewrite seq_S, map_app, rsum_app. simpl. lra. Qed.
Lemma rs_plus : forall n f g, rs n (fun i => f i + g i)%R = (rs n f + rs n g)%R.
Proof. intros. unfold rs. apply rsum_map_plus. Qed.
Lemma rs_scal : forall n c f, rs n (fun i => c * f i)%R = (c * rs n f)%R.
Proof. intros. unfold rs. apply rsum_map_scal. Qed.
Lemma rs_0 : forall n, rs n (fun _ => 0%R) = 0%R.
Proof. induction n; [reflexivity|]. rewrite rs_S, IHn. lra. Qed.
Lemma rs_swap : forall n m f, rs n (fun i => rs m (fun j => f i j)) = rs m (fun j => rs n (fun i => f i j)).
Proof.
  induction n; intros m f.
  - unfold rs at 1. simpl. rewrite <- (rs_0 m). apply rs_ext. intros. reflexivity.
  - rewrite rs_S, IHn, <- rs_plus. apply rs_ext. intros j Hj. rewrite rs_S. reflexivity.
Qed.
Lemma rs_nonneg : forall n f, (forall i, i < n -> (0 <= f i)%R) -> (0 <= rs n f)%R.
Proof. induction n; intros f H; [unfold rs; simpl; lra|]. rewrite rs_S. assert (0 <= rs n f)%R by (apply IHn; intros; apply H; lia). specialize (H n ltac:(lia)). lra. Qed.

(** Scattered writes. *)
Lemma scatter_length : forall ks v q, length (scatter q ks v) = length q.
Proof. induction ks as [|k ks IH]; intros [|x v] q; simpl; auto. unfold scatter in *. simpl. rewrite IH, setnth_length. reflexivity. Qed.
Lemma scatter_notin : forall ks v q k, ~ In k ks -> nth k (scatter q ks v) 0%R = nth k q 0%R.
Proof.
  induction ks as [|j ks IH]; intros [|x v] q k H; simpl; auto. unfold scatter in *. simpl. rewrite IH by (simpl in H; tauto).
  apply nth_setnth_neq. intros ->. apply H. simpl; auto.
Qed.
Lemma scatter_in : forall ks (g : nat -> R) q k, NoDup ks -> In k ks -> k < length q -> nth k (scatter q ks (map g ks)) 0%R = g k.
Proof.
  induction ks as [|j ks IH]; intros g q k ND HI HL; [inversion HI|]. inversion ND as [|? ? N1 N2]; subst. simpl in HI.
  unfold scatter. simpl. fold (scatter (setnth q j (g j)) ks (map g ks)). destruct HI as [->|HI].
  - rewrite scatter_notin by auto. apply nth_setnth_eq. auto.
  - apply IH; auto. rewrite setnth_length. auto.
Qed.
Lemma idxs_spec : forall actions i k, In k (idxs_of actions i) <-> k < length actions /\ nth k actions 0 = i.
Proof. intros. unfold idxs_of. rewrite filter_In, in_seq, Nat.eqb_eq. intuition lia. Qed.
Lemma idxs_NoDup : forall actions i, NoDup (idxs_of actions i).
Proof. intros. apply NoDup_filter, seq_NoDup. Qed.

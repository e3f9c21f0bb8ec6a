(** Lemmas about parameters. *)
From Coq Require Import List Arith Lia Reals Bool Lra Psatz.
From Verif Require Import Common ParamModel ParamSpec.
Import ListNotations.

Lemma upd_nth : forall A (l : list A) i x, i < length l -> exists l', upd l i x = Some l' /\ length l' = length l /\
  forall j, nth_error l' j = if j =? i then Some x else nth_error l j.
Proof.
  induction l as [|a l IH]; intros i x H; [simpl in H; lia|]. destruct i as [|i]; cbn [upd].
  - eexists. split; [reflexivity|]. split; auto. intros [|j]; reflexivity.
  - simpl in H. destruct (IH i x ltac:(lia)) as (l' & A1 & A2 & A3). rewrite A1.
    eexists. split; [reflexivity|]. split; [simpl; lia|]. intros [|j]; simpl; auto.
Qed.

Definition valid (size i : nat) : Prop := size = 1 \/ i < size.

(** Unclipped value after [k] visits. *)
Definition raw (p : param) (k : nat) : R :=
  match p_kind p with
  | KConst => p_v0 p
  | KLinear c => (c * INR k + p_v0 p)%R
  | KDecay e => (p_v0 p / Rpower (INR (Nat.max k 1)) e)%R
  end.

Definition cnt0 (p : param) (i : nat) : nat := nth (tbl_pos (length (p_n p)) i) (p_n p) 0.

Lemma pos_lt : forall len i, 1 <= len -> valid len i -> tbl_pos len i < len.
Proof. intros len i H V. unfold tbl_pos. destruct (len =? 1) eqn:E; [lia|]. apply Nat.eqb_neq in E. destruct V; lia. Qed.

Lemma call_spec : forall p i, 1 <= length (p_n p) -> valid (length (p_n p)) i ->
  exists q, p_call p i = Some (np_clip (p_min p) (p_max p) (raw p (cnt0 p i + 1)), q) /\
    p_v0 q = p_v0 p /\ p_min q = p_min p /\ p_max q = p_max p /\ p_kind q = p_kind p /\
    length (p_n q) = length (p_n p) /\
    forall j, valid (length (p_n p)) j -> cnt0 q j = if tbl_pos (length (p_n p)) j =? tbl_pos (length (p_n p)) i then cnt0 p i + 1 else cnt0 p j.
Proof.
  intros p i HL V. pose proof (pos_lt _ _ HL V) as PL.
  assert (G : tbl_get (p_n p) i = Some (cnt0 p i)).
  { unfold tbl_get, cnt0. apply nth_error_nth'. auto. }
  destruct (upd_nth _ (p_n p) _ (cnt0 p i + 1) PL) as (l' & A1 & A2 & A3).
  unfold p_call, p_update. rewrite G. cbn [obind]. unfold tbl_set. rewrite A1. cbn [obind].
  exists (mkP (p_v0 p) (p_min p) (p_max p) l' (p_kind p)).
  assert (G' : tbl_get l' i = Some (cnt0 p i + 1)).
  { unfold tbl_get. rewrite A2, A3, Nat.eqb_refl. reflexivity. }
  split.
  - unfold p_get, p_compute, raw. simpl. destruct (p_kind p); rewrite ?G'; reflexivity.
  - simpl. repeat split; auto. intros j Vj. unfold cnt0 at 1. simpl. rewrite A2.
    pose proof (pos_lt _ _ HL Vj) as PJ.
    specialize (A3 (tbl_pos (length (p_n p)) j)).
    rewrite (nth_error_nth' _ l' _ 0) in A3 by lia.
    destruct (tbl_pos (length (p_n p)) j =? tbl_pos (length (p_n p)) i); [congruence|].
    unfold cnt0. rewrite (nth_error_nth' _ (p_n p) _ 0) in A3 by lia. congruence.
Qed.

Lemma calls_spec : forall l p, 1 <= length (p_n p) -> Forall (valid (length (p_n p))) l ->
  exists outs q, p_calls p l = Some (outs, q) /\ length outs = length l /\
    length (p_n q) = length (p_n p) /\
    (forall i, valid (length (p_n p)) i -> cnt0 q i = cnt0 p i + visits (length (p_n p)) i l) /\
    forall j i, nth_error l j = Some i ->
      nth_error outs j = Some (np_clip (p_min p) (p_max p) (raw p (cnt0 p i + visits (length (p_n p)) i (firstn (S j) l)))).
Proof.
  induction l as [|i0 l IH]; intros p HL F.
  - exists [], p. simpl. repeat split; auto.
    + intros i _. unfold visits. simpl. destruct (_ =? 1); lia.
    + intros [|j] i H; discriminate.
  - inversion F; subst. destruct (call_spec p i0 HL H1) as (q & A & B1 & B2 & B3 & B4 & B5 & B6).
    destruct (IH q) as (outs & q' & C1 & C2 & C3 & C4 & C5); [lia|rewrite B5; auto|].
    rewrite B5, B2, B3 in *.
    exists (np_clip (p_min p) (p_max p) (raw p (cnt0 p i0 + 1)) :: outs), q'.
    cbn [p_calls]. rewrite A. cbn [obind fst snd]. rewrite C1. cbn [obind fst snd].
    split; auto. split; [simpl; lia|]. split; auto.
    assert (V1 : forall i r, valid (length (p_n p)) i -> cnt0 q i + visits (length (p_n p)) i r = cnt0 p i + visits (length (p_n p)) i (i0 :: r)).
    { intros i r Vi. rewrite B6 by auto. unfold visits. unfold tbl_pos, cnt0, tbl_pos.
      destruct (length (p_n p) =? 1) eqn:E.
      - rewrite Nat.eqb_refl. simpl. lia.
      - cbn [count_occ]. destruct (Nat.eq_dec i0 i) as [->|NE].
        + rewrite Nat.eqb_refl. lia.
        + rewrite (proj2 (Nat.eqb_neq i i0)) by auto. lia. }
    split.
    + intros i Vi. rewrite C4 by auto. apply V1; auto.
    + intros [|j] i H.
      * inversion H; subst. cbn [nth_error firstn]. do 3 f_equal. rewrite <- V1 by auto.
        rewrite B6, Nat.eqb_refl by auto. unfold visits. destruct (_ =? 1); simpl; lia.
      * cbn [nth_error firstn]. cbn [nth_error] in H.
        assert (Vi : valid (length (p_n p)) i).
        { rewrite Forall_forall in H2. apply H2. eapply nth_error_In; eauto. }
        rewrite (C5 j i H). do 2 f_equal. rewrite (V1 i (firstn (S j) l) Vi).
        unfold raw. rewrite B1, B4. reflexivity.
Qed.

Lemma cnt0_init : forall size i v0 mn mx k, cnt0 (mkP v0 mn mx (repeat 0 size) k) i = 0.
Proof.
  intros. unfold cnt0. simpl. rewrite repeat_length. generalize (tbl_pos size i).
  induction size; intros [|n]; simpl; auto.
Qed.

(** The clipped linear value is the line. *)
Lemma clip_line : forall v0 th n k, 1 <= n ->
  forall p, linear_init v0 th n 1 = Some p ->
  np_clip (p_min p) (p_max p) (raw p k) = line v0 th n k.
Proof.
  intros v0 th n k Hn p H. unfold linear_init in H. destruct (n =? 0) eqn:E; [apply Nat.eqb_eq in E; lia|].
  assert (N0 : (0 < INR n)%R) by (apply lt_0_INR; lia).
  assert (K0 : (0 <= INR k)%R) by apply pos_INR.
  set (c := ((th - v0) / INR n)%R) in *.
  assert (EC : (th - v0 = c * INR n)%R) by (unfold c; field; lra).
  assert (T : (th = v0 + c * INR n)%R) by lra.
  unfold line. 
  assert (LK : forall P : Prop, ((n <= k)%nat -> (INR n <= INR k)%R -> P) -> ((k < n)%nat -> (INR k < INR n)%R -> P) -> P).
  { intros P P1 P2. destruct (le_lt_dec n k); [apply P1; auto; apply le_INR; auto|apply P2; auto; apply lt_INR; auto]. }
  destruct (Rle_dec 0 c) as [C|C]; inversion H; subst p; cbn [p_min p_max np_clip]; unfold np_clip, raw; cbn [p_kind p_v0].
  - apply LK; intros H1 H2.
    + rewrite (proj2 (Nat.leb_le _ _)) by auto. apply Rmin_right. rewrite T. nra.
    + rewrite (proj2 (Nat.leb_gt _ _)) by auto. rewrite Rmin_left; [rewrite EC; field; lra|]. rewrite T. nra.
  - apply Rnot_le_lt in C. apply LK; intros H1 H2.
    + rewrite (proj2 (Nat.leb_le _ _)) by auto. apply Rmax_right. rewrite T. nra.
    + rewrite (proj2 (Nat.leb_gt _ _)) by auto. rewrite Rmax_left; [rewrite EC; field; lra|]. rewrite T. nra.
Qed.

Lemma linear_init_size : forall v0 th n size, 1 <= n -> exists p,
  linear_init v0 th n size = Some p /\ p_n p = repeat 0 size /\
  exists p1, linear_init v0 th n 1 = Some p1 /\ p_min p1 = p_min p /\ p_max p1 = p_max p /\ (forall k, raw p1 k = raw p k).
Proof.
  intros v0 th n size Hn. unfold linear_init. destruct (n =? 0) eqn:E; [apply Nat.eqb_eq in E; lia|].
  eexists. split; [reflexivity|]. destruct (Rle_dec 0 ((th - v0) / INR n)); split; auto; eexists; split; auto.
Qed.

(** ** variance *)
Lemma mean_snoc : forall l x, (mean (l ++ [x]) = (if length l =? 0 then x else mean l + (x - mean l) / INR (length l + 1)))%R.
Proof.
  intros l x. unfold mean. rewrite rsum_app, app_length. cbn [rsum length]. destruct (length l =? 0) eqn:E.
  - apply Nat.eqb_eq in E. destruct l; [|discriminate]. simpl. field.
  - apply Nat.eqb_neq in E. rewrite plus_INR. simpl (INR 1).
    assert (0 < INR (length l))%R by (apply lt_0_INR; lia). field. lra.
Qed.

Lemma svar_alt : forall l, 2 <= length l -> svar l =
  (INR (length l) * (mean (map (fun x => x * x) l) - mean l * mean l) / (INR (length l) - 1))%R.
Proof.
  intros l H. unfold svar. assert (N : (2 <= INR (length l))%R) by (apply (le_INR 2) in H; simpl in H; lra).
  f_equal. rewrite (rsum_map_ext _ _ (fun x => x * x + -2 * mean l * x + mean l * mean l)%R); [|intros; ring].
  assert (Q : forall (m : R) r, rsum (map (fun x => x * x + -2 * m * x + m * m)%R r) =
     (rsum (map (fun x => x * x) r) + (-2 * m) * rsum r + INR (length r) * (m * m))%R).
  { intros m. induction r as [|y r IH]; [simpl; ring|]. cbn [map rsum length]. rewrite IH, S_INR. ring. }
  rewrite Q. unfold mean. rewrite map_length.
  field. lra.
Qed.

Lemma svar_nonneg : forall l, 2 <= length l -> (0 <= svar l)%R.
Proof.
  intros l H. unfold svar. apply (le_INR 2) in H. simpl in H.
  apply Rmult_le_pos; [|left; apply Rinv_0_lt_compat; lra]. apply rsum_nonneg.
  intros y Hy. apply in_map_iff in Hy. destruct Hy as (z & <- & _). apply Rle_0_sqr.
Qed.

Lemma vp_updates_snoc : forall f l p x a, vp_updates f p (l ++ [(x, a)]) = vp_update f (vp_updates f p l) x a.
Proof. induction l as [|[y b] l IH]; intros; simpl; auto. Qed.

(** State after a history of (target, factor) pairs. *)
Lemma vp_inv : forall f v0 mn tol size l,
  let p := vp_updates f (vp_init v0 mn tol size) l in
  vp_n p = length l /\ vp_v0 p = v0 /\ vp_min p = mn /\ vp_max p = Some (INR size) /\
  (l <> [] -> vp_x p = mean (map fst l) /\ vp_x2 p = mean (map (fun y => fst y * fst y)%R l)) /\ (0 <= vp_w p)%R.
Proof.
  intros f v0 mn tol size l. induction l as [|[x a] l IH] using rev_ind.
  - simpl. repeat split; auto; try congruence. lra.
  - rewrite vp_updates_snoc. set (p := vp_updates f (vp_init v0 mn tol size) l) in *.
    destruct IH as (A & B & C & D & E & F). cbn [vp_update vp_n vp_v0 vp_min vp_max vp_x vp_x2 vp_w].
    rewrite app_length. cbn [length]. repeat split; auto; try lia.
    + rewrite map_app. cbn [map fst]. rewrite mean_snoc, map_length, A. destruct (length l =? 0) eqn:Q.
      * apply Nat.eqb_eq in Q. destruct l; [|discriminate]. simpl. field.
      * apply Nat.eqb_neq in Q. destruct (E ltac:(destruct l; simpl in *; congruence)) as [-> _]. reflexivity.
    + rewrite map_app. cbn [map fst]. rewrite mean_snoc, map_length, A. destruct (length l =? 0) eqn:Q.
      * apply Nat.eqb_eq in Q. destruct l; [|discriminate]. simpl. field.
      * apply Nat.eqb_neq in Q. destruct (E ltac:(destruct l; simpl in *; congruence)) as [_ ->]. reflexivity.
    + match goal with |- (0 <= (1 - ?u) * (1 - ?u) * ?w + ?u * ?u)%R =>
        pose proof (Rle_0_sqr (1 - u)) as S1; pose proof (Rle_0_sqr u) as S2;
        pose proof (Rmult_le_pos _ _ S1 F) as S3; unfold Rsqr in *; lra end.
Qed.

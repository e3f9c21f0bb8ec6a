(** Lemmas for the dataset theorems. *)
From Coq Require Import List Arith ZArith Lia Reals Bool Lra.
From Verif Require Import Common EpisodeSpec DatasetModel DatasetSpec.
Import ListNotations.

Lemma disc_nil : forall g, disc g [] = 0%R.
Proof. reflexivity. Qed.

Lemma disc_cons : forall g r rs, disc g (r :: rs) = (r + g * disc g rs)%R.
Proof.
  intros. unfold disc. simpl length. simpl seq. rewrite <- seq_shift, map_cons, map_map.
  cbn [rsum]. f_equal; [simpl; lra|].
  rewrite <- rsum_map_scal. apply rsum_map_ext. intros k _. simpl. lra.
Qed.

Section P.
Context {St Ac Ps : Type}.
Notation row := (row St Ac).
Implicit Types l : list row.

Lemma episodes_cons_last : forall (x : row) t, r_last x = true -> episodes (x :: t) = [x] :: episodes t.
Proof.
  intros. unfold episodes, complete, unfinished. simpl.
  destruct (split_episodes r_last t); simpl. rewrite H. reflexivity.
Qed.

Lemma episodes_cons_notlast : forall (x : row) t, r_last x = false ->
  episodes (x :: t) = match episodes t with [] => [[x]] | e :: es => (x :: e) :: es end.
Proof.
  intros. unfold episodes, complete, unfinished. simpl.
  destruct (split_episodes r_last t) as [c u]; simpl. rewrite H. destruct c; simpl; auto.
  destruct u; reflexivity.
Qed.

Lemma episodes_nil : episodes ([] : list row) = [].
Proof. reflexivity. Qed.

Lemma episodes_ne : forall l, l <> [] -> episodes l <> [].
Proof.
  destruct l as [|x t]; [congruence|]. intros _. destruct (r_last x) eqn:E.
  - rewrite episodes_cons_last by auto. congruence.
  - rewrite episodes_cons_notlast by auto. destruct (episodes t); congruence.
Qed.

Lemma episodes_concat : forall l, concat (episodes l) = l.
Proof.
  intros. unfold episodes. rewrite concat_app. transitivity (concat (complete r_last l) ++ unfinished r_last l).
  - f_equal. destruct (unfinished r_last l); simpl; auto. rewrite app_nil_r; auto.
  - apply split_concat.
Qed.

Lemma J_loop_episodes : forall g l j k, l <> [] ->
  J_loop g l j k = match episodes l with
                   | [] => [] | e :: es => (j + g ^ k * ret g e)%R :: map (ret g) es end.
Proof.
  intros g. induction l as [|x t IH]; intros j k H; [congruence|]. cbn [J_loop].
  destruct (r_last x) eqn:E.
  - rewrite episodes_cons_last by auto. simpl orb. cbn iota. f_equal.
    + unfold ret. simpl map. rewrite disc_cons, disc_nil. ring.
    + destruct t as [|y t']; [reflexivity|]. rewrite IH by congruence.
      destruct (episodes (y :: t')); auto. simpl. f_equal. ring.
  - rewrite episodes_cons_notlast by auto. simpl orb. destruct t as [|y t'].
    + rewrite episodes_nil. simpl. f_equal. unfold ret. simpl map. rewrite disc_cons, disc_nil. ring.
    + rewrite IH by congruence. pose proof (episodes_ne (y :: t') ltac:(congruence)).
      destruct (episodes (y :: t')); [congruence|]. f_equal. unfold ret. simpl map. rewrite disc_cons.
      rewrite Nat.add_1_r. simpl pow. ring.
Qed.

Lemma compute_J_episodes : forall g l,
  compute_J g l = match l with [] => [0%R] | _ => map (ret g) (episodes l) end.
Proof.
  intros. unfold compute_J. destruct l as [|x t]; [reflexivity|].
  rewrite J_loop_episodes by congruence. pose proof (episodes_ne (x :: t) ltac:(congruence)).
  destruct (episodes (x :: t)); [congruence|]. simpl. f_equal. ring.
Qed.

Lemma ep_len_gen : forall l n,
  ep_len_loop l n = match complete r_last l with
                    | [] => [] | e :: es => (n + length e) :: map (@length row) es end.
Proof.
  induction l as [|x t IH]; intros n; [reflexivity|]. cbn [ep_len_loop]. rewrite !IH.
  unfold complete. simpl. destruct (split_episodes r_last t) as [c u]; simpl.
  destruct (r_last x); simpl; auto.
  - destruct c; simpl; auto.
  - destruct c; simpl; auto. f_equal. lia.
Qed.

Lemma init_gen : forall l b,
  map Some (init_loop l b) =
  map (fun e => option_map r_state (hd_error e)) (if b then episodes l else tl (episodes l)).
Proof.
  induction l as [|x t IH]; intros b; [destruct b; reflexivity|].
  cbn [init_loop]. destruct (r_last x) eqn:E.
  - rewrite episodes_cons_last by auto. destruct b; simpl; rewrite IH; reflexivity.
  - rewrite episodes_cons_notlast by auto. destruct b; simpl; rewrite IH; destruct (episodes t); reflexivity.
Qed.

Lemma argwhere_gen : forall l i n,
  nth_error (argwhere_last l i) n =
  if n <? length (complete r_last l)
  then Some (i + length (concat (firstn (S n) (complete r_last l))) - 1) else None.
Proof.
  induction l as [|x t IH]; intros i n; [destruct n; reflexivity|].
  cbn [argwhere_last]. unfold complete in *. cbn [split_episodes].
  pose proof (split_complete r_last t) as HE. unfold complete in HE.
  destruct (split_episodes r_last t) as [c u]; cbn [fst] in *.
  destruct (r_last x) eqn:E; cbn [fst].
  - destruct n; cbn [nth_error]; [simpl; f_equal; lia|]. rewrite IH.
    cbn [length]. replace (S n <? S (length c)) with (n <? length c) by reflexivity.
    destruct (n <? length c); auto. f_equal. cbn [firstn concat]. rewrite app_length. simpl length.
    assert (1 <= length (concat (firstn (S n) c)) \/ c = []).
    { destruct c as [|e c']; auto. left. cbn [firstn concat]. inversion HE; subst.
      destruct H1 as (b & y & -> & _). rewrite !app_length. simpl. lia. }
    destruct H; [cbn [firstn concat] in *; lia|subst; simpl; lia].
  - rewrite IH. destruct c as [|e c']; [destruct n; reflexivity|]. cbn [fst length].
    destruct (n <? S (length c')); auto. f_equal.
    cbn [firstn concat app]. rewrite !app_length. simpl length.
    inversion HE; subst. destruct H1 as (b & y & -> & _). rewrite !app_length. simpl. lia.
Qed.

Lemma slice_0 : forall A (l : list A) b, slice 0 b l = firstn b l.
Proof. intros. unfold slice. simpl. rewrite Nat.sub_0_r. reflexivity. Qed.

Lemma pyslice_prefix : forall A (l : list A) n, pyslice l None (Some (Z.of_nat n)) = firstn n l.
Proof.
  intros. unfold pyslice, pybound. rewrite (proj2 (Z.leb_le _ _)) by lia. rewrite Nat2Z.id, slice_0.
  destruct (Nat.le_ge_cases n (length l)).
  - rewrite Nat.min_l by lia; auto.
  - rewrite Nat.min_r by lia. rewrite !firstn_all2 by lia. reflexivity.
Qed.

Lemma firstn_concat_prefix : forall l n,
  firstn (length (concat (firstn n (complete r_last l)))) l = concat (firstn n (complete r_last l)).
Proof.
  intros. rewrite <- (split_concat r_last l) at 2.
  rewrite <- (firstn_skipn n (complete r_last l)) at 2. rewrite concat_app, <- app_assoc.
  rewrite firstn_app, firstn_all, Nat.sub_diag. simpl. apply app_nil_r.
Qed.

Lemma select_first_spec : forall l n, 0 < n ->
  select_first_episodes l n =
  if n <=? length (complete r_last l) then Some (concat (firstn n (complete r_last l))) else None.
Proof.
  intros. unfold select_first_episodes. rewrite (proj2 (Nat.ltb_lt _ _)) by lia.
  rewrite argwhere_gen. replace (S (n - 1)) with n by lia.
  destruct (n <=? length (complete r_last l)) eqn:E.
  - apply Nat.leb_le in E. rewrite (proj2 (Nat.ltb_lt _ _)) by lia. unfold obind. f_equal.
    rewrite pyslice_prefix.
    assert (1 <= length (concat (firstn n (complete r_last l)))).
    { pose proof (split_complete r_last l) as HE. destruct (complete r_last l) as [|e c]; [simpl in E; lia|].
      destruct n; [lia|]. cbn [firstn concat]. inversion HE; subst.
      destruct H2 as (b & y & -> & _). rewrite !app_length. simpl. lia. }
    replace (0 + length (concat (firstn n (complete r_last l))) - 1 + 1)
      with (length (concat (firstn n (complete r_last l)))) by lia.
    apply firstn_concat_prefix.
  - apply Nat.leb_gt in E. rewrite (proj2 (Nat.ltb_ge _ _)) by lia. reflexivity.
Qed.

Lemma unfinished_snoc_cases : forall l (x : row),
  unfinished r_last (l ++ [x]) = [] <-> r_last x = true.
Proof.
  intros. destruct (r_last x) eqn:E.
  - destruct (split_snoc_last r_last l x E) as [_ ->]. tauto.
  - destruct (split_snoc_notlast r_last l x E) as [_ ->]. split; [|congruence].
    destruct (unfinished r_last l); discriminate.
Qed.

Lemma pyindex_last : forall n, pyindex (S n) (-1) = Some n.
Proof.
  intros. unfold pyindex. change (0 <=? -1)%Z with false. cbn iota.
  rewrite (proj2 (Z.leb_le _ _)) by lia. f_equal. lia.
Qed.

Lemma n_episodes_spec : forall l, n_episodes l = match l with [] => None | _ => Some (length (episodes l)) end.
Proof.
  intros l. destruct l as [|a t] using rev_ind; [reflexivity|]. clear IHt.
  unfold n_episodes. rewrite app_length. simpl length. rewrite Nat.add_1_r, pyindex_last.
  unfold obind. rewrite nth_error_app2, Nat.sub_diag by lia. cbn [nth_error].
  replace (match t ++ [a] with [] => None | _ :: _ => Some (length (episodes (t ++ [a]))) end)
    with (Some (length (episodes (t ++ [a])))) by (destruct t; reflexivity).
  f_equal. unfold episodes. rewrite app_length, count_complete. unfold count_last.
  destruct (r_last a) eqn:E.
  - rewrite (proj2 (unfinished_snoc_cases t a) E). simpl. rewrite Nat.add_0_r. reflexivity.
  - destruct (unfinished r_last (t ++ [a])) eqn:U; [|simpl; reflexivity].
    apply unfinished_snoc_cases in U. congruence.
Qed.

Lemma cut_spec : forall l n, n <= length l ->
  cut l n = length (concat (complete r_last (firstn n l))).
Proof.
  intros l. induction n as [|k IH]; intros H; [reflexivity|]. cbn [cut].
  destruct (nth_error l k) as [x|] eqn:E; [|apply nth_error_None in E; lia].
  assert (F : firstn (S k) l = firstn k l ++ [x]).
  { clear -E. revert k E. induction l as [|y t IHl]; intros [|k] E; simpl in *; try discriminate.
    - inversion E; reflexivity.
    - f_equal. apply IHl; auto. }
  rewrite F. destruct (r_last x) eqn:L.
  - destruct (split_snoc_last r_last (firstn k l) x L) as [E1 E2].
    pose proof (split_concat r_last (firstn k l ++ [x])) as SC. rewrite E2, app_nil_r in SC. rewrite SC.
    rewrite app_length, firstn_length. simpl. lia.
  - destruct (split_snoc_notlast r_last (firstn k l) x L) as [-> _].
    destruct k; [reflexivity|]. apply IH. lia.
Qed.

Lemma complete_firstn_cut : forall l,
  firstn (cut l (length l)) l = concat (complete r_last l).
Proof.
  intros. rewrite cut_spec, firstn_all by lia.
  rewrite <- (split_concat r_last l) at 2. rewrite firstn_app, firstn_all, Nat.sub_diag. simpl. apply app_nil_r.
Qed.

Lemma complete_of_complete : forall l,
  episodes (concat (complete r_last l)) = complete r_last l.
Proof.
  intros. pose proof (split_complete r_last l) as H. revert H. generalize (complete r_last l) as c.
  induction c as [|e c IH]; intros H; [reflexivity|]. inversion H; subst. cbn [concat].
  destruct H2 as (b & y & -> & Ly & Hb). rewrite <- app_assoc. simpl ([y] ++ _).
  specialize (IH H3). revert Hb. induction b as [|z b IHb]; intros Hb.
  - simpl app. rewrite episodes_cons_last by auto. rewrite IH. reflexivity.
  - inversion Hb; subst. simpl app. rewrite episodes_cons_notlast by auto.
    rewrite IHb; auto.
    constructor; auto. exists b, y. auto.
Qed.

Lemma fold_min_spec : forall t x, is_min (fold_left Rmin t x) (x :: t).
Proof.
  induction t as [|y t IH]; intros x; simpl.
  - split; [simpl; auto|]. intros z [->|[]]. lra.
  - destruct (IH (Rmin x y)) as [I L]. split.
    + destruct I as [I|I]; [|right; right; exact I].
      rewrite <- I. unfold Rmin. destruct (Rle_dec x y); simpl; auto.
    + intros z [->|[->|Hz]].
      * eapply Rle_trans; [apply L; left; reflexivity|apply Rmin_l].
      * eapply Rle_trans; [apply L; left; reflexivity|apply Rmin_r].
      * apply L. right; auto.
Qed.

Lemma fold_max_spec : forall t x, is_max (fold_left Rmax t x) (x :: t).
Proof.
  induction t as [|y t IH]; intros x; simpl.
  - split; [simpl; auto|]. intros z [->|[]]. lra.
  - destruct (IH (Rmax x y)) as [I L]. split.
    + destruct I as [I|I]; [|right; right; exact I].
      rewrite <- I. unfold Rmax. destruct (Rle_dec x y); simpl; auto.
    + intros z [->|[->|Hz]].
      * eapply Rle_trans; [apply Rmax_l|apply L; left; reflexivity].
      * eapply Rle_trans; [apply Rmax_r|apply L; left; reflexivity].
      * apply L. right; auto.
Qed.

Lemma Rmin_list_spec : forall l : list R, l <> [] -> is_min (Rmin_list l) l.
Proof. destruct l; [congruence|]. intros _. apply fold_min_spec. Qed.
Lemma Rmax_list_spec : forall l : list R, l <> [] -> is_max (Rmax_list l) l.
Proof. destruct l; [congruence|]. intros _. apply fold_max_spec. Qed.

(** ** containers *)
Notation nds := (nds St Ac Ps).

Notation wf := (@valid St Ac Ps).

Lemma wf_rows_length : forall d, wf d -> length (rows d) = nd_len d.
Proof. intros d [H _]. unfold rows. rewrite firstn_length. lia. Qed.

Lemma upd_None : forall A (l : list A) i x, length l <= i -> upd l i x = None.
Proof.
  induction l; destruct i; simpl; intros; try lia; auto. rewrite IHl by lia. reflexivity.
Qed.

Lemma firstn_setnth : forall A (l : list A) i x, i < length l ->
  firstn (i + 1) (setnth l i x) = firstn i l ++ [x].
Proof.
  induction l; destruct i; simpl; intros; try lia; auto. f_equal. apply IHl. lia.
Qed.

Lemma setnth_len : forall A (l : list A) i x, length (setnth l i x) = length l.
Proof. induction l; destruct i; simpl; auto. Qed.

Lemma append_full : forall d x p, wf d -> nd_len d = length (nd_buf d) -> nd_append d x p = None.
Proof. intros. unfold nd_append. rewrite upd_None by lia. reflexivity. Qed.

Lemma append_ok : forall d x p, wf d -> nd_len d < length (nd_buf d) ->
  (p = None <-> nd_pol d = None) ->
  exists d', nd_append d x p = Some d' /\ wf d' /\ rows d' = rows d ++ [x] /\
    length (nd_buf d') = length (nd_buf d) /\
    pols d' = match pols d, p with Some l, Some s => Some (l ++ [s]) | o, _ => o end.
Proof.
  intros d x p [H1 H2] L HP. unfold nd_append, valid, rows, pols in *. rewrite upd_Some by lia. unfold obind.
  destruct (nd_pol d) as [l|] eqn:EP; destruct p as [s|]; try (exfalso; destruct HP; intuition congruence).
  - rewrite upd_Some by lia. eexists. split; [reflexivity|]. simpl.
    rewrite !setnth_len, !firstn_setnth by lia. repeat split; auto; lia.
  - eexists. split; [reflexivity|]. simpl. rewrite !setnth_len, !firstn_setnth by lia. repeat split; auto; lia.
Qed.

Lemma clear_spec : forall d gb gp, wf d -> wf (nd_clear d gb gp) /\ rows (nd_clear d gb gp) = [] /\
  length (nd_buf (nd_clear d gb gp)) = length (nd_buf d).
Proof.
  intros d gb gp [H1 H2]. unfold nd_clear, valid, rows; simpl. rewrite map_length, seq_length.
  repeat split; auto; try lia. destruct (nd_pol d); simpl; auto. rewrite map_length, seq_length. auto.
Qed.

Lemma nth_error_firstn : forall A (l : list A) n i, i < n -> nth_error (firstn n l) i = nth_error l i.
Proof. induction l; destruct n, i; simpl; intros; try lia; auto. apply IHl; lia. Qed.

Lemma getitem_nonneg : forall d i, wf d -> (0 <= i)%Z -> nd_getitem d i = list_get (rows d) i.
Proof.
  intros d i W H. unfold nd_getitem, list_get. destruct W as [W _].
  replace (i <? 0)%Z with false by (symmetry; apply Z.ltb_ge; lia).
  destruct (i <? Z.of_nat (nd_len d))%Z eqn:E.
  - apply Z.ltb_lt in E. unfold pyindex. rewrite (proj2 (Z.leb_le _ _)) by lia.
    rewrite (proj2 (Z.ltb_lt _ _)) by lia. unfold obind, rows. rewrite nth_error_firstn by lia. reflexivity.
  - apply Z.ltb_ge in E. symmetry. apply nth_error_None. unfold rows. rewrite firstn_length. lia.
Qed.

Lemma getitem_full : forall d i, wf d -> nd_len d = length (nd_buf d) -> nd_getitem d i = list_get (rows d) i.
Proof.
  intros d i W F. destruct (Z.le_gt_cases 0 i); [apply getitem_nonneg; auto|].
  unfold nd_getitem, list_get. rewrite (proj2 (Z.ltb_lt i _)) by lia. rewrite (proj2 (Z.ltb_lt i 0)) by lia.
  unfold rows. rewrite F, firstn_all. unfold pyindex.
  replace (0 <=? i)%Z with false by (symmetry; apply Z.leb_gt; lia).
  replace (Z.of_nat (length (nd_buf d)) + i)%Z with (i + Z.of_nat (length (nd_buf d)))%Z by lia.
  destruct (0 <=? i + Z.of_nat (length (nd_buf d)))%Z; reflexivity.
Qed.

Lemma getitem_neg : forall d i, wf d -> (i < 0)%Z ->
  nd_getitem d i = list_get (nd_buf d) i.
Proof.
  intros d i W F. unfold nd_getitem, list_get. rewrite (proj2 (Z.ltb_lt i _)) by lia.
  rewrite (proj2 (Z.ltb_lt i 0)) by lia. unfold pyindex.
  replace (0 <=? i)%Z with false by (symmetry; apply Z.leb_gt; lia).
  replace (Z.of_nat (length (nd_buf d)) + i)%Z with (i + Z.of_nat (length (nd_buf d)))%Z by lia.
  destruct (0 <=? i + Z.of_nat (length (nd_buf d)))%Z; reflexivity.
Qed.

Lemma flag_end_snoc : forall l (x : row), flag_end (l ++ [x]) = l ++ [set_last x true].
Proof. intros. unfold flag_end. rewrite rev_app_distr. simpl. rewrite rev_involutive. reflexivity. Qed.

Lemma setnth_app_mid : forall A (a b : list A) x y, setnth (a ++ x :: b) (length a) y = a ++ y :: b.
Proof. induction a; simpl; intros; auto. f_equal. apply IHa. Qed.

Lemma force_last_nonempty : forall (a b : list row), a <> [] ->
  force_last (a ++ b) (length a) = Some (flag_end a ++ b).
Proof.
  intros a b H. destruct a as [|x a'] using rev_ind; [congruence|]. clear IHa' H.
  rewrite flag_end_snoc, app_length. simpl length. unfold force_last, pyindex.
  rewrite (proj2 (Z.leb_le _ _)) by lia. rewrite (proj2 (Z.ltb_lt _ _)).
  2:{ rewrite !app_length. simpl. lia. }
  unfold obind. replace (Z.to_nat (Z.of_nat (length a' + 1) - 1)) with (length a') by lia.
  rewrite <- app_assoc. rewrite nth_error_app2 by lia. rewrite Nat.sub_diag. simpl nth_error. cbn iota.
  rewrite upd_Some by (rewrite app_length; simpl; lia). simpl app. rewrite setnth_app_mid.
  rewrite <- app_assoc. reflexivity.
Qed.

Lemma force_last_empty : forall (b : list row), b <> [] ->
  force_last b 0 = Some (flag_end b).
Proof.
  intros b H. destruct b as [|x b'] using rev_ind; [congruence|]. clear IHb' H.
  rewrite flag_end_snoc. unfold force_last. rewrite app_length. simpl length. rewrite Nat.add_1_r.
  change (Z.of_nat 0 - 1)%Z with (-1)%Z. rewrite pyindex_last. unfold obind.
  rewrite nth_error_app2, Nat.sub_diag by lia. simpl nth_error. cbn iota.
  rewrite upd_Some by (rewrite app_length; simpl; lia). rewrite setnth_app_mid. reflexivity.
Qed.

Lemma flag_end_length : forall l, length (flag_end l) = length l.
Proof.
  intros l. destruct l as [|x l'] using rev_ind; [reflexivity|]. rewrite flag_end_snoc, !app_length. reflexivity.
Qed.

Lemma add_rows : forall d e, wf d -> wf e -> nd_len d <> 0 -> (nd_pol d = None <-> nd_pol e = None) ->
  exists r, nd_add d e = Some r /\ wf r /\ rows r = flag_end (rows d) ++ rows e /\
    length (nd_buf r) = nd_len d + nd_len e /\
    pols r = match pols d, pols e with Some p, Some q => Some (p ++ q) | _, _ => None end.
Proof.
  intros d e W1 W2 H HP. pose proof (wf_rows_length _ W1) as L1. pose proof (wf_rows_length _ W2) as L2.
  assert (FL : force_last (rows d ++ rows e) (nd_len d) = Some (flag_end (rows d) ++ rows e)).
  { rewrite <- L1. apply force_last_nonempty. intros E; rewrite E in L1; simpl in L1; lia. }
  unfold nd_add. rewrite FL. clear FL.
  unfold obind. unfold valid, rows, pols in *. destruct W1 as [A1 B1], W2 as [A2 B2].
  assert (LL : length (flag_end (firstn (nd_len d) (nd_buf d)) ++ firstn (nd_len e) (nd_buf e)) = nd_len d + nd_len e)
    by (rewrite app_length, flag_end_length; lia).
  destruct (nd_pol d) as [p|], (nd_pol e) as [q|]; try (exfalso; destruct HP; intuition congruence).
  - eexists. split; [reflexivity|]. cbn [nd_len nd_buf nd_pol option_map]. rewrite LL.
    assert (LP : length (firstn (nd_len d) p ++ firstn (nd_len e) q) = nd_len d + nd_len e)
      by (rewrite app_length, !firstn_length; lia).
    repeat split; auto. { rewrite LP; lia. } { rewrite firstn_all2; auto; lia. } { f_equal. rewrite firstn_all2; auto; lia. }
  - eexists. split; [reflexivity|]. cbn [nd_len nd_buf nd_pol option_map]. rewrite LL.
    repeat split; auto. rewrite firstn_all2; auto; lia.
Qed.


(** ** refinement of operation sequences *)
Notation acont := (acont St Ac Ps).
Notation dop := (dop St Ac Ps).

Definition Rel (d : nds) (s : acont) : Prop :=
  rows d = a_rows s /\ pols d = a_pols s /\ length (nd_buf d) = a_cap s /\ wf d.

Lemma pyslice_nn : forall A (l : list A) a b,
  pyslice l (Some (Z.of_nat a)) (Some (Z.of_nat b)) = firstn (b - a) (skipn a l).
Proof.
  intros. unfold pyslice, pybound. rewrite !(proj2 (Z.leb_le _ _)) by lia. rewrite !Nat2Z.id.
  unfold slice. destruct (Nat.le_gt_cases a (length l)).
  - rewrite (Nat.min_l a) by lia. destruct (Nat.le_gt_cases b (length l)).
    + rewrite (Nat.min_l b) by lia. reflexivity.
    + rewrite (Nat.min_r b) by lia. rewrite !firstn_all2; auto; rewrite skipn_length; lia.
  - rewrite (Nat.min_r a) by lia. rewrite !skipn_all2 by lia. rewrite !firstn_nil. reflexivity.
Qed.

Lemma pyslice_n : forall A (l : list A) a,
  pyslice l (Some (Z.of_nat a)) None = skipn a l.
Proof.
  intros. unfold pyslice, pybound. rewrite !(proj2 (Z.leb_le _ _)) by lia. rewrite !Nat2Z.id.
  unfold slice. destruct (Nat.le_gt_cases a (length l)).
  - rewrite (Nat.min_l a) by lia. rewrite firstn_all2; auto. rewrite skipn_length. lia.
  - rewrite (Nat.min_r a) by lia. rewrite !skipn_all2 by lia. rewrite !firstn_nil. reflexivity.
Qed.

Lemma pytake_nn : forall A (l : list A) idx, pytake l (map Z.of_nat idx) = list_take l idx.
Proof.
  induction idx as [|i t IH]; simpl; auto. unfold pyindex. rewrite (proj2 (Z.leb_le _ _)) by lia.
  destruct (Z.of_nat i <? Z.of_nat (length l))%Z eqn:E; unfold obind.
  - rewrite Nat2Z.id, IH. reflexivity.
  - apply Z.ltb_ge in E. rewrite (proj2 (nth_error_None l i)) by lia. reflexivity.
Qed.

Lemma list_take_prefix : forall A (l : list A) n idx r,
  list_take (firstn n l) idx = Some r -> list_take l idx = Some r.
Proof.
  induction idx as [|i t IH]; simpl; intros r H; auto.
  destruct (nth_error (firstn n l) i) eqn:E; [|discriminate].
  destruct (list_take (firstn n l) t) eqn:E2; [|discriminate].
  assert (i < n). { assert (nth_error (firstn n l) i <> None) by congruence.
    apply nth_error_Some in H0. rewrite firstn_length in H0. lia. }
  rewrite nth_error_firstn in E by auto. rewrite E, (IH _ eq_refl). auto.
Qed.

Lemma list_take_length : forall A (l : list A) idx r, list_take l idx = Some r -> length r = length idx.
Proof.
  induction idx as [|i t IH]; simpl; intros r H; [inversion H; auto|].
  destruct (nth_error l i); [|discriminate]. destruct (list_take l t) eqn:E; [|discriminate].
  inversion H; subst. simpl. f_equal. apply IH; auto.
Qed.

Lemma firstn_skipn_min : forall A (p : list A) a k n, a + k <= n -> 
  firstn k (skipn a p) = firstn k (skipn a (firstn n p)).
Proof.
  intros. rewrite skipn_firstn_comm, firstn_firstn. f_equal. lia.
Qed.

Lemma Rel_step : forall d s o s', Rel d s -> op_valid o -> spec_step s o = Some s' ->
  exists d', nd_step d o = Some d' /\ Rel d' s'.
Proof.
  intros d s o s' (R1 & R2 & R3 & W) V H. pose proof (wf_rows_length _ W) as L.
  destruct o as [x p|gb gp|a b|a|idx|e]; cbn [spec_step nd_step] in *.
  - destruct (length (a_rows s) <? a_cap s) eqn:E; [|discriminate]. apply Nat.ltb_lt in E.
    rewrite <- R1, L, <- R3 in E.
    assert (HP : p = None <-> nd_pol d = None).
    { unfold pols in R2. destruct (nd_pol d), p; simpl in R2; rewrite <- R2 in H; split; intros; try congruence; discriminate. }
    destruct (append_ok d x p W E HP) as (d' & A1 & A2 & A3 & A4 & A5).
    exists d'. split; auto. rewrite <- R2 in H. rewrite <- R1 in H.
    destruct (pols d) as [l|], p as [q|]; try discriminate; inversion H; subst; split; simpl; auto;
      repeat split; try apply A2; auto; lia.
  - inversion H; subst. eexists. split; [reflexivity|]. destruct (clear_spec d gb gp W) as (C1 & C2 & C3).
    split; [exact C2|]. split; [|split; [cbn [a_cap]; congruence|exact C1]]. simpl.
    rewrite <- R2. unfold pols, nd_clear; simpl. destruct (nd_pol d); simpl; auto.
  - inversion H; subst; clear H. unfold nd_view. cbn [apply_index]. unfold obind. rewrite pyslice_nn.
    destruct W as [W1 W2]. unfold pols in R2. destruct (nd_pol d) as [p|] eqn:EP.
    + rewrite pyslice_nn. eexists. split; [reflexivity|]. unfold Rel, valid, rows, pols. cbn [nd_len nd_buf nd_pol a_rows a_pols a_cap option_map].
      rewrite <- R2, <- R1. cbn [option_map]. unfold rows.
      assert (LL : length (firstn (b - a) (skipn a (firstn (nd_len d) (nd_buf d)))) = Nat.min (b - a) (nd_len d - a)).
      { rewrite firstn_length, skipn_length, firstn_length. lia. }
      repeat split; auto.
      * rewrite firstn_all. reflexivity.
      * f_equal. rewrite LL, firstn_firstn, skipn_firstn_comm, firstn_firstn.
        rewrite Nat.min_l by lia. reflexivity.
      * rewrite LL, firstn_length, skipn_length. lia.
    + eexists. split; [reflexivity|]. unfold Rel, valid, rows, pols. cbn [nd_len nd_buf nd_pol a_rows a_pols a_cap option_map].
      rewrite <- R2, <- R1. cbn [option_map]. repeat split; auto.
      rewrite firstn_all. reflexivity.
  - inversion H; subst; clear H. unfold nd_view. cbn [apply_index]. unfold obind. rewrite pyslice_n.
    destruct W as [W1 W2]. unfold pols in R2. destruct (nd_pol d) as [p|] eqn:EP.
    + rewrite pyslice_n. eexists. split; [reflexivity|]. unfold Rel, valid, rows, pols. cbn [nd_len nd_buf nd_pol a_rows a_pols a_cap option_map].
      rewrite <- R2, <- R1. cbn [option_map]. unfold rows.
      assert (LL : length (skipn a (firstn (nd_len d) (nd_buf d))) = nd_len d - a).
      { rewrite skipn_length, firstn_length. lia. }
      repeat split; auto.
      * rewrite firstn_all. reflexivity.
      * f_equal. rewrite LL, skipn_firstn_comm. reflexivity.
      * rewrite LL, skipn_length. lia.
    + eexists. split; [reflexivity|]. unfold Rel, valid, rows, pols. cbn [nd_len nd_buf nd_pol a_rows a_pols a_cap option_map].
      rewrite <- R2, <- R1. cbn [option_map]. repeat split; auto.
      rewrite firstn_all. reflexivity.
  - unfold nd_view. cbn [apply_index]. rewrite !pytake_nn. rewrite R1.
    destruct (list_take (a_rows s) idx) as [r|] eqn:E; [|discriminate]. unfold obind.
    destruct W as [W1 W2]. unfold pols in R2. destruct (nd_pol d) as [p|] eqn:EP; simpl in R2; rewrite <- R2 in H.
    + rewrite pytake_nn. destruct (list_take (firstn (nd_len d) p) idx) as [q|] eqn:E2; [|discriminate].
      rewrite (list_take_prefix _ _ _ _ _ E2). inversion H; subst. eexists. split; [reflexivity|].
      apply list_take_length in E. apply list_take_length in E2.
      unfold Rel, valid, rows, pols; simpl. rewrite !firstn_all2 by lia. repeat split; auto; lia.
    + inversion H; subst. eexists. split; [reflexivity|].
      unfold Rel, valid, rows, pols; simpl. rewrite !firstn_all2 by lia. repeat split; auto.
  - destruct (a_rows s) as [|z zs] eqn:EZ; [discriminate|].
    assert (NZ : nd_len d <> 0) by (rewrite <- L, R1; simpl; lia).
    assert (HP : nd_pol d = None <-> nd_pol e = None).
    { unfold pols in *. destruct (nd_pol d), (nd_pol e); simpl in *; rewrite <- R2 in H; split; intros; try congruence; discriminate. }
    destruct (add_rows d e W V NZ HP) as (r & A1 & A2 & A3 & A4 & A5). exists r. split; auto.
    rewrite <- R1 in H. rewrite <- R2 in H.
    assert (LR : length (flag_end (rows d) ++ rows e) = nd_len d + nd_len e).
    { rewrite app_length, flag_end_length, L. f_equal. apply wf_rows_length; exact V. }
    destruct (pols d), (pols e); try discriminate; inversion H; subst; split; simpl; auto;
      repeat split; auto; try apply A2; lia.
Qed.

Lemma Rel_run : forall o d s s', Rel d s -> Forall op_valid o -> spec_run s o = Some s' ->
  exists d', nd_run d o = Some d' /\ Rel d' s'.
Proof.
  induction o as [|x t IH]; intros d s s' HR HV H; cbn [spec_run nd_run] in *.
  - inversion H; subst. eauto.
  - destruct (spec_step s x) as [s1|] eqn:E; [|discriminate]. inversion HV; subst.
    destruct (Rel_step _ _ _ _ HR H2 E) as (d1 & -> & R1). eapply IH; eauto.
Qed.

(** ** collecting *)
Lemma flag_end_last : forall l (x : row), r_last x = true -> flag_end (l ++ [x]) = l ++ [x].
Proof. intros. rewrite flag_end_snoc. destruct x; simpl in *; subst; reflexivity. Qed.

Lemma forget_flag_end : forall l : list row, map forget (flag_end l) = map forget l.
Proof.
  intros l. destruct l as [|x l'] using rev_ind; [reflexivity|]. rewrite flag_end_snoc, !map_app. reflexivity.
Qed.

Lemma flag_end_app : forall a b : list row, b <> [] -> flag_end (a ++ b) = a ++ flag_end b.
Proof.
  intros a b H. destruct b as [|x b'] using rev_ind; [congruence|]. rewrite app_assoc, !flag_end_snoc, app_assoc. reflexivity.
Qed.

Definition stateless (d : nds) : Prop := nd_pol d = None.

(** What the collected dataset contains: every chunk but the last one has its
    final row flagged. *)
Lemma collect_gen : forall chunks c, wf c -> stateless c -> nd_len c <> 0 ->
  Forall (fun d => wf d /\ stateless d /\ nd_len d <> 0) chunks ->
  exists r, collect_all (Some c) chunks = Some (Some r) /\ wf r /\ stateless r /\
    rows r = match chunks with [] => rows c
             | _ => flag_end (rows c) ++ concat (map (fun d => flag_end (rows d)) (removelast chunks))
                    ++ rows (last chunks c) end.
Proof.
  induction chunks as [|d t IH]; intros c W S N F.
  - exists c. auto.
  - inversion F; subst. destruct H1 as (Wd & Sd & Nd).
    destruct (add_rows c d W Wd N) as (r & A1 & A2 & A3 & A4 & A5).
    { unfold stateless in *. rewrite S, Sd. tauto. }
    assert (Sr : stateless r).
    { unfold pols, stateless in *. rewrite S in A5. simpl in A5. destruct (nd_pol r); auto; discriminate. }
    assert (Nr : nd_len r <> 0).
    { rewrite <- (wf_rows_length _ A2), A3, app_length, flag_end_length, (wf_rows_length _ W). lia. }
    destruct (IH r A2 Sr Nr H2) as (r' & B1 & B2 & B3 & B4).
    exists r'. split; [|split; [auto|split; auto]].
    + cbn [collect_all collect_call]. unfold obind. rewrite A1. exact B1.
    + rewrite B4. destruct t as [|e t'].
      * rewrite A3. simpl. reflexivity.
      * rewrite A3, flag_end_app. 2:{ intros E. apply (f_equal (@length row)) in E.
          rewrite (wf_rows_length _ Wd) in E. simpl in E. lia. }
        change (removelast (d :: e :: t')) with (d :: removelast (e :: t')).
        change (last (d :: e :: t') c) with (last (e :: t') c).
        cbn [map concat]. rewrite <- !app_assoc. f_equal. f_equal. f_equal. f_equal.
        clear. revert e. induction t' as [|z t' IHt]; intros e; [reflexivity|].
        change (last (e :: z :: t') r) with (last (z :: t') r).
        change (last (e :: z :: t') c) with (last (z :: t') c). apply IHt.
Qed.

Lemma episodes_all_last : forall l (x : row), Forall (fun y => r_last y = true) l ->
  episodes (l ++ [x]) = map (fun y => [y]) (l ++ [x]).
Proof.
  induction l as [|y t IH]; intros x H; simpl.
  - destruct (r_last x) eqn:E; [rewrite episodes_cons_last by auto|rewrite episodes_cons_notlast by auto]; reflexivity.
  - inversion H; subst. rewrite episodes_cons_last by auto. rewrite IH by auto. reflexivity.
Qed.

Lemma episodes_none_last : forall l, l <> [] -> Forall (fun y : row => r_last y = false) l -> episodes l = [l].
Proof.
  induction l as [|y t IH]; intros N H; [congruence|]. inversion H; subst.
  rewrite episodes_cons_notlast by auto. destruct t; [reflexivity|]. rewrite IH by (auto; congruence). reflexivity.
Qed.

End P.

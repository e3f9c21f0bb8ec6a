(** Lemmas for finite MDPs and grids. *)
From Coq Require Import List Arith Lia Reals Bool Lra Psatz ZArith.
From Verif Require Import Common FmdpModel FmdpSpec FeatProofs.
Import ListNotations.

Lemma total_vset : forall n v i x, i < n -> row_total n (vset v i x) = (row_total n v - v i + x)%R.
Proof.
  intros n v i x Hi. unfold row_total.
  assert (G : forall a m, a <= i < a + m -> rsum (map (vset v i x) (seq a m)) = (rsum (map v (seq a m)) - v i + x)%R).
  { intros a m. revert a. induction m as [|m IH]; intros a Ha; [lia|]. cbn [seq map rsum]. destruct (Nat.eq_dec a i) as [->|N].
    - unfold vset at 1. rewrite Nat.eqb_refl.
      rewrite (rsum_map_ext _ (vset v i x) v).
      + lra.
      + intros j Hj. apply in_seq in Hj. unfold vset. destruct (Nat.eqb_spec j i); [lia|reflexivity].
    - rewrite IH by lia. unfold vset at 1. destruct (Nat.eqb_spec a i); [congruence|]. lra. }
  apply G. lia.
Qed.

Lemma total_vzero : forall n, row_total n vzero = 0%R.
Proof. intros. unfold row_total, vzero. rewrite rsum_map_const. ring. Qed.

Lemma vset_eq : forall v i x, vset v i x i = x.
Proof. intros. unfold vset. rewrite Nat.eqb_refl. reflexivity. Qed.
Lemma vset_neq : forall v i x j, j <> i -> vset v i x j = v j.
Proof. intros. unfold vset. destruct (Nat.eqb_spec j i); [congruence|reflexivity]. Qed.

Lemma tset3_eq : forall t i a j x, tset3 t i a j x i a j = x.
Proof. intros. unfold tset3. rewrite !Nat.eqb_refl. reflexivity. Qed.
Lemma tset3_neq : forall t i a j x i' a' j', (i', a', j') <> (i, a, j) -> tset3 t i a j x i' a' j' = t i' a' j'.
Proof.
  intros. unfold tset3. destruct (Nat.eqb_spec i' i); simpl; auto. destruct (Nat.eqb_spec a' a); simpl; auto.
  destruct (Nat.eqb_spec j' j); simpl; auto. subst. congruence.
Qed.

Lemma cell_eqb_iff : forall a b, cell_eqb a b = true <-> a = b.
Proof.
  intros [a1 a2] [b1 b2]. unfold cell_eqb. simpl. rewrite andb_true_iff, !Nat.eqb_eq. split; [intros [-> ->]; auto|].
  intros E. injection E; auto.
Qed.

Lemma find_cell_Some : forall cells x o j, find_cell cells x o = Some j -> o <= j < o + length cells /\ nth (j - o) cells (0, 0) = x.
Proof.
  induction cells as [|c cells IH]; intros x o j H; simpl in H; [discriminate|]. destruct (cell_eqb c x) eqn:E.
  - injection H as <-. apply cell_eqb_iff in E. rewrite Nat.sub_diag. simpl. split; [lia|auto].
  - apply IH in H. destruct H as [A B]. simpl length. split; [lia|]. replace (j - o) with (S (j - S o)) by lia. exact B.
Qed.

Lemma find_cell_In : forall cells x o, In x cells -> exists j, find_cell cells x o = Some j.
Proof.
  induction cells as [|c cells IH]; intros x o H; [destruct H|]. simpl. destruct (cell_eqb c x) eqn:E; [eauto|].
  destruct H as [->|H]; [|apply IH; auto]. exfalso. assert (cell_eqb x x = true) by (apply cell_eqb_iff; auto). congruence.
Qed.

Lemma find_cell_nth : forall cells j, NoDup cells -> j < length cells -> find_cell cells (nth j cells (0, 0)) 0 = Some j.
Proof.
  intros cells j ND Hj. destruct (find_cell_In cells (nth j cells (0, 0)) 0) as (k & K); [apply nth_In; auto|].
  rewrite K. apply find_cell_Some in K. rewrite Nat.sub_0_r in K. destruct K as [K1 K2]. f_equal.
  rewrite NoDup_nth in ND. apply ND; eauto. lia.
Qed.

Lemma find_cell_None : forall cells x o, find_cell cells x o = None <-> ~ In x cells.
Proof.
  intros. split.
  - intros H I. destruct (find_cell_In cells x o I) as (j & J). congruence.
  - intros H. destruct (find_cell cells x o) as [j|] eqn:E; auto. apply find_cell_Some in E. exfalso. apply H.
    destruct E as [E1 <-]. apply nth_In. lia.
Qed.

Lemma shift_dir : forall s a x, a < 4 -> (shift s (dir a) = Some x <-> moves_to s a x).
Proof.
  intros [r c] a [r' c'] Ha. unfold shift, dir, directions. destruct a as [|[|[|[|a]]]]; [| | | |lia]; cbn [nth fst snd moves_to];
    match goal with |- (if ?b then _ else _) = _ <-> _ => destruct b eqn:E end;
    try (apply orb_true_iff in E; rewrite !Z.ltb_lt in E); try (apply orb_false_iff in E; rewrite !Z.ltb_ge in E);
    (split; [intros H; try discriminate; injection H as <- <-; lia|intros [H1 H2]; try lia; try (f_equal; f_equal; lia)]).
Qed.

Lemma shift_opp : forall s a x, a < 4 -> (shift s (opp (dir a)) = Some x <-> moves_to x a s).
Proof.
  intros [r c] a [r' c'] Ha. unfold shift, opp, dir, directions. destruct a as [|[|[|[|a]]]]; [| | | |lia]; cbn [nth fst snd moves_to Z.opp];
    match goal with |- (if ?b then _ else _) = _ <-> _ => destruct b eqn:E end;
    try (apply orb_true_iff in E; rewrite !Z.ltb_lt in E); try (apply orb_false_iff in E; rewrite !Z.ltb_ge in E);
    (split; [intros H; try discriminate; injection H as <- <-; lia|intros [H1 H2]; try lia; try (f_equal; f_equal; lia)]).
Qed.

Lemma moves_to_neq : forall s a x, moves_to s a x -> s <> x.
Proof. intros [r c] a [r' c'] H E. injection E as <- <-. destruct a as [|[|[|a]]]; simpl in H; lia. Qed.

Lemma target_Some : forall cells s a j, a < 4 -> target cells s (dir a) = Some j -> j < length cells /\ moves_to s a (nth j cells (0, 0)).
Proof.
  intros cells s a j Ha H. unfold target in H. destruct (shift s (dir a)) as [x|] eqn:E; [|discriminate].
  apply shift_dir in E; auto. apply find_cell_Some in H. rewrite Nat.sub_0_r in H. destruct H as [H <-]. split; [lia|auto].
Qed.

Lemma target_iff : forall cells s a j, NoDup cells -> a < 4 -> j < length cells ->
  (target cells s (dir a) = Some j <-> moves_to s a (nth j cells (0, 0))).
Proof.
  intros cells s a j ND Ha Hj. split; [intros H; apply target_Some in H; tauto|]. intros H. unfold target.
  apply shift_dir in H; auto. rewrite H. apply find_cell_nth; auto.
Qed.

Lemma target_opp_iff : forall cells s a j, NoDup cells -> a < 4 -> j < length cells ->
  (target cells s (opp (dir a)) = Some j <-> moves_to (nth j cells (0, 0)) a s).
Proof.
  intros cells s a j ND Ha Hj. unfold target. split.
  - intros H. destruct (shift s (opp (dir a))) as [x|] eqn:E; [|discriminate]. apply shift_opp in E; auto.
    apply find_cell_Some in H. rewrite Nat.sub_0_r in H. destruct H as [_ <-]. auto.
  - intros H. apply shift_opp in H; auto. rewrite H. apply find_cell_nth; auto.
Qed.

(** * Positions and parsing *)
Lemma lookup_nth : forall g r c m, lookup g (r, c) = Some m <-> r < length g /\ c < length (nth r g []) /\ nth c (nth r g []) Wall = m.
Proof.
  intros g r c m. unfold lookup. cbn [fst snd]. split.
  - destruct (nth_error g r) as [row|] eqn:E; [|discriminate]. intros H.
    assert (Hr : r < length g) by (apply nth_error_Some; congruence).
    rewrite (nth_error_nth g r [] E). split; auto. split; [apply nth_error_Some; congruence|]. apply nth_error_nth; auto.
  - intros (H1 & H2 & <-). rewrite (nth_error_nth' _ g r []) by auto. apply nth_error_nth'. auto.
Qed.

Lemma positions_In : forall f g x, In x (positions f g) <-> exists m, lookup g x = Some m /\ f m = true.
Proof.
  intros f g [r c]. unfold positions. rewrite in_flat_map. split.
  - intros (r' & Hr & H). apply in_map_iff in H. destruct H as (c' & E & Hc). injection E as -> ->. apply filter_In in Hc.
    destruct Hc as [Hc F]. apply in_seq in Hr, Hc. exists (nth c (nth r g []) Wall). split; auto. apply lookup_nth. split; [lia|]. split; [lia|auto].
  - intros (m & H & F). apply lookup_nth in H. destruct H as (H1 & H2 & <-). exists r. split; [apply in_seq; lia|].
    apply in_map_iff. exists c. split; auto. apply filter_In. split; auto. apply in_seq. lia.
Qed.

Lemma positions_NoDup : forall f g, NoDup (positions f g).
Proof.
  intros f g. unfold positions.
  assert (G : forall m, NoDup (flat_map (fun r => map (fun c => (r, c)) (filter (fun c => f (nth c (nth r g []) Wall)) (seq 0 (length (nth r g []))))) (seq 0 m))).
  { induction m as [|m IH]; [constructor|]. rewrite seq_S, flat_map_app. apply NoDup_app_intro; auto.
    - cbn [flat_map plus]. rewrite app_nil_r. apply FinFun.Injective_map_NoDup; [intros x y E; congruence|]. apply NoDup_filter, seq_NoDup.
    - intros x Hx Hy. apply in_flat_map in Hx, Hy. destruct Hx as (r & Hr & Hx). destruct Hy as (r' & Hr' & Hy).
      apply in_map_iff in Hx, Hy. destruct Hx as (c & <- & _). destruct Hy as (c' & E & _). injection E as E1 E2. apply in_seq in Hr.
      destruct Hr' as [<-|[]]. simpl in E1. lia. }
  apply G.
Qed.

Definition row_cells (r : nat) (row : list mark) : list (nat * nat) :=
  map (fun c => (r, c)) (filter (fun c => negb (is_wall (nth c row Wall))) (seq 0 (length row))).

Lemma positions_snoc : forall gm row, positions (fun m => negb (is_wall m)) (gm ++ [row]) =
  positions (fun m => negb (is_wall m)) gm ++ row_cells (length gm) row.
Proof.
  intros gm row. unfold positions. rewrite app_length. cbn [length]. rewrite Nat.add_1_r, seq_S, flat_map_app. f_equal.
  - rewrite !flat_map_concat_map. f_equal. apply map_ext_in. intros r Hr. apply in_seq in Hr. rewrite app_nth1 by lia. reflexivity.
  - cbn [flat_map plus]. rewrite app_nil_r. rewrite app_nth2, Nat.sub_diag by lia. reflexivity.
Qed.

Lemma row_cells_snoc : forall r row m, row_cells r (row ++ [m]) = row_cells r row ++ (if is_wall m then [] else [(r, length row)]).
Proof.
  intros r row m. unfold row_cells. rewrite app_length. cbn [length]. rewrite Nat.add_1_r, seq_S, filter_app, map_app. f_equal.
  - f_equal. apply filter_ext_in. intros c Hc. apply in_seq in Hc. rewrite app_nth1 by lia. reflexivity.
  - cbn [plus filter]. rewrite app_nth2, Nat.sub_diag by lia. cbn [nth]. destruct (is_wall m); reflexivity.
Qed.

Lemma parse_inv : forall bad cs gm cells row g out,
  cells = positions (fun m => negb (is_wall m)) gm ++ row_cells (length gm) row ->
  parse bad cs gm cells row (length gm) (length row) = Some (g, out) ->
  exists row', out = positions (fun m => negb (is_wall m)) g ++ row_cells (length g) row' /\
    (cs <> [] -> last cs NL = NL -> row' = []) /\ (cs = [] -> row' = row) /\
    (forall m, last cs NL = Mk m -> exists r0, row' = r0 ++ [m]).
Proof.
  intros bad. induction cs as [|c cs IH]; intros gm cells row g out HC H.
  - simpl in H. injection H as <- <-. exists row. split; auto. split; [congruence|]. split; auto. intros m Hm. discriminate.
  - destruct c as [m| |]; cbn [parse] in H; [| |discriminate].
    + destruct (mark_eqb m bad); [discriminate|].
      replace (length row + 1) with (length (row ++ [m])) in H by (rewrite app_length; reflexivity).
      apply IH in H.
      * destruct H as (row' & A & B & C & D). exists row'. split; auto. split; [|split; [congruence|]].
        -- intros _ HL. destruct cs as [|c cs]; [discriminate|]. apply B; [discriminate|exact HL].
        -- intros m' HL. destruct cs as [|c cs]; [|apply D; exact HL]. simpl in HL. injection HL as <-. rewrite C; eauto.
      * rewrite row_cells_snoc, HC. destruct (is_wall m); rewrite ?app_nil_r, <- ?app_assoc; reflexivity.
    + replace (length gm + 1) with (length (gm ++ [row])) in H by (rewrite app_length; reflexivity).
      apply (IH (gm ++ [row]) cells []) in H.
      * destruct H as (row' & A & B & C & D). exists row'. split; auto. split; [|split; [congruence|]].
        -- intros _ HL. destruct cs as [|c cs]; [apply C; auto|]. apply B; [discriminate|exact HL].
        -- intros m' HL. destruct cs as [|c cs]; [discriminate|]. apply D. exact HL.
      * rewrite positions_snoc. change (row_cells (length (gm ++ [row])) []) with (@nil (nat * nat)). rewrite app_nil_r. exact HC.
Qed.

(** * Passenger states *)
Lemma pstates_length : forall k, length (pstates k) = 2 ^ k.
Proof. induction k; simpl; auto. rewrite app_length, !map_length, IHk. lia. Qed.

Lemma pstates_In : forall k x, In x (pstates k) <-> length x = k.
Proof.
  induction k as [|k IH]; intros x; simpl.
  - split; [intros [<-|[]]; auto|]. intros H. destruct x; [auto|discriminate].
  - rewrite in_app_iff, !in_map_iff. split.
    + intros [(y & <- & H)|(y & <- & H)]; apply IH in H; simpl; lia.
    + destruct x as [|b x]; [discriminate|]. intros H. injection H as H. destruct b; [right|left]; exists x; split; auto; apply IH; auto.
Qed.

Lemma bools_eqb_iff : forall a b, bools_eqb a b = true <-> a = b.
Proof.
  induction a as [|x a IH]; intros [|y b]; simpl; split; intros H; try discriminate; auto.
  - apply andb_true_iff in H. destruct H as [H1 H2]. apply eqb_prop in H1. apply IH in H2. congruence.
  - injection H as <- <-. rewrite eqb_reflx. apply IH. auto.
Qed.

Lemma find_ps_spec : forall l x o, In x l -> exists j, find_ps l x o = Some j /\ o <= j < o + length l /\ nth (j - o) l [] = x.
Proof.
  induction l as [|p l IH]; intros x o H; [destruct H|]. simpl. destruct (bools_eqb p x) eqn:E.
  - apply bools_eqb_iff in E. exists o. rewrite Nat.sub_diag. split; auto. split; [lia|auto].
  - destruct H as [->|H]; [exfalso; assert (bools_eqb x x = true) by (apply bools_eqb_iff; auto); congruence|].
    destruct (IH x (S o) H) as (j & A & B & C). exists j. split; auto. split; [lia|]. replace (j - o) with (S (j - S o)) by lia. exact C.
Qed.

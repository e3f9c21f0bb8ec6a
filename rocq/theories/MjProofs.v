(** Block structure of the observation kept by ObservationHelper. *)
From Coq Require Import List Arith ZArith Lia Reals Lra Bool Permutation.
From Verif Require Import Common MjModel.
Import ListNotations.
Local Open Scope nat_scope.

(** a block of the observation: key, current width, limits, and whether it is a single joint position (1) or velocity (2) *)
Record blk := mkB { b_key : nat; b_w : nat; b_lim : option R * option R; b_tag : nat }.
Fixpoint idx_of (a : nat) (B : list blk) : list (nat * list nat) :=
  match B with [] => [] | b :: r => (b_key b, seq a (b_w b)) :: idx_of (a + b_w b) r end.
Fixpoint starts (t a : nat) (B : list blk) : list nat :=
  match B with [] => [] | b :: r => (if Nat.eqb (b_tag b) t then [a] else []) ++ starts t (a + b_w b) r end.
Definition width (B : list blk) : nat := fold_right (fun b n => b_w b + n) 0 B.
Definition lows (B : list blk) : list (option R) := concat (map (fun b => repeat (fst (b_lim b)) (b_w b)) B).
Definition highs (B : list blk) : list (option R) := concat (map (fun b => repeat (snd (b_lim b)) (b_w b)) B).

Definition blocks (h : helper) (B : list blk) : Prop :=
  h_idx h = idx_of 0 B /\ h_low h = lows B /\ h_high h = highs B /\ h_jp h = starts 1 0 B /\ h_jv h = starts 2 0 B /\ NoDup (map b_key B).

Lemma width_app : forall B1 B2, width (B1 ++ B2) = width B1 + width B2.
Proof. induction B1; intros; simpl; [reflexivity|]. rewrite IHB1. lia. Qed.
Lemma idx_of_app : forall B1 a B2, idx_of a (B1 ++ B2) = idx_of a B1 ++ idx_of (a + width B1) B2.
Proof. induction B1 as [|b B1 IH]; intros a B2; simpl; [rewrite Nat.add_0_r; reflexivity|]. rewrite IH, Nat.add_assoc. reflexivity. Qed.
Lemma starts_app : forall t B1 a B2, starts t a (B1 ++ B2) = starts t a B1 ++ starts t (a + width B1) B2.
Proof. induction B1 as [|b B1 IH]; intros a B2; simpl; [rewrite Nat.add_0_r; reflexivity|]. rewrite IH, Nat.add_assoc, app_assoc. reflexivity. Qed.
Lemma lows_length : forall B, length (lows B) = width B.
Proof. induction B; simpl; [reflexivity|]. unfold lows in *. simpl. rewrite app_length, repeat_length. lia. Qed.
Lemma highs_length : forall B, length (highs B) = width B.
Proof. induction B; simpl; [reflexivity|]. unfold highs in *. simpl. rewrite app_length, repeat_length. lia. Qed.
Lemma map_fst_idx : forall B a, map fst (idx_of a B) = map b_key B.
Proof. induction B; intros; simpl; [reflexivity|]. rewrite IHB. reflexivity. Qed.

Lemma shift_seq_lo : forall w a c, a + w <= c + 1 -> map (shift c) (seq a w) = seq a w.
Proof.
  induction w; intros a c H; simpl; [reflexivity|]. rewrite IHw by lia. f_equal. unfold shift. destruct (Nat.ltb_spec c a); lia.
Qed.
Lemma shift_seq_hi : forall w a c, c < a -> map (shift c) (seq a w) = seq (a - 1) w.
Proof.
  induction w; intros a c H; simpl; [reflexivity|]. rewrite IHw by lia. replace (S a - 1) with (S (a - 1)) by lia. f_equal. unfold shift. destruct (Nat.ltb_spec c a); lia.
Qed.
Lemma del_seq : forall w a p, p < w -> map (shift (a + p)) (del p (seq a w)) = seq a (w - 1).
Proof.
  intros w a p H. unfold del. replace w with (p + S (w - p - 1)) at 1 2 by lia. rewrite seq_app. simpl seq.
  rewrite firstn_app, seq_length, Nat.sub_diag, firstn_O, app_nil_r, firstn_all2 by (rewrite seq_length; lia).
  rewrite skipn_app, seq_length. rewrite skipn_all2 by (rewrite seq_length; lia). replace (S p - p) with 1 by lia. simpl.
  rewrite map_app, shift_seq_lo by lia. rewrite shift_seq_hi by lia. replace (S (a + p) - 1) with (a + p) by lia. rewrite <- seq_app. f_equal. lia.
Qed.
Lemma idx_shift_lo : forall B a c, a + width B <= c + 1 -> map (fun kv => (fst kv, map (shift c) (snd kv))) (idx_of a B) = idx_of a B.
Proof. induction B as [|b B IH]; intros a c H; simpl in *; [reflexivity|]. rewrite shift_seq_lo by lia. rewrite IH by lia. reflexivity. Qed.
Lemma idx_shift_hi : forall B a c, c < a -> map (fun kv => (fst kv, map (shift c) (snd kv))) (idx_of a B) = idx_of (a - 1) B.
Proof. induction B as [|b B IH]; intros a c H; simpl in *; [reflexivity|]. rewrite shift_seq_hi by lia. rewrite IH by lia. replace (a + b_w b - 1) with (a - 1 + b_w b) by lia. reflexivity. Qed.
Lemma starts_shift_lo : forall t B a c, a + width B <= c + 1 -> Forall (fun b => 1 <= b_w b) B -> map (shift c) (starts t a B) = starts t a B.
Proof.
  induction B as [|b B IH]; intros a c H F; simpl in *; [reflexivity|]. inversion F; subst. rewrite map_app, IH by (auto; lia). f_equal.
  destruct (Nat.eqb (b_tag b) t); [|reflexivity]. simpl. f_equal. unfold shift. destruct (Nat.ltb_spec c a); lia.
Qed.
Lemma starts_shift_hi : forall t B a c, c < a -> map (shift c) (starts t a B) = starts t (a - 1) B.
Proof.
  induction B as [|b B IH]; intros a c H; simpl in *; [reflexivity|]. rewrite map_app, IH by lia. replace (a + b_w b - 1) with (a - 1 + b_w b) by lia. f_equal.
  destruct (Nat.eqb (b_tag b) t); [|reflexivity]. simpl. f_equal. unfold shift. destruct (Nat.ltb_spec c a); lia.
Qed.
Lemma upd_key_other : forall {V} (f : V -> V) k l, ~ In k (map fst l) -> upd_key k f l = l.
Proof.
  intros V f k l. induction l as [|[k' v] l IH]; intros H; simpl in *; [reflexivity|]. destruct (Nat.eqb_spec k' k); [subst; tauto|]. rewrite IH by tauto. reflexivity.
Qed.
Lemma upd_key_app : forall {V} (f : V -> V) k l1 l2, upd_key k f (l1 ++ l2) = upd_key k f l1 ++ upd_key k f l2.
Proof. intros. unfold upd_key. apply map_app. Qed.
Lemma del_app : forall {A} (l1 l2 l3 : list A) p, p < length l2 -> del (length l1 + p) (l1 ++ l2 ++ l3) = l1 ++ del p l2 ++ l3.
Proof.
  intros A l1 l2 l3 p H. unfold del. rewrite firstn_app. replace (length l1 + p - length l1) with p by lia. rewrite (firstn_all2 l1) by lia.
  rewrite (firstn_app p l2 l3). replace (p - length l2) with 0 by lia. rewrite firstn_O, app_nil_r.
  rewrite skipn_app, (skipn_all2 l1) by lia. replace (S (length l1 + p) - length l1) with (S p) by lia. rewrite (skipn_app (S p) l2 l3). replace (S p - length l2) with 0 by lia.
  simpl. rewrite <- !app_assoc. reflexivity.
Qed.
Lemma del_repeat : forall {A} (x : A) w p, p < w -> del p (repeat x w) = repeat x (w - 1).
Proof.
  intros A x w p H. unfold del. assert (F : forall n k, k <= n -> firstn k (repeat x n) = repeat x k).
  { induction n; intros [|k] Hk; simpl; try reflexivity; [lia|]. f_equal. apply IHn. lia. }
  assert (G : forall n k, skipn k (repeat x n) = repeat x (n - k)).
  { induction n; intros [|k]; simpl; try reflexivity. apply IHn. }
  rewrite F by lia. rewrite G, <- repeat_app. f_equal. lia.
Qed.
Lemma assoc_app_in : forall {V} (l1 l2 : list (nat * V)) k v, ~ In k (map fst l1) -> assoc (l1 ++ (k, v) :: l2) k = Some v.
Proof.
  intros V l1 l2 k v. induction l1 as [|[k' v'] l1 IH]; intros H; simpl in *; [rewrite Nat.eqb_refl; reflexivity|]. destruct (Nat.eqb_spec k' k); [subst; tauto|]. apply IH. tauto.
Qed.
Lemma assoc_none : forall {V} (l : list (nat * V)) k, ~ In k (map fst l) -> assoc l k = None.
Proof. intros V l k. induction l as [|[k' v] l IH]; intros H; simpl in *; [reflexivity|]. destruct (Nat.eqb_spec k' k); [subst; tauto|]. apply IH. tauto. Qed.
Lemma assoc_some_in : forall {V} (l : list (nat * V)) k v, assoc l k = Some v -> In (k, v) l.
Proof.
  intros V l k v. induction l as [|[k' v'] l IH]; intros H; simpl in *; [discriminate|].
  destruct (Nat.eqb_spec k' k); [subst; inversion H; subst; auto|]. right. auto.
Qed.

(** blocks of a helper with one block shortened *)
Lemma remove_blocks : forall h B1 b B2 p om, blocks h (B1 ++ b :: B2) -> Forall (fun b => 1 <= b_w b) (B1 ++ b :: B2) -> p < b_w b ->
  let c := nth p (seq (width B1) (b_w b)) 0 in
  let b' := mkB (b_key b) (b_w b - 1) (b_lim b) (b_tag b) in
  blocks (mkH (del c (h_low h)) (del c (h_high h)) (map (shift c) (h_jp h)) (map (shift c) (h_jv h))
      (map (fun kv => (fst kv, map (shift c) (snd kv))) (upd_key (b_key b) (del p) (h_idx h))) om) (B1 ++ b' :: B2).
Proof.
  intros h B1 b B2 p om (E1 & E2 & E3 & E4 & E5 & ND) F Hp c b'.
  assert (Ec : c = width B1 + p) by (unfold c; rewrite seq_nth by lia; reflexivity).
  assert (F1 : Forall (fun b => 1 <= b_w b) B1) by (apply Forall_app in F; tauto).
  unfold blocks. cbn [h_idx h_low h_high h_jp h_jv].
  assert (NK : ~ In (b_key b) (map b_key B1) /\ ~ In (b_key b) (map b_key B2)).
  { rewrite map_app in ND. simpl in ND. apply NoDup_remove_2 in ND. split; intro I1; apply ND; apply in_or_app; auto. }
  destruct NK as [NK1 NK2].
  assert (St : forall t, starts t 0 (B1 ++ b' :: B2) = map (shift c) (starts t 0 (B1 ++ b :: B2))).
  { intros t. rewrite !starts_app, map_app. simpl. rewrite starts_shift_lo by (try exact F1; lia). f_equal. rewrite map_app, starts_shift_hi by lia.
    f_equal; [destruct (Nat.eqb (b_tag b) t); [|reflexivity]; simpl; f_equal; unfold shift; destruct (Nat.ltb_spec c (width B1)); lia|].
    f_equal. lia. }
  repeat split.
  - rewrite E1, idx_of_app. simpl. rewrite upd_key_app, upd_key_other by (rewrite map_fst_idx; exact NK1).
    simpl. rewrite Nat.eqb_refl, upd_key_other by (rewrite map_fst_idx; exact NK2). rewrite map_app. simpl.
    rewrite idx_shift_lo by lia. rewrite Ec, del_seq by lia. rewrite idx_shift_hi by lia. rewrite idx_of_app. simpl.
    replace (width B1 + b_w b - 1) with (width B1 + (b_w b - 1)) by lia. reflexivity.
  - rewrite E2. unfold lows. rewrite !map_app, !concat_app. simpl. rewrite Ec, <- (lows_length B1). rewrite del_app by (rewrite repeat_length; exact Hp).
    rewrite del_repeat by exact Hp. reflexivity.
  - rewrite E3. unfold highs. rewrite !map_app, !concat_app. simpl. rewrite Ec, <- (highs_length B1). rewrite del_app by (rewrite repeat_length; exact Hp).
    rewrite del_repeat by exact Hp. reflexivity.
  - rewrite St, E4. reflexivity.
  - rewrite St, E5. reflexivity.
  - rewrite map_app in *. exact ND.
Qed.

(** reading from an observation made of parts *)
Lemma parts_length : forall B parts, Forall2 (fun b (p : list R) => length p = b_w b) B parts -> length (concat parts) = width B.
Proof. induction 1; simpl; [reflexivity|]. rewrite app_length. lia. Qed.
Lemma get_part : forall h B1 b B2 P1 p P2, blocks h (B1 ++ b :: B2) -> Forall2 (fun b (p : list R) => length p = b_w b) B1 P1 -> length p = b_w b -> 1 <= b_w b ->
  get_from_obs h (concat (P1 ++ p :: P2)) (b_key b) = Some p.
Proof.
  intros h B1 b B2 P1 p P2 (E1 & _ & _ & _ & _ & ND) F Hp Hw. unfold get_from_obs. rewrite E1, idx_of_app. cbn [idx_of]. rewrite Nat.add_0_l.
  assert (NK : ~ In (b_key b) (map b_key B1)) by (rewrite map_app in ND; simpl in ND; apply NoDup_remove_2 in ND; intro I1; apply ND; apply in_or_app; auto).
  rewrite assoc_app_in by (rewrite map_fst_idx; exact NK). destruct (b_w b) as [|w] eqn:W; [lia|]. change (seq (width B1) (S w)) with (width B1 :: seq (S (width B1)) w). cbv beta iota.
  assert (L : last (width B1 :: seq (S (width B1)) w) 0 = width B1 + w).
  { change (width B1 :: seq (S (width B1)) w) with (seq (width B1) (S w)). rewrite seq_S. apply last_last. }
  rewrite L. rewrite concat_app. simpl. rewrite <- (parts_length B1 P1 F). rewrite skipn_app, skipn_all, Nat.sub_diag. simpl.
  replace (length (concat P1) + w + 1 - length (concat P1)) with (length p) by lia. rewrite firstn_app, firstn_all, Nat.sub_diag. simpl. rewrite app_nil_r. reflexivity.
Qed.
Lemma get_starts : forall t B P pre, Forall2 (fun b (p : list R) => length p = b_w b) B P -> Forall (fun b => 1 <= b_w b) B ->
  map (fun i => nth i (pre ++ concat P) 0%R) (starts t (length pre) B) = map (fun bp => hd 0%R (snd bp)) (filter (fun bp => Nat.eqb (b_tag (fst bp)) t) (combine B P)).
Proof.
  intros t B P pre H. revert pre. induction H as [|b p B P Hp H IH]; intros pre F; simpl; [reflexivity|]. inversion F; subst.
  rewrite map_app. replace (length pre + b_w b) with (length (pre ++ p)) by (rewrite app_length; lia). rewrite (app_assoc pre p). rewrite IH by assumption.
  destruct (Nat.eqb (b_tag b) t); [|reflexivity]. simpl. f_equal. rewrite <- app_assoc, app_nth2, Nat.sub_diag by lia. destruct p; [simpl in Hp; lia|reflexivity].
Qed.

(** what np.delete keeps *)
Lemma np_delete_length : forall {A} om (l : list A), NoDup om -> Forall (fun i => i < length l) om -> length (np_delete om l) = length l - length om.
Proof.
  intros A om l ND F. unfold np_delete. rewrite map_length.
  assert (E : forall (s : list nat) (m : list A), length s = length m -> length (filter (fun p => negb (existsb (Nat.eqb (fst p)) om)) (combine s m)) = length (filter (fun i => negb (existsb (Nat.eqb i) om)) s)).
  { induction s as [|x s IH]; intros [|y m] L; simpl in *; try reflexivity; try discriminate. destruct (existsb (Nat.eqb x) om); simpl; rewrite IH by lia; reflexivity. }
  rewrite E by apply seq_length.
  assert (P : length (filter (fun i => existsb (Nat.eqb i) om) (seq 0 (length l))) = length om).
  { apply Permutation_length. apply NoDup_Permutation; [apply NoDup_filter, seq_NoDup|exact ND|].
    intros x. rewrite filter_In, in_seq, existsb_exists. rewrite Forall_forall in F. split.
    - intros (_ & y & I1 & Q). apply Nat.eqb_eq in Q. subst. exact I1.
    - intros I1. split; [specialize (F x I1); lia|]. exists x. split; [exact I1|apply Nat.eqb_refl]. }
  assert (T : forall s : list nat, length (filter (fun i => existsb (Nat.eqb i) om) s) + length (filter (fun i => negb (existsb (Nat.eqb i) om)) s) = length s).
  { induction s as [|x s IH]; simpl; [reflexivity|]. destruct (existsb (Nat.eqb x) om); simpl; lia. }
  specialize (T (seq 0 (length l))). rewrite seq_length in T. lia.
Qed.

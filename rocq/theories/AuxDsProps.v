(** C133: the policy states and the parameters of a dataset through views, sums, arrays. *)
From Coq Require Import List Arith Lia Bool ZArith.
From Verif Require Import AuxDsModel.
Import ListNotations.

Section Props.
Context {Row P Th : Type}.
Variable ps : Row -> P.
Variable garb : nat -> P.
Notation ds := (@ds Row P Th).
Notation dexp := (@dexp Row P Th).
Notation eval := (@eval Row P Th ps garb).

(** An index without negative numbers *)
Definition forward (i : index) : Prop :=
  match i with
  | Slice a b => (forall x, a = Some x -> 0 <= x)%Z /\ (forall x, b = Some x -> 0 <= x)%Z
  | Idxs l => Forall (fun x => 0 <= x)%Z l
  end.
Fixpoint forward_only (x : dexp) : Prop :=
  match x with View e i => forward_only e /\ forward i | Add e f => forward_only e /\ forward_only f | _ => True end.
(** The first dataset the rows come from *)
Fixpoint recurrent (x : dexp) : bool :=
  match x with Collected s _ _ _ => s | FromArray _ _ _ => false | Flatten _ _ _ => false | View e _ => recurrent e | Add e _ => recurrent e end.
Definition is_view (x : dexp) : bool := match x with View _ _ => true | _ => false end.
(** The transitions, and the parameters of the episodes *)
Fixpoint rows_of (x : dexp) : list Row :=
  match x with
  | Collected _ _ rs _ => rs | FromArray rs _ _ => rs | Flatten _ es _ => concat es
  | View e i => match pick (rows_of e) i with Some r => r | None => [] end
  | Add e f => rows_of e ++ rows_of f
  end.
Fixpoint params (x : dexp) : list Th :=
  match x with
  | Collected _ _ _ t => t | FromArray _ _ t => match t with Some t' => t' | None => [] end | Flatten _ _ t => concat t
  | View _ _ => []
  | Add e f => params e ++ params f
  end.

Lemma firstn_exact : forall {A} (l g : list A) k, k = length l -> firstn k (l ++ g) = l.
Proof. intros A l g k ->. rewrite firstn_app, Nat.sub_diag, firstn_all. cbn. apply app_nil_r. Qed.

Lemma pick_map : forall {A B} (f : A -> B) l i, pick (map f l) i = option_map (map f) (pick l i).
Proof.
  intros A B f l [a b|xs]; cbn [pick]; rewrite map_length.
  - cbn. rewrite skipn_map, firstn_map. reflexivity.
  - induction xs as [|x xs IH]; [reflexivity|]. cbn [map all_some]. destruct (place (length l) x) as [k|]; [|reflexivity].
    rewrite nth_error_map. destruct (nth_error l k); [|reflexivity]. cbn [option_map]. rewrite IH. match goal with |- context [option_map (map f) ?t] => destruct t; reflexivity end.
Qed.

Lemma bound_le : forall n x, (0 <= x)%Z -> bound n x = Nat.min (Z.to_nat x) n.
Proof. intros n x H. unfold bound. destruct (x <? 0)%Z eqn:E; [apply Z.ltb_lt in E; lia|reflexivity]. Qed.

(** Forward indexes see the same rows in a longer array. *)
Lemma pick_prefix : forall {A} (l g : list A) i r, forward i -> pick l i = Some r ->
  exists r', pick (l ++ g) i = Some r' /\ firstn (length r) r' = r.
Proof.
  intros A l g [a b|xs] r F E; cbn [pick] in *; rewrite app_length.
  - injection E as <-. eexists. split; [reflexivity|]. destruct F as [Fa Fb].
    set (n := length l) in *. set (m := length g).
    assert (HA : exists ka, match a with Some x => bound n x | None => 0 end = Nat.min ka n /\ match a with Some x => bound (n + m) x | None => 0 end = Nat.min ka (n + m)).
    { destruct a as [x|]; [exists (Z.to_nat x); split; apply bound_le; auto|exists 0; split; reflexivity]. }
    assert (HB : exists kb, match b with Some x => bound n x | None => n end = Nat.min kb n /\ match b with Some x => bound (n + m) x | None => n + m end = Nat.min kb (n + m)).
    { destruct b as [x|]; [exists (Z.to_nat x); split; apply bound_le; auto|exists (n + m); split; lia]. }
    destruct HA as (ka & -> & ->), HB as (kb & -> & ->).
    destruct (le_lt_dec n ka) as [L|L].
    + replace (Nat.min kb n - Nat.min ka n) with 0 by lia. reflexivity.
    + replace (Nat.min ka n) with ka by lia. replace (Nat.min ka (n + m)) with ka by lia.
      rewrite skipn_app. fold n. replace (ka - n) with 0 by lia. cbn [skipn].
      set (s := skipn ka l). assert (LS : length s = n - ka) by (unfold s; rewrite skipn_length; reflexivity).
      rewrite firstn_length, LS, firstn_firstn, firstn_app, LS.
      replace (Nat.min (Nat.min (Nat.min kb n - ka) (n - ka)) (Nat.min kb (n + m) - ka)) with (Nat.min kb n - ka) by lia.
      replace (Nat.min kb n - ka - (n - ka)) with 0 by lia. cbn. apply app_nil_r.
  - exists r. split; [|apply firstn_all]. revert r E. induction xs as [|x xs IH]; intros r E; [exact E|]. cbn [map all_some] in *.
    inversion F as [|? ? F1 F2]; subst.
    destruct (place (length l) x) as [k|] eqn:EP; [|discriminate]. destruct (nth_error l k) as [y|] eqn:EN; [|discriminate].
    destruct (all_some _) as [t|] eqn:ET in E; [|discriminate]. injection E as <-.
    unfold place in EP. destruct ((_ <=? x)%Z && (x <? _)%Z)%bool eqn:EB; [|discriminate]. apply andb_prop in EB as [B1 B2].
    apply Z.leb_le in B1. apply Z.ltb_lt in B2. assert (NX : (x <? 0)%Z = false) by (apply Z.ltb_ge; lia). rewrite NX in EP. injection EP as <-.
    assert (PL : place (length l + length g) x = Some (Z.to_nat x)).
    { unfold place. rewrite NX. replace ((_ <=? x)%Z && (x <? _)%Z)%bool with true; [reflexivity|]. symmetry. apply andb_true_intro.
      rewrite Z.leb_le, Z.ltb_lt. lia. }
    rewrite PL, nth_error_app1, EN by (apply nth_error_Some; congruence). rewrite (IH F2 t ET). reflexivity.
Qed.

(** The state of the policy kept with each row *)
Definition aligned (d : ds) : Prop := forall l, pol d = Some l -> exists g, l = map ps (vis d) ++ g.
Lemma aligned_state : forall d l, aligned d -> pol d = Some l -> policy_state d = Some (map ps (vis d)).
Proof.
  intros d l A E. unfold policy_state. rewrite E. cbn. destruct (A l E) as [g ->]. rewrite firstn_exact; [reflexivity|]. symmetry. apply map_length.
Qed.

Lemma view_aligned : forall d i d', aligned d -> forward i -> view d i = Some d' -> aligned d'.
Proof.
  intros d i d' A F E. unfold view in E. destruct (pick (vis d) i) as [rs|] eqn:EP; [|discriminate].
  destruct (pol d) as [l|] eqn:EL; [|injection E as <-; intros l H; discriminate].
  destruct (pick l i) as [l'|] eqn:EQ; [|discriminate]. injection E as <-. intros l0 H. injection H as <-. cbn [vis].
  destruct (A l EL) as [g ->].
  assert (EM : pick (map ps (vis d)) i = Some (map ps rs)) by (rewrite pick_map, EP; reflexivity).
  destruct (pick_prefix _ g _ _ F EM) as (r' & E1 & E2). rewrite E1 in EQ. injection EQ as <-.
  exists (skipn (length (map ps rs)) r'). rewrite <- E2 at 1. symmetry. apply firstn_skipn.
Qed.

(** Whatever a program does with collected datasets, sums and views without negative indexes: if
    the result has policy states, they are those of its rows; it has them exactly if the first
    dataset it was made from had them and was not made by from_array or flatten; and it has a
    list of parameters, all of them in order, exactly if it is not a view. *)
Theorem dataset_columns : forall x d, forward_only x -> eval x = Some d ->
  vis d = rows_of x /\ policy_state d = (if recurrent x then Some (map ps (rows_of x)) else None) /\
  theta d = (if is_view x then None else Some (params x)).
Proof.
  assert (M0 : forall x d, eval x = Some d -> vis d = rows_of x /\ theta d = (if is_view x then None else Some (params x))).
  { induction x as [s c rs t|rs p t|s es t|e IH i|e IHe f IHf]; intros d E; cbn [eval rows_of params is_view] in *.
    - unfold collected in E. destruct (length rs <=? c); [|discriminate]. injection E as <-. split; reflexivity.
    - unfold from_array in E. destruct p; [destruct (_ =? _); [|discriminate]|]; injection E as <-; split; reflexivity.
    - unfold flatten, from_array in E. destruct s; [destruct (_ =? _); [|discriminate]|]; injection E as <-; split; reflexivity.
    - destruct (eval e) as [d0|]; [|discriminate]. destruct (IH d0 eq_refl) as [V _]. unfold view in E. rewrite V in E.
      destruct (pick (rows_of e) i); [|discriminate]. destruct (pol d0) as [l0|]; [destruct (pick l0 i); [|discriminate]|]; injection E as <-; split; reflexivity.
    - destruct (eval e) as [d0|]; [|discriminate]. destruct (eval f) as [d1|]; [|discriminate].
      destruct (IHe d0 eq_refl) as [V0 T0]. destruct (IHf d1 eq_refl) as [V1 T1]. unfold add in E.
      destruct (theta d0) as [t0|]; [|discriminate]. destruct (theta d1) as [t1|]; [|discriminate].
      destruct (is_view e), (is_view f); try discriminate. injection T0 as ->. injection T1 as ->. rewrite V0, V1 in E.
      destruct (pol d0); [destruct (policy_state d0), (policy_state d1); try discriminate|]; injection E as <-; split; reflexivity. }
  assert (M : forall x d, forward_only x -> eval x = Some d ->
    aligned d /\ ((exists l, pol d = Some l) <-> recurrent x = true) /\ (theta d = None <-> is_view x = true)).
  { induction x as [s c rs t|rs p t|s es t|e IH i|e IHe f IHf]; intros d F E; cbn [eval forward_only recurrent is_view] in *.
    - unfold collected in E. destruct (length rs <=? c); [|discriminate]. injection E as <-. cbn [vis pol theta]. split; [|split; [|split; discriminate]].
      + intros l H. cbn in H. destruct s; [|discriminate]. injection H as <-. eauto.
      + destruct s; split; eauto; [intros [l H]; discriminate|discriminate].
    - assert (d = mkDs rs None (Some match t with Some t0 => t0 | None => [] end)) as ->.
      { unfold from_array in E. destruct p; [destruct (_ =? _); [|discriminate]|]; injection E as <-; reflexivity. }
      split; [intros l H; discriminate|]. split; split; try discriminate. intros [l H]; discriminate.
    - assert (d = mkDs (concat es) None (Some (concat t))) as ->.
      { unfold flatten, from_array in E. destruct s; [destruct (_ =? _); [|discriminate]|]; injection E as <-; reflexivity. }
      split; [intros l H; discriminate|]. split; split; try discriminate. intros [l H]; discriminate.
    - destruct (eval e) as [d0|]; [|discriminate]. destruct F as [F1 F2]. destruct (IH d0 F1 eq_refl) as (A & S & _).
      split; [eapply view_aligned; eauto|]. unfold view in E. destruct (pick (vis d0) i); [|discriminate].
      destruct (pol d0) as [l0|] eqn:EL; [destruct (pick l0 i); [|discriminate]|]; injection E as <-; cbn [pol theta].
      + split; [|split; reflexivity]. split; [intros _; apply S; eauto|eauto].
      + split; [|split; reflexivity]. exact S.
    - destruct (eval e) as [d0|]; [|discriminate]. destruct (eval f) as [d1|]; [|discriminate]. destruct F as [F1 F2].
      destruct (IHe d0 F1 eq_refl) as (A0 & S0 & _). destruct (IHf d1 F2 eq_refl) as (A1 & S1 & _).
      unfold add in E. destruct (theta d0) as [t0|]; [|discriminate]. destruct (theta d1) as [t1|]; [|discriminate].
      destruct (pol d0) as [l0|] eqn:E0.
      + rewrite (aligned_state d0 l0 A0 E0) in E. destruct (pol d1) as [l1|] eqn:E1; [|unfold policy_state in E; rewrite E1 in E; discriminate].
        rewrite (aligned_state d1 l1 A1 E1) in E. injection E as <-. cbn [pol vis theta]. split; [|split; [|split; discriminate]].
        * intros l H. injection H as <-. cbn. exists []. rewrite map_app, app_nil_r. reflexivity.
        * split; [intros _; apply S0; eauto|eauto].
      + injection E as <-. cbn [pol vis theta]. split; [intros l H; discriminate|]. split; [exact S0|split; discriminate]. }
  intros x d F E. destruct (M x d F E) as (A & S & T). destruct (M0 x d E) as [V T']. split; [exact V|]. split; [|exact T']. rewrite <- V.
  destruct (recurrent x).
  - destruct S as [_ S]. destruct (S eq_refl) as [l H]. apply (aligned_state d l A H).
  - unfold policy_state. destruct (pol d) eqn:EP; [|reflexivity]. destruct S as [S _]. assert (false = true) by (apply S; eauto). discriminate.
Qed.

(** A dataset that is full may be indexed in any way. *)
Theorem view_full : forall rs ths i d, eval (View (Collected true (length rs) rs ths) i) = Some d -> policy_state d = Some (map ps (vis d)).
Proof.
  intros rs ths i d E. cbn in E. unfold collected in E. rewrite Nat.leb_refl, Nat.sub_diag in E. cbn [seq map] in E. rewrite app_nil_r in E.
  unfold view in E. cbn [vis pol] in E. rewrite pick_map in E. destruct (pick rs i) as [r|]; [|discriminate]. cbn in E. injection E as <-.
  unfold policy_state. cbn. f_equal. rewrite <- (map_length ps). apply firstn_all.
Qed.

(** In a dataset with room for [m] more rows, the policy states of its last [m] rows, read as
    dataset[-m:], are none of those the policy had: all come from places never written. *)
Theorem view_negative_refuted : forall rs ths cap m, 1 <= m <= length rs -> length rs + m <= cap ->
  exists d, eval (View (Collected true cap rs ths) (Slice (Some (- Z.of_nat m)%Z) None)) = Some d /\
    vis d = skipn (length rs - m) rs /\ policy_state d = Some (map garb (seq (cap - m) m)).
Proof.
  intros rs ths cap m H C. cbn [eval]. unfold collected. replace (length rs <=? cap) with true by (symmetry; apply Nat.leb_le; lia).
  unfold view. cbn [vis pol pick]. eexists. split; [reflexivity|]. cbn [vis pol].
  assert (B : forall n, m <= n -> bound n (- Z.of_nat m) = n - m).
  { intros n L. unfold bound. replace (- Z.of_nat m <? 0)%Z with true by (symmetry; apply Z.ltb_lt; lia). lia. }
  rewrite app_length, !map_length, seq_length. rewrite B by lia.
  replace (length rs - (length rs - m)) with m by lia.
  assert (V : firstn m (skipn (length rs - m) rs) = skipn (length rs - m) rs) by (apply firstn_all2; rewrite skipn_length; lia).
  split; [exact V|]. unfold policy_state. cbn [vis pol option_map]. f_equal. rewrite V, skipn_length, B by lia.
  replace (length rs + (cap - length rs)) with cap by lia. replace (cap - (cap - m)) with m by lia.
  rewrite skipn_app, map_length, (skipn_all2 (map ps rs)) by (rewrite map_length; lia). cbn [app].
  replace (cap - m - length rs) with (cap - length rs - m) by lia.
  rewrite skipn_map, firstn_map, firstn_map. f_equal.
  assert (SK : skipn (cap - length rs - m) (seq (length rs) (cap - length rs)) = seq (cap - m) m).
  { replace (cap - length rs) with ((cap - length rs - m) + m) at 2 by lia. rewrite seq_app, skipn_app, seq_length, skipn_all2 by (rewrite seq_length; lia).
    rewrite Nat.sub_diag. cbn. f_equal. lia. }
  rewrite SK. replace (length rs - (length rs - m)) with m by lia. rewrite !firstn_all2; auto; rewrite ?firstn_length, ?seq_length; lia.
Qed.

(** from_array and flatten: the policy states handed over are lost, so a recurrent agent cannot be
    fitted on the dataset of a VectorCore. *)
Theorem flatten_policy_states_refuted : forall envs thss,
  (exists d, eval (Flatten true envs thss) = Some d /\ vis d = concat envs /\ theta d = Some (concat thss) /\ policy_state d = None /\ bptt_inputs d = None) /\
  (forall rs ths, exists d, eval (FromArray rs (Some (map ps rs)) ths) = Some d /\ vis d = rs /\ policy_state d = None).
Proof.
  intros envs thss. split.
  - cbn. unfold flatten, from_array. rewrite map_length, Nat.eqb_refl. eexists. repeat split.
  - intros rs ths. cbn. unfold from_array. rewrite map_length, Nat.eqb_refl. eexists. repeat split.
Qed.
(** What PPO_BPTT gets from a dataset of a Core *)
Theorem core_policy_states : forall cap rs ths, length rs <= cap ->
  exists d, eval (Collected true cap rs ths) = Some d /\ bptt_inputs d = Some (map (fun x => (x, ps x)) rs).
Proof.
  intros cap rs ths H. assert (exists d, eval (Collected true cap rs ths) = Some d /\ vis d = rs) as (d & E & V).
  { cbn. unfold collected. replace (length rs <=? cap) with true by (symmetry; apply Nat.leb_le; lia). eauto. }
  exists d. split; [exact E|]. unfold bptt_inputs. destruct (dataset_columns (Collected true cap rs ths) d I E) as (_ & -> & _). cbn. rewrite V. f_equal.
  clear. induction rs; cbn; congruence.
Qed.

(** A view has no list of parameters: it cannot be added to anything, on either side. *)
Theorem view_add_refuted : forall e i f, eval (Add (View e i) f) = None /\ eval (Add f (View e i)) = None.
Proof.
  intros e i f. cbn [eval].
  assert (T : forall d, match eval e with Some d0 => view d0 i | None => None end = Some d -> theta d = None).
  { intros d H. destruct (eval e) as [d0|]; [|discriminate]. unfold view in H. destruct (pick (vis d0) i); [|discriminate].
    destruct (pol d0) as [q|]; [destruct (pick q i); [|discriminate]|]; injection H as <-; reflexivity. }
  destruct (match eval e with Some d0 => view d0 i | None => None end) as [d|]; [|split; [reflexivity|destruct (eval f); reflexivity]].
  specialize (T d eq_refl). split; destruct (eval f) as [d1|]; try reflexivity; unfold add; rewrite T; [reflexivity|destruct (theta d1); reflexivity].
Qed.
End Props.

(** Five places, three rows 10, 11, 12 with policy states 110, 111, 112; the rest is 900 + place *)
Definition x_ds : @dexp nat nat nat := Collected true 5 [10; 11; 12] [7].
Definition x_cols (x : @dexp nat nat nat) := match eval (fun r => 100 + r) (fun k => 900 + k) x with Some d => Some (vis d, policy_state d, theta d) | None => None end.
Example view_ex : x_cols (View x_ds (Slice (Some 1%Z) None)) = Some ([11; 12], Some [111; 112], None) /\
  x_cols (View x_ds (Slice (Some (-2)%Z) None)) = Some ([11; 12], Some [903; 904], None) /\
  x_cols (Add x_ds x_ds) = Some ([10; 11; 12; 10; 11; 12], Some [110; 111; 112; 110; 111; 112], Some [7; 7]) /\
  x_cols (Add x_ds (View x_ds (Slice None None))) = None /\
  x_cols (Flatten true [[1; 2]; [3]] [[5]; [6]]) = Some ([1; 2; 3], None, Some [5; 6]) /\
  x_cols (View x_ds (Idxs [0; 2]%Z)) = Some ([10; 12], Some [110; 112], None).
Proof. repeat split. Qed.

Print Assumptions dataset_columns.
Print Assumptions view_full.
Print Assumptions view_negative_refuted.
Print Assumptions flatten_policy_states_refuted.
Print Assumptions core_policy_states.
Print Assumptions view_add_refuted.

(** Theorem C42. *)
From Coq Require Import List Arith ZArith Lia Bool.
From Verif Require Import Common BpttModel UtilProofs.
Import ListNotations.

Lemma last_true_spec : forall l, match last_true l with
  | None => forall j, j < length l -> nth j l false = false
  | Some k => k < length l /\ nth k l false = true /\ forall j, k < j -> j < length l -> nth j l false = false
  end.
Proof.
  induction l as [|b l IH]; cbn [last_true]; [intros j H; simpl in H; lia|].
  destruct (last_true l) as [k|].
  - destruct IH as (A & B & C). cbn [length]. split; [lia|]. split; auto. intros [|j] H1 H2; [lia|]. cbn [nth]. apply C; lia.
  - destruct b.
    + cbn [length]. split; [lia|]. split; auto. intros [|j] H1 H2; [lia|]. cbn [nth]. apply IH. lia.
    + intros [|j] H; auto. cbn [nth]. apply IH. cbn [length] in H. lia.
Qed.

Section Spec.
Context {A P : Type} (L : nat) (last absorbing : list bool) (xs : list A) (ps : list P) (zero : A) (dp : P).
Hypothesis L1 : 1 <= L.
Hypothesis len_a : length absorbing = length last.
Hypothesis len_x : length xs = length last.
Hypothesis len_p : length ps = length last.

Definition ended (j : nat) : bool := nth j last false || nth j absorbing false.

Lemma slice_nth : forall B (l : list B) a b j d, a + j < b -> b <= length l -> nth j (slice a b l) d = nth (a + j) l d.
Proof. intros. unfold slice. rewrite nth_firstn by lia. rewrite nth_skipn. reflexivity. Qed.

Lemma begin_spec : forall i, i < length last ->
  let b := begin_seq L last absorbing i in
  b <= i /\ i + 1 - b <= L /\
  (b = 0 \/ i + 1 - b = L \/ (0 < b /\ ended (b - 1) = true)) /\
  ((L <= i \/ forall j, j < i -> ended j = false) -> forall j, b <= j -> j < i -> ended j = false).
Proof.
  intros i Hi. cbv zeta. unfold begin_seq. set (b := i + 1 - L).
  destruct (Nat.eq_dec b 0) as [Z|NZ].
  - assert (E : forall l : list bool, length l = length last -> pyslice (Z.of_nat b - 1) i l = []).
    { intros l Hl. unfold pyslice. rewrite Z. replace (Z.of_nat 0 - 1)%Z with (-1)%Z by lia. cbn [Z.ltb].
      change (-1 <? 0)%Z with true. cbv iota.
      assert (S0 : i - Z.to_nat (Z.max 0 (-1 + Z.of_nat (length l))) = 0) by lia. unfold slice. rewrite S0. reflexivity. }
    rewrite !E by auto. cbn [combine map last_true]. rewrite Z. split; [lia|]. split; [lia|]. split; [auto|].
    intros [C|C] j H1 H2; [lia|auto].
  - assert (E : forall l : list bool, pyslice (Z.of_nat b - 1) i l = slice (b - 1) i l).
    { intros l. unfold pyslice. replace (Z.of_nat b - 1 <? 0)%Z with false by (symmetry; apply Z.ltb_ge; lia). f_equal. lia. }
    rewrite !E. set (la := map _ _).
    assert (SL : forall l : list bool, length l = length last -> length (slice (b - 1) i l) = L).
    { intros l Hl. unfold slice. rewrite firstn_length, skipn_length. lia. }
    assert (LA : length la = L) by (unfold la; rewrite map_length, combine_length, !SL by auto; lia).
    assert (NA : forall j, j < L -> nth j la false = ended (b - 1 + j)).
    { intros j Hj. unfold la. rewrite (map_nth_in _ _ _ _ _ false (false, false)) by (rewrite combine_length, !SL by auto; lia).
      rewrite combine_nth by (rewrite !SL; auto). cbn [fst snd]. rewrite !slice_nth by lia. reflexivity. }
    pose proof (last_true_spec la) as LT. destruct (last_true la) as [k|].
    + destruct LT as (K1 & K2 & K3). rewrite LA in *. split; [lia|]. split; [lia|]. split.
      * right. right. split; [lia|]. rewrite NA in K2 by auto. replace (b + k - 1) with (b - 1 + k) by lia. auto.
      * intros _ j H1 H2. specialize (K3 (j - (b - 1)) ltac:(lia) ltac:(lia)). rewrite NA in K3 by lia. replace (b - 1 + (j - (b - 1))) with j in K3 by lia. auto.
    + rewrite LA in *. split; [lia|]. split; [lia|]. split; [right; left; lia|].
      intros _ j H1 H2. specialize (LT (j - (b - 1)) ltac:(lia)). rewrite NA in LT by lia. replace (b - 1 + (j - (b - 1))) with j in LT by lia. auto.
Qed.

(** Row [i] is the padded block of consecutive samples [b .. i], with the policy state of
    sample [b], of length at most the truncation length. *)
Lemma row_spec : forall i, i < length last ->
  exists b seq_ h, row L last absorbing xs ps zero i = Some (seq_, h, i + 1 - b) /\ b <= i /\ i + 1 - b <= L /\ length seq_ = L /\
    h = nth b ps dp /\ (forall k, k < i + 1 - b -> nth k seq_ zero = nth (b + k) xs zero) /\ (forall k, i + 1 - b <= k -> nth k seq_ zero = zero) /\
    (b = 0 \/ i + 1 - b = L \/ (0 < b /\ ended (b - 1) = true)) /\
    ((L <= i \/ forall j, j < i -> ended j = false) -> forall j, b <= j -> j < i -> ended j = false).
Proof.
  intros i Hi. pose proof (begin_spec i Hi) as B. cbv zeta in B. unfold row. set (b := begin_seq L last absorbing i) in *.
  destruct B as (B1 & B2 & B3 & B4). exists b. rewrite (nth_error_nth' _ ps b dp) by lia.
  assert (SL : length (slice b (i + 1) xs) = i + 1 - b) by (unfold slice; rewrite firstn_length, skipn_length; lia).
  eexists _, _. split; [rewrite SL; reflexivity|]. split; auto. split; auto. split; [rewrite app_length, repeat_length; lia|]. split; auto.
  split; [|split; [|split; auto]].
  - intros k Hk. rewrite app_nth1 by lia. apply slice_nth; lia.
  - intros k Hk. rewrite app_nth2 by lia. apply nth_repeat.
Qed.
End Spec.

(** Sequences never contain an earlier episode end, except possibly in the first
    truncation_length - 1 rows (missing part, see the refutation below). *)
Theorem bptt_sequences_partial : forall A P L last absorbing (xs : list A) (ps : list P) zero dp i,
  1 <= L -> length absorbing = length last -> length xs = length last -> length ps = length last -> i < length last ->
  exists b seq_ h, row L last absorbing xs ps zero i = Some (seq_, h, i + 1 - b) /\ b <= i /\ i + 1 - b <= L /\ length seq_ = L /\
    h = nth b ps dp /\ (forall k, k < i + 1 - b -> nth k seq_ zero = nth (b + k) xs zero) /\ (forall k, i + 1 - b <= k -> nth k seq_ zero = zero) /\
    (b = 0 \/ i + 1 - b = L \/ (0 < b /\ nth (b - 1) last false || nth (b - 1) absorbing false = true)) /\
    ((L <= i \/ forall j, j < i -> nth j last false || nth j absorbing false = false) ->
       forall j, b <= j -> j < i -> nth j last false || nth j absorbing false = false).
Proof. intros A P L last absorbing xs ps zero dp i L1 La Lx Lp Hi. exact (row_spec L last absorbing xs ps zero dp L1 La Lx Lp i Hi). Qed.

(** In the first rows the slice [last[-1:i]] is empty and the cut is skipped: a sequence
    joins two episodes. *)
Theorem bptt_first_rows_refuted : exists (last absorbing : list bool) (xs ps : list nat) L i seq_ h len,
  length absorbing = length last /\ length xs = length last /\ length ps = length last /\ i < length last /\
  row L last absorbing xs ps 0 i = Some (seq_, h, len) /\ i + 1 - len < i /\ nth (i + 1 - len) last false = true /\ h = nth (i + 1 - len) ps 0.
Proof.
  exists [true; false; true], [true; false; true], [11; 12; 13], [21; 22; 23], 5, 1, [11; 12; 0; 0; 0], 21, 2.
  repeat split; simpl; auto.
Qed.

(** * Concrete cases *)
Example bptt_demo : row 3 [false; true; false; false; false; false] (repeat false 6) [1; 2; 3; 4; 5; 6] [11; 12; 13; 14; 15; 16] 0 4 = Some ([3; 4; 5], 13, 3)
  /\ row 3 [false; false; true; false; false; false] (repeat false 6) [1; 2; 3; 4; 5; 6] [11; 12; 13; 14; 15; 16] 0 4 = Some ([4; 5; 0], 14, 2).
Proof. split; reflexivity. Qed.

Print Assumptions bptt_sequences_partial.
Print Assumptions bptt_first_rows_refuted.

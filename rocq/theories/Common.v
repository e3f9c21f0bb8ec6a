(** Shared list and real-number helpers used by several models.
    Nothing here transcribes code of /repo; it is the vocabulary (array update,
    slices, finite sums) with which the transcriptions are written. *)
From Coq Require Import List Arith Lia Reals Lra Bool ZArith Permutation.
Import ListNotations.

(** Array assignment [l[i] = x]; [None] is Python's IndexError. *)
Fixpoint upd {A} (l : list A) (i : nat) (x : A) : option (list A) :=
  match l, i with
  | [], _ => None
  | _ :: t, O => Some (x :: t)
  | h :: t, S i' => match upd t i' x with Some t' => Some (h :: t') | None => None end
  end.

(** Total variant, used in specifications. *)
Fixpoint setnth {A} (l : list A) (i : nat) (x : A) : list A :=
  match l, i with
  | [], _ => []
  | _ :: t, O => x :: t
  | h :: t, S i' => h :: setnth t i' x
  end.

(** The last [n] elements of a list. *)
Definition lastn {A} (n : nat) (l : list A) : list A := skipn (length l - n) l.

(** Slice [l[a:b]] for non-negative [a], [b]. *)
Definition slice {A} (a b : nat) (l : list A) : list A := firstn (b - a) (skipn a l).

Fixpoint rsum (l : list R) : R :=
  match l with [] => 0%R | x :: t => (x + rsum t)%R end.

(** Monadic bind on [option]. *)
Definition obind {A B} (o : option A) (f : A -> option B) : option B :=
  match o with Some x => f x | None => None end.
Notation "x <- e ;; f" := (obind e (fun x => f))
  (at level 100, e at next level, right associativity).

Lemma upd_length : forall A (l l' : list A) i x, upd l i x = Some l' -> length l' = length l.
Proof.
  induction l as [|h t IH]; destruct i; simpl; intros x H; try discriminate.
  - inversion H; reflexivity.
  - destruct (upd t i x) eqn:E; [|discriminate]. inversion H; subst. simpl. erewrite IH; eauto.
Qed.

Lemma upd_Some : forall A (l : list A) i x, i < length l -> upd l i x = Some (setnth l i x).
Proof.
  induction l as [|h t IH]; destruct i; simpl; intros x H; try lia; auto.
  rewrite IH by lia. reflexivity.
Qed.

Lemma upd_None : forall A (l : list A) i x, length l <= i -> upd l i x = None.
Proof.
  induction l as [|h t IH]; destruct i; simpl; intros x H; try lia; auto.
  rewrite IH by lia. reflexivity.
Qed.

Lemma setnth_length : forall A (l : list A) i x, length (setnth l i x) = length l.
Proof. induction l; destruct i; simpl; intros; auto. Qed.

Lemma nth_setnth_eq : forall A (l : list A) i x d, i < length l -> nth i (setnth l i x) d = x.
Proof. induction l; destruct i; simpl; intros; try lia; auto. apply IHl; lia. Qed.

Lemma nth_setnth_neq : forall A (l : list A) i j x d, i <> j -> nth j (setnth l i x) d = nth j l d.
Proof. induction l; destruct i, j; simpl; intros; try lia; auto. Qed.

Lemma nth_error_setnth_eq : forall A (l : list A) i x, i < length l -> nth_error (setnth l i x) i = Some x.
Proof. induction l; destruct i; simpl; intros; try lia; auto. apply IHl; lia. Qed.

Lemma nth_error_setnth_neq : forall A (l : list A) i j x, i <> j -> nth_error (setnth l i x) j = nth_error l j.
Proof. induction l; destruct i, j; simpl; intros; try lia; auto. Qed.

Lemma setnth_split : forall A (l : list A) i x, i < length l ->
  setnth l i x = firstn i l ++ x :: skipn (S i) l.
Proof.
  induction l; destruct i; simpl; intros; try lia; auto. f_equal. rewrite IHl by lia. reflexivity.
Qed.

Lemma setnth_ge : forall A (l : list A) i x, length l <= i -> setnth l i x = l.
Proof. induction l; destruct i; simpl; intros; try lia; auto. f_equal. apply IHl; lia. Qed.

Lemma nth_error_nth' : forall A (l : list A) i d, i < length l -> nth_error l i = Some (nth i l d).
Proof. induction l; destruct i; simpl; intros; try lia; auto. apply IHl; lia. Qed.

Lemma skipn_S_nth : forall A (l : list A) i d, i < length l -> skipn i l = nth i l d :: skipn (S i) l.
Proof. induction l; destruct i; simpl; intros; try lia; auto. apply IHl; lia. Qed.

Lemma skipn_skipn' : forall A (l : list A) a b, skipn a (skipn b l) = skipn (b + a) l.
Proof.
  intros A l a b; revert l. induction b; intros; simpl; auto.
  destruct l; simpl; auto. rewrite skipn_nil. reflexivity.
Qed.

Lemma lastn_all : forall A n (l : list A), length l <= n -> lastn n l = l.
Proof. intros. unfold lastn. replace (length l - n) with 0 by lia. reflexivity. Qed.

Lemma lastn_length : forall A n (l : list A), length (lastn n l) = Nat.min n (length l).
Proof. intros. unfold lastn. rewrite skipn_length. lia. Qed.

Lemma lastn_app : forall A n (a b : list A),
  lastn n (lastn n a ++ b) = lastn n (a ++ b).
Proof.
  intros. unfold lastn. rewrite !app_length, skipn_length.
  rewrite !skipn_app, skipn_length, skipn_skipn'.
  f_equal.
  - f_equal. lia.
  - f_equal. lia.
Qed.

Lemma rsum_app : forall a b, rsum (a ++ b) = (rsum a + rsum b)%R.
Proof. induction a; simpl; intros; [lra|rewrite IHa; lra]. Qed.

Lemma rsum_map_scal : forall A (f : A -> R) c l, rsum (map (fun x => c * f x)%R l) = (c * rsum (map f l))%R.
Proof. induction l; simpl; [lra|rewrite IHl; lra]. Qed.

Lemma rsum_map_plus : forall A (f g : A -> R) l,
  rsum (map (fun x => f x + g x)%R l) = (rsum (map f l) + rsum (map g l))%R.
Proof. induction l; simpl; [lra|rewrite IHl; lra]. Qed.

Lemma rsum_map_ext : forall A (f g : A -> R) l,
  (forall x, In x l -> f x = g x) -> rsum (map f l) = rsum (map g l).
Proof. induction l; simpl; intros; auto. rewrite H by auto. rewrite IHl; auto. Qed.

Lemma rsum_map_const : forall A c (l : list A), rsum (map (fun _ => c) l) = (INR (length l) * c)%R.
Proof.
  induction l; simpl map; simpl rsum; [simpl; lra|]. rewrite IHl. simpl length. rewrite S_INR. lra.
Qed.

Lemma rsum_nonneg : forall l, (forall x, In x l -> 0 <= x)%R -> (0 <= rsum l)%R.
Proof.
  induction l; simpl; intros; [lra|].
  assert (0 <= a)%R by (apply H; auto). assert (0 <= rsum l)%R by (apply IHl; auto). lra.
Qed.

Lemma rsum_map_le : forall A (f g : A -> R) l,
  (forall x, In x l -> f x <= g x)%R -> (rsum (map f l) <= rsum (map g l))%R.
Proof.
  induction l; simpl; intros; [lra|].
  assert (f a <= g a)%R by auto.
  assert (rsum (map f l) <= rsum (map g l))%R by auto. lra.
Qed.

Lemma rsum_in_le : forall l x, (forall y, In y l -> 0 <= y)%R -> In x l -> (x <= rsum l)%R.
Proof.
  induction l as [|a l IHl]; simpl; intros x H E; [destruct E|].
  destruct E as [E|E]; subst.
  - assert (0 <= rsum l)%R by (apply rsum_nonneg; auto). lra.
  - assert (x <= rsum l)%R by (apply IHl; auto). assert (0 <= a)%R by auto. lra.
Qed.

Lemma rsum_perm : forall a b, Permutation a b -> rsum a = rsum b.
Proof. induction 1; simpl; lra. Qed.

Lemma rsum_flat_map : forall A (f : A -> list R) l,
  rsum (flat_map f l) = rsum (map (fun x => rsum (f x)) l).
Proof. induction l; simpl; auto. rewrite rsum_app, IHl. reflexivity. Qed.

Lemma nth_firstn : forall A (l : list A) k j d, j < k -> nth j (firstn k l) d = nth j l d.
Proof. induction l; destruct k, j; simpl; intros; try lia; auto. apply IHl; lia. Qed.

Lemma nth_skipn : forall A (l : list A) k j d, nth j (skipn k l) d = nth (k + j) l d.
Proof. induction l; destruct k; simpl; intros; auto; destruct j; auto. Qed.

Lemma nth_slice : forall A (l : list A) a b i d, a + i < b -> nth i (slice a b l) d = nth (a + i) l d.
Proof. intros. unfold slice. rewrite nth_firstn by lia. apply nth_skipn. Qed.

Lemma slice_length : forall A (l : list A) a b, length (slice a b l) = Nat.min (b - a) (length l - a).
Proof. intros. unfold slice. rewrite firstn_length, skipn_length. reflexivity. Qed.

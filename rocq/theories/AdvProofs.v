(** Lemmas for the advantage estimators. *)
From Coq Require Import List Arith Lia Reals Bool Lra.
From Verif Require Import Common AdvModel AdvSpec.
Import ListNotations.

Lemma gae_length : forall g lam l, length (gae g lam l) = length l.
Proof. induction l; simpl; auto. Qed.

Lemma mc_q_length : forall g q l, length (mc_q g q l) = length l.
Proof. induction l; simpl; auto. Qed.

Lemma to_end_cons : forall x t, exists r, to_end (x :: t) = x :: r.
Proof. intros. simpl. destruct (g_last x); eexists; reflexivity. Qed.

Lemma dsum_cons : forall c f x l, dsum c f (x :: l) = (f x + c * dsum c f l)%R.
Proof.
  intros. unfold dsum. cbn [length seq combine map rsum fst snd pow]. rewrite Rmult_1_l. f_equal.
  rewrite <- seq_shift.
  assert (E : forall (a : list nat) (b : list step), combine (map S a) b = map (fun p => (S (fst p), snd p)) (combine a b)).
  { induction a; intros [|? ?]; simpl; auto. f_equal; auto. }
  rewrite E, map_map. cbn [fst snd pow].
  rewrite <- (rsum_map_scal _ (fun p : nat * step => (c ^ fst p * f (snd p))%R)).
  apply rsum_map_ext. intros. ring.
Qed.

Lemma gae_skipn : forall g lam k l, skipn k (gae g lam l) = gae g lam (skipn k l).
Proof. induction k; intros [|x l]; auto. simpl. apply IHk. Qed.

Lemma mc_skipn : forall g q k l, skipn k (mc_q g q l) = mc_q g q (skipn k l).
Proof. induction k; intros [|x l]; auto. simpl. apply IHk. Qed.

Lemma gae_head : forall g lam x t, absorbing_is_last (x :: t) ->
  hd 0%R (gae g lam (x :: t)) = dsum (g * lam) (td_error g) (to_end (x :: t)).
Proof.
  intros g lam x t. revert x. induction t as [|y t IH]; intros x H; inversion H as [|? ? HX HT]; subst.
  - cbn [gae hd to_end]. rewrite orb_true_r. assert (E : to_end [x] = [x]) by (simpl; destruct (g_last x); auto).
    simpl. destruct (g_last x); unfold dsum, td_error; simpl; destruct (g_abs x); ring.
  - cbn [gae to_end]. rewrite orb_false_r. destruct (g_last x) eqn:L.
    + simpl. unfold dsum, td_error. simpl. destruct (g_abs x); ring.
    + specialize (IH y HT). cbn [hd]. change (if g_last y then [y] else y :: to_end t) with (to_end (y :: t)).
      rewrite dsum_cons. rewrite <- IH. unfold td_error. destruct (g_abs x); [discriminate HX; auto|].
      cbn [gae hd]. ring.
Qed.

Lemma boot_single : forall g x, boot_return g [x] = (g_r x + g * (if g_abs x then 0 else g_vn x))%R.
Proof. intros. unfold boot_return, dsum. simpl. ring. Qed.

Lemma boot_cons : forall g x y l, boot_return g (x :: y :: l) = (g_r x + g * boot_return g (y :: l))%R.
Proof.
  intros. unfold boot_return. rewrite dsum_cons. cbn [length]. 
  assert (E : forall A (z : step) (f : step -> A) (d : A) (w : step), match rev (z :: w :: l) with [] => d | u :: _ => f u end = match rev (w :: l) with [] => d | u :: _ => f u end).
  { intros. change (rev (z :: w :: l)) with (rev (w :: l) ++ [z]). destruct (rev (w :: l)) eqn:R; auto.
    exfalso. apply (f_equal (@length _)) in R. rewrite rev_length in R. discriminate. }
  rewrite (E R x (fun u => if g_abs u then 0%R else g_vn u) 0%R y). cbn [pow]. ring.
Qed.

Lemma to_end_nonempty : forall y t, to_end (y :: t) <> [].
Proof. intros. destruct (to_end_cons y t) as [r ->]. discriminate. Qed.

Lemma boot_to_end : forall g x y t, g_last x = false ->
  boot_return g (to_end (x :: y :: t)) = (g_r x + g * boot_return g (to_end (y :: t)))%R.
Proof.
  intros g x y t H. replace (to_end (x :: y :: t)) with (x :: to_end (y :: t)) by (simpl; rewrite H; auto).
  destruct (to_end_cons y t) as [r ->]. apply boot_cons.
Qed.

Lemma last_indep : forall A (l : list A) d d', l <> [] -> last l d = last l d'.
Proof. intros A l d d' H. destruct (exists_last H) as (z & w & ->). rewrite !last_last. reflexivity. Qed.

Lemma mc_head : forall g q x t, absorbing_is_last (x :: t) ->
  Forall (fun y => g_last y = true -> g_abs y = true) (removelast (x :: t)) ->
  q = g_vn (last (x :: t) x) ->
  hd q (mc_q g q (x :: t)) = boot_return g (to_end (x :: t)).
Proof.
  intros g q x t. revert x. induction t as [|y t IH]; intros x H L Q; inversion H as [|? ? HX HT]; subst.
  - simpl. destruct (g_last x); rewrite boot_single; destruct (g_abs x); simpl; ring.
  - change (removelast (x :: y :: t)) with (x :: removelast (y :: t)) in L. inversion L as [|? ? LX LT]; subst.
    assert (QE : g_vn (last (x :: y :: t) x) = g_vn (last (y :: t) y)).
    { f_equal. change (last (x :: y :: t) x) with (last (y :: t) x). apply last_indep. discriminate. }
    specialize (IH y HT LT QE). remember (g_vn (last (x :: y :: t) x)) as qq. cbn [mc_q hd].
    destruct (g_last x) eqn:E.
    + specialize (LX eq_refl). rewrite LX. replace (to_end (x :: y :: t)) with [x] by (simpl; rewrite E; auto).
      rewrite boot_single, LX. ring.
    + destruct (g_abs x) eqn:A; [discriminate HX; auto|]. rewrite boot_to_end by auto. rewrite <- IH. cbn [mc_q hd]. ring.
Qed.

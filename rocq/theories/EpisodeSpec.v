(** Specification vocabulary: cutting a sequence of samples into episodes. *)
From Coq Require Import List Arith Lia Bool.
Import ListNotations.

Section Split.
Context {A : Type} (last : A -> bool).

(** [split_episodes l = (complete, tail)]: the complete episodes of [l], each
    ending with its only [last] sample, and the unfinished rest. *)
Fixpoint split_episodes (l : list A) : list (list A) * list A :=
  match l with
  | [] => ([], [])
  | x :: t =>
      let (eps, tl) := split_episodes t in
      if last x then ([x] :: eps, tl)
      else match eps with
           | [] => ([], x :: tl)
           | e :: es => ((x :: e) :: es, tl)
           end
  end.

Definition complete (l : list A) : list (list A) := fst (split_episodes l).
Definition unfinished (l : list A) : list A := snd (split_episodes l).

Definition count_last (l : list A) : nat := length (filter last l).

(** What [split_episodes] means. *)
Definition is_episode (e : list A) : Prop :=
  exists b x, e = b ++ [x] /\ last x = true /\ Forall (fun y => last y = false) b.

Lemma split_concat : forall l, concat (complete l) ++ unfinished l = l.
Proof.
  unfold complete, unfinished. induction l as [|x t IH]; simpl; auto.
  destruct (split_episodes t) as [eps tl]; simpl in *.
  destruct (last x); simpl; [f_equal; auto|].
  destruct eps; simpl in *; f_equal; auto.
Qed.

Lemma split_unfinished : forall l, Forall (fun y => last y = false) (unfinished l).
Proof.
  unfold unfinished. induction l as [|x t IH]; simpl; auto.
  destruct (split_episodes t) as [eps tl] eqn:E; simpl in *.
  destruct (last x) eqn:Lx; simpl; auto. destruct eps; simpl; auto.
Qed.

Lemma split_complete : forall l, Forall is_episode (complete l).
Proof.
  unfold complete. induction l as [|x t IH]; simpl; auto.
  destruct (split_episodes t) as [eps tl] eqn:E; simpl in *.
  destruct (last x) eqn:Lx; simpl.
  - constructor; auto. exists [], x. auto.
  - destruct eps; simpl; auto. inversion IH; subst. constructor; auto.
    destruct H1 as (b & y & -> & Hy & Hb). exists (x :: b), y. repeat split; auto.
Qed.

Lemma count_complete : forall l, length (complete l) = count_last l.
Proof.
  unfold complete, count_last. induction l as [|x t IH]; simpl; auto.
  destruct (split_episodes t) as [eps tl]; simpl in *.
  destruct (last x); simpl; auto. destruct eps; simpl in *; auto.
Qed.

Lemma count_last_app : forall a b, count_last (a ++ b) = count_last a + count_last b.
Proof. intros. unfold count_last. rewrite filter_app, app_length. reflexivity. Qed.

Lemma split_app_last : forall a b x, last x = true ->
  split_episodes (a ++ x :: b) =
  (complete (a ++ [x]) ++ complete b, unfinished b).
Proof.
  unfold complete, unfinished. induction a as [|y t IH]; simpl; intros b x Hx.
  - rewrite Hx. destruct (split_episodes b); simpl. reflexivity.
  - rewrite (IH b x Hx).
    assert (NE : fst (split_episodes (t ++ [x])) <> []).
    { pose proof (count_complete (t ++ [x])). unfold complete in H.
      rewrite count_last_app in H. unfold count_last in H at 2. simpl in H. rewrite Hx in H. simpl in H.
      intros E. rewrite E in H. simpl in H. lia. }
    destruct (split_episodes (t ++ [x])) as [e1 t1]; simpl in *.
    destruct (last y); simpl; auto. destruct e1; simpl; auto. congruence.
Qed.

Lemma split_snoc_last : forall a x, last x = true ->
  complete (a ++ [x]) = complete a ++ [unfinished a ++ [x]] /\ unfinished (a ++ [x]) = [].
Proof.
  unfold complete, unfinished. induction a as [|y t IH]; simpl; intros x Hx.
  - rewrite Hx. auto.
  - destruct (IH x Hx) as [E1 E2]. destruct (split_episodes (t ++ [x])) as [e1 t1]; simpl in *. subst.
    destruct (split_episodes t) as [e t2]; simpl in *. destruct (last y); simpl; auto.
    destruct e; simpl; auto.
Qed.

Lemma split_snoc_notlast : forall a x, last x = false ->
  complete (a ++ [x]) = complete a /\ unfinished (a ++ [x]) = unfinished a ++ [x].
Proof.
  unfold complete, unfinished. induction a as [|y t IH]; simpl; intros x Hx.
  - rewrite Hx. auto.
  - destruct (IH x Hx) as [E1 E2]. destruct (split_episodes (t ++ [x])) as [e1 t1]; simpl in *. subst.
    destruct (split_episodes t) as [e t2]; simpl in *. destruct (last y); simpl; auto.
    destruct e; simpl; auto.
Qed.

End Split.

(** Lemmas about the value-based policies. *)
From Coq Require Import List Arith Lia Reals Bool Lra Psatz.
From Verif Require Import Common ParamModel PolicyModel PolicySpec SumTreeProofs.
Import ListNotations.

Lemma qmax_spec : forall q, q <> [] -> In (qmax q) q /\ forall z, In z q -> (z <= qmax q)%R.
Proof. intros [|x q] H; [congruence|]. unfold qmax. apply fold_Rmax_spec. Qed.

Lemma qmax_nth : forall q, q <> [] -> exists a, a < length q /\ nth a q 0%R = qmax q.
Proof.
  intros q H. destruct (qmax_spec q H) as [A _]. apply (In_nth _ _ 0%R) in A. destruct A as (a & L & E). eauto.
Qed.

Lemma argmaxs_In : forall q a, q <> [] -> In a (argmaxs q) <-> maximal q a.
Proof.
  intros q a NE. unfold argmaxs. rewrite filter_In, in_seq. destruct (qmax_spec q NE) as [I M].
  split.
  - intros [H E]. destruct (Req_EM_T (nth a q 0%R) (qmax q)) as [Q|]; [|discriminate].
    split; [lia|]. intros b Hb. rewrite Q. apply M. apply nth_In. auto.
  - intros [H MX]. split; [lia|]. destruct (Req_EM_T (nth a q 0%R) (qmax q)) as [|Q]; auto. exfalso. apply Q.
    apply Rle_antisym; [apply M; apply nth_In; auto|].
    destruct (qmax_nth q NE) as (b & L & <-). auto.
Qed.

Lemma argmaxs_nonempty : forall q, q <> [] -> argmaxs q <> [].
Proof.
  intros q NE E. destruct (qmax_nth q NE) as (a & L & Q).
  assert (In a (argmaxs q)). { unfold argmaxs. apply filter_In. split; [apply in_seq; lia|]. rewrite Q. destruct (Req_EM_T _ _); congruence. }
  rewrite E in H. destruct H.
Qed.

Lemma argmaxs_NoDup : forall q, NoDup (argmaxs q).
Proof. intros. apply NoDup_filter, seq_NoDup. Qed.

Lemma argmaxs_range : forall q a, In a (argmaxs q) -> a < length q.
Proof. intros q a H. apply filter_In in H. destruct H as [H _]. apply in_seq in H. lia. Qed.

Lemma existsb_In : forall a m, existsb (Nat.eqb a) m = true <-> In a m.
Proof.
  intros. rewrite existsb_exists. split.
  - intros (x & H & E). apply Nat.eqb_eq in E. subst. auto.
  - intros H. exists a. split; auto. apply Nat.eqb_refl.
Qed.

Lemma nth_setnth : forall (l : list R) i x j, i < length l -> nth j (setnth l i x) 0%R = if j =? i then x else nth j l 0%R.
Proof.
  induction l as [|a l IH]; intros i x j H; [simpl in H; lia|]. destruct i, j; simpl; auto.
  apply IH. simpl in H. lia.
Qed.

Lemma setnth_length : forall (l : list R) i x, length (setnth l i x) = length l.
Proof. induction l; destruct i; simpl; auto. Qed.

Lemma fold_add : forall (c : R) m l, NoDup m -> (forall a, In a m -> a < length l) ->
  let r := fold_left (fun l a => setnth l a (nth a l 0 + c)%R) m l in
  length r = length l /\ forall a, nth a r 0%R = if existsb (Nat.eqb a) m then (nth a l 0 + c)%R else nth a l 0%R.
Proof.
  intros c. induction m as [|b m IH]; intros l ND HL; [simpl; auto|]. inversion ND; subst.
  cbn [fold_left]. destruct (IH (setnth l b (nth b l 0 + c)%R) H2) as [A B].
  { intros a Ha. rewrite setnth_length. apply HL. right; auto. }
  split; [rewrite A; apply setnth_length|]. intros a. rewrite B, nth_setnth by (apply HL; left; auto).
  cbn [existsb]. destruct (a =? b) eqn:E.
  - apply Nat.eqb_eq in E. subst. simpl. destruct (existsb (Nat.eqb b) m) eqn:Q; auto.
    apply existsb_In in Q. contradiction.
  - simpl. reflexivity.
Qed.

Lemma rsum_filter : forall (f : nat -> bool) c l,
  rsum (map (fun a => if f a then c else 0%R) l) = (INR (length (filter f l)) * c)%R.
Proof.
  intros f c. induction l as [|a l IH]; [simpl; ring|]. cbn [map rsum filter]. rewrite IH.
  destruct (f a); [cbn [length]; rewrite S_INR|]; ring.
Qed.

Lemma eg_prob_eq : forall q eps a, eg_prob q eps a = 
  (eps / INR (length q) + if existsb (Nat.eqb a) (argmaxs q) then (1 - eps) / INR (length (argmaxs q)) else 0)%R.
Proof. intros. unfold eg_prob. destruct (existsb _ _); lra. Qed.

Lemma len_pos : forall A (l : list A), l <> [] -> (0 < INR (length l))%R.
Proof. intros A [|a l] H; [congruence|]. apply lt_0_INR. simpl. lia. Qed.

Lemma eg_sum : forall q eps, q <> [] -> rsum (map (eg_prob q eps) (seq 0 (length q))) = 1%R.
Proof.
  intros q eps NE. pose proof (len_pos _ _ NE) as LP. pose proof (len_pos _ _ (argmaxs_nonempty q NE)) as MP.
  rewrite (rsum_map_ext _ _ (fun a => eps / INR (length q) + (if existsb (Nat.eqb a) (argmaxs q) then (1 - eps) / INR (length (argmaxs q)) else 0))%R).
  2:{ intros; apply eg_prob_eq. }
  rewrite (rsum_map_plus _ (fun _ => eps / INR (length q))%R), rsum_map_const, seq_length.
  rewrite rsum_filter.
  assert (E : length (filter (fun a => existsb (Nat.eqb a) (argmaxs q)) (seq 0 (length q))) = length (argmaxs q)).
  { unfold argmaxs at 2. f_equal. apply filter_ext_in. intros a Ha.
    set (g := fun a => if Req_EM_T (nth a q 0%R) (qmax q) then true else false).
    destruct (existsb (Nat.eqb a) (argmaxs q)) eqn:Q.
    - apply existsb_In in Q. unfold argmaxs in Q. apply filter_In in Q. symmetry. apply Q.
    - destruct (Req_EM_T (nth a q 0%R) (qmax q)) as [R|]; auto.
      assert (X : existsb (Nat.eqb a) (argmaxs q) = true).
      { apply existsb_In. unfold argmaxs. apply filter_In. split; auto. rewrite R. destruct (Req_EM_T _ _); congruence. }
      congruence. }
  rewrite E. field. lra.
Qed.

(** ** Boltzmann *)
Lemma bz_exps_length : forall q b, length (bz_exps q b) = length q.
Proof. intros. unfold bz_exps. rewrite !map_length. reflexivity. Qed.

Lemma bz_exps_eq : forall q b, exists c, (0 < c)%R /\ bz_exps q b = map (fun x => c * exp (b * x))%R q.
Proof.
  intros q b. exists (exp (- qmax (map (fun x => x * b)%R q))). split; [apply exp_pos|].
  unfold bz_exps. rewrite map_map. apply map_ext. intros x. rewrite <- exp_plus. f_equal. ring.
Qed.

Lemma exps_pos : forall q b, q <> [] -> (0 < rsum (map (fun x => exp (b * x)) q))%R.
Proof.
  intros [|x q] b H; [congruence|]. cbn [map rsum]. pose proof (exp_pos (b * x)).
  assert (0 <= rsum (map (fun x => exp (b * x)) q))%R.
  { apply rsum_nonneg. intros y Hy. apply in_map_iff in Hy. destruct Hy as (z & <- & _). left. apply exp_pos. }
  lra.
Qed.

Lemma bz_softmax : forall q b a, q <> [] -> a < length q -> bz_prob q b a = softmax q b a.
Proof.
  intros q b a NE Ha. unfold bz_prob, softmax. destruct (bz_exps_eq q b) as (c & C & ->).
  rewrite (rsum_map_scal _ (fun x => exp (b * x)) c).
  rewrite (nth_indep _ 0%R (c * exp (b * 0))%R) by (rewrite map_length; auto).
  rewrite (map_nth (fun x => c * exp (b * x))%R q 0%R a). pose proof (exps_pos q b NE). field. lra.
Qed.

Lemma rsum_div : forall (l : list R) c, rsum (map (fun e => e / c)%R l) = (rsum l / c)%R.
Proof. intros l c. induction l as [|a l IH]; simpl; [unfold Rdiv; ring|rewrite IH; unfold Rdiv; ring]. Qed.

Lemma rsum_map_seq : forall (f : R -> R) q, rsum (map f q) = rsum (map (fun a => f (nth a q 0%R)) (seq 0 (length q))).
Proof.
  intros f q. f_equal. apply nth_ext with (d := f 0%R) (d' := f 0%R); [rewrite !map_length, seq_length; auto|].
  intros i Hi. rewrite map_length in Hi. rewrite map_nth.
  rewrite (nth_indep (map (fun a => f (nth a q 0%R)) (seq 0 (length q))) _ (f (nth 0 q 0%R))) by (rewrite map_length, seq_length; auto).
  rewrite (map_nth (fun a => f (nth a q 0%R)) (seq 0 (length q)) 0 i), seq_nth by auto. reflexivity.
Qed.

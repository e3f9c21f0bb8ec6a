(** Theorems about TorchApproximator.fit (C77). *)
From Coq Require Import List Arith Lia Reals Lra Bool ZArith Permutation.
From Verif Require Import Common UtilModel UtilProps PpoModel PpoProps DqnModel TorchModel.
Import ListNotations.
Local Open Scope nat_scope.

(** * Splitting *)

Lemma ceilZ_spec : forall x, (x <= IZR (ceilZ x) < x + 1)%R.
Proof.
  intros x. unfold ceilZ. rewrite opp_IZR. destruct (base_Int_part (- x)) as [A B]. lra.
Qed.

(** The training set is the first part of the data and is never empty when there are
    data; it has the requested share, rounded up. The rest is the validation set. *)
Theorem torch_fit_split : forall n split, (0 < split <= 1)%R ->
  (INR n * split <= INR (train_len n split) < INR n * split + 1)%R /\ train_len n split <= n /\
  (1 <= n -> 1 <= train_len n split) /\ (split = 1%R -> train_len n split = n).
Proof.
  intros n split H. unfold train_len. pose proof (ceilZ_spec (INR n * split)) as C. pose proof (pos_INR n) as P.
  assert (N0 : (0 <= INR n * split)%R) by (apply Rmult_le_pos; lra).
  assert (Z0 : (0 <= ceilZ (INR n * split))%Z). { apply le_IZR. lra. }
  assert (E : INR (Z.to_nat (ceilZ (INR n * split))) = IZR (ceilZ (INR n * split))) by (rewrite INR_IZR_INZ, Z2Nat.id; auto).
  split; [rewrite E; lra|].
  assert (U : Z.to_nat (ceilZ (INR n * split)) <= n).
  { assert (L : (ceilZ (INR n * split) < Z.of_nat n + 1)%Z).
    { apply lt_IZR. rewrite plus_IZR, <- INR_IZR_INZ. assert (INR n * split <= INR n)%R by nra. lra. }
    lia. }
  split; auto. split.
  - intros Hn. assert (0 < INR n)%R by (apply lt_0_INR; lia). assert (0 < INR n * split)%R by nra.
    assert (0 < ceilZ (INR n * split))%Z by (apply lt_IZR; lra). lia.
  - intros ->. rewrite Rmult_1_r in *. apply Nat.le_antisymm; auto. apply INR_le. rewrite E. lra.
Qed.

Example torch_fit_split_demo : train_len 5 (1 / 2) = 3.
Proof.
  destruct (torch_fit_split 5 (1/2)) as (A & B & _); [lra|]. replace (INR 5) with 5%R in A by (simpl; lra).
  assert (H1 : 2 < train_len 5 (1/2)). { apply INR_lt. replace (INR 2) with 2%R by (simpl; lra). lra. }
  assert (H2 : train_len 5 (1/2) < 4). { apply INR_lt. replace (INR 4) with 4%R by (simpl; lra). lra. }
  lia.
Qed.

(** * Sample weights *)

(** With sample weights the loss is the weighted average of the sample losses: only the
    ratios of the weights matter, equal weights give the mean, samples of weight zero do
    not count, and with non-negative weights the value lies between the smallest and the
    largest sample loss. *)
Theorem torch_weighted_loss : forall lw v, weighted_loss lw = Some v ->
  (forall c, c <> 0%R -> weighted_loss (map (fun p => (fst p, c * snd p)%R) lw) = Some v) /\
  (forall w, (forall p, In p lw -> snd p = w) -> v = tmean (map fst lw)) /\
  (forall l, weighted_loss ((l, 0%R) :: lw) = Some v) /\
  (forall lo hi, (forall p, In p lw -> 0 <= snd p /\ lo <= fst p <= hi)%R -> (lo <= v <= hi)%R).
Proof.
  intros lw v H. unfold weighted_loss in *. destruct (Req_EM_T (rsum (map snd lw)) 0) as [E|E]; [discriminate|].
  assert (Hv : v = (rsum (map (fun p => fst p * snd p) lw) / rsum (map snd lw))%R) by congruence. clear H.
  split; [|split; [|split]].
  - intros c Hc. rewrite !map_map. cbn [fst snd].
    rewrite (rsum_map_scal _ (fun x => snd x) c lw).
    rewrite (rsum_map_ext _ (fun x => fst x * (c * snd x))%R (fun x => c * (fst x * snd x))%R) by (intros; ring).
    rewrite (rsum_map_scal _ (fun x => fst x * snd x)%R c lw).
    destruct (Req_EM_T (c * rsum (map (fun x => snd x) lw)) 0) as [Z|Z].
    + exfalso. apply Rmult_integral in Z. change (fun x : R * R => snd x) with (@snd R R) in Z. tauto.
    + f_equal. rewrite Hv. change (fun x : R * R => snd x) with (@snd R R) in *. field. split; auto.
  - intros w Hw. assert (E1 : rsum (map snd lw) = (INR (length lw) * w)%R).
    { rewrite <- rsum_map_const. apply rsum_map_ext. auto. }
    assert (E2 : rsum (map (fun p => fst p * snd p)%R lw) = (w * rsum (map fst lw))%R).
    { rewrite <- rsum_map_scal. apply rsum_map_ext. intros x Hx. rewrite (Hw x Hx). ring. }
    rewrite Hv, E2, E1. rewrite E1 in E. unfold tmean. rewrite map_length. field. split; intros Z; apply E; rewrite Z; ring.
  - intros l. cbn [map rsum fst snd]. rewrite Rplus_0_l. destruct (Req_EM_T _ 0); [contradiction|].
    f_equal. rewrite Hv. f_equal. ring.
  - intros lo hi HB. assert (P : (0 < rsum (map snd lw))%R).
    { assert (0 <= rsum (map snd lw))%R. { apply rsum_nonneg. intros x Hx. apply in_map_iff in Hx. destruct Hx as (p & <- & Hp). apply HB; auto. }
      lra. }
    assert (L : (lo * rsum (map snd lw) <= rsum (map (fun p => fst p * snd p)%R lw))%R).
    { rewrite <- rsum_map_scal. apply rsum_map_le. intros p Hp. destruct (HB p Hp). apply Rmult_le_compat_r; lra. }
    assert (U : (rsum (map (fun p => fst p * snd p)%R lw) <= hi * rsum (map snd lw))%R).
    { rewrite <- rsum_map_scal. apply rsum_map_le. intros p Hp. destruct (HB p Hp). apply Rmult_le_compat_r; lra. }
    rewrite Hv. split.
    + apply Rmult_le_reg_r with (rsum (map snd lw)); auto. unfold Rdiv. rewrite Rmult_assoc, Rinv_l by auto. lra.
    + apply Rmult_le_reg_r with (rsum (map snd lw)); auto. unfold Rdiv. rewrite Rmult_assoc, Rinv_l by auto. lra.
Qed.

Example torch_weighted_loss_demo : weighted_loss [(1, 3); (5, 1)]%R = Some 2%R.
Proof.
  unfold weighted_loss. cbn [map rsum fst snd]. destruct (Req_EM_T _ 0); [exfalso; lra|]. f_equal. field.
Qed.

(** * Epochs *)

Section Fit.
Context {N Row : Type}.
Variable d : Row.
Variable step : N -> list Row -> N.
Variable loss : N -> list Row -> option R.
Variable set_mode : bool -> N -> N.
Variable reinit : N -> N.

Notation fit := (tfit d step loss set_mode reinit).
Notation floop := (fit_loop d step loss).
Notation fepoch := (fit_epoch step loss).
Notation fbatches := (fit_batches d).

(** the network handed to the first epoch *)
Definition start (reinitialize dropout : bool) (n : N) : N :=
  let n1 := if reinitialize then reinit n else n in if dropout then set_mode true n1 else n1.

Lemma epoch_net : forall bl n acc, fst (fold_left (fun st b => (step (fst st) b, snd st ++ [loss (fst st) b])) bl (n, acc)) = fold_left step bl n.
Proof. induction bl; intros; auto. cbn [fold_left fst snd]. apply IHbl. Qed.

Section Run.
Variables (bs : nat) (perms : nat -> list nat) (train val : list Row) (n0 : N).

(** the network after [k] epochs, and the loss watched after epoch [k] (counted from 0) *)
Fixpoint net (k : nat) : N :=
  match k with O => n0 | S k' => fold_left step (fbatches bs (perms k') train) (net k') end.
Definition epoch_loss (k : nat) : option R := omean (snd (fepoch (fbatches bs (perms k) train) (net k))).
Definition watched (k : nat) : option R := match val with [] => epoch_loss k | _ => loss (net (S k)) val end.

(** the control part of the loop *)
Fixpoint es (fuel : nat) (eps : R) (patience : nat) (max : option nat) (best : option R) (pc ec : nat) : option nat :=
  if andb (Nat.ltb pc patience) (match max with None => true | Some m => Nat.ltb ec m end) then
    match fuel with
    | O => None
    | S f => if improves best (watched ec) eps then es f eps patience max (watched ec) 0 (S ec) else es f eps patience max best (S pc) (S ec)
    end
  else Some ec.

Lemma floop_es : forall fuel eps patience max last best pc ec,
  floop fuel bs perms train val eps patience max (net ec) last best pc ec =
  match es fuel eps patience max best pc ec with
  | None => None
  | Some e => Some (net e, e, if Nat.eqb e ec then last else epoch_loss (e - 1))
  end.
Proof.
  assert (GE : forall fuel eps patience max best pc ec e, es fuel eps patience max best pc ec = Some e -> ec <= e).
  { induction fuel; intros eps patience max best pc ec e; cbn [es]; destruct (andb _ _); intros H; try discriminate.
    - inversion H; auto.
    - destruct (improves _ _ _); apply IHfuel in H; lia.
    - inversion H; auto. }
  induction fuel; intros eps patience max last best pc ec; cbn [fit_loop es];
    destruct (andb _ _) eqn:C; auto; try (rewrite Nat.eqb_refl; reflexivity).
  assert (EN : fst (fepoch (fbatches bs (perms ec) train) (net ec)) = net (S ec)) by (unfold fit_epoch; apply epoch_net).
  assert (EW : (match val with [] => omean (snd (fepoch (fbatches bs (perms ec) train) (net ec)))
      | _ => loss (fst (fepoch (fbatches bs (perms ec) train) (net ec))) val end) = watched ec).
  { unfold watched, epoch_loss. rewrite EN. reflexivity. }
  cbv zeta. rewrite EW, EN.
  assert (FX : forall best pc, match es fuel eps patience max best pc (S ec) with
     | None => None | Some e => Some (net e, e, if Nat.eqb e (S ec) then epoch_loss ec else epoch_loss (e - 1)) end =
     match es fuel eps patience max best pc (S ec) with
     | None => None | Some e => Some (net e, e, if Nat.eqb e ec then last else epoch_loss (e - 1)) end).
  { intros b p. destruct (es fuel eps patience max b p (S ec)) as [e|] eqn:E; auto. apply GE in E.
    destruct (Nat.eqb_spec e ec); [lia|]. destruct (Nat.eqb_spec e (S ec)); auto. subst. replace (S ec - 1) with ec by lia. reflexivity. }
  fold (epoch_loss ec). destruct (improves best (watched ec) eps); rewrite IHfuel; apply FX.
Qed.

Lemma ffor_net : forall k ec last,
  fit_for d step loss k ec bs perms train (net ec) last = (net (ec + k), if Nat.eqb k 0 then last else epoch_loss (ec + k - 1)).
Proof.
  induction k; intros ec last; cbn [fit_for].
  - rewrite Nat.add_0_r. reflexivity.
  - assert (EN : fst (fepoch (fbatches bs (perms ec) train) (net ec)) = net (S ec)) by (unfold fit_epoch; apply epoch_net).
    cbv zeta. rewrite EN. fold (epoch_loss ec). rewrite IHk. replace (S ec + k) with (ec + S k) by lia. f_equal.
    destruct k; cbn [Nat.eqb]; [f_equal; lia|reflexivity].
Qed.
End Run.

Lemma fit_cases : forall fuel bs reinitialize dropout perms rows n_epochs epsilon patience split n last n' e last',
  fit fuel bs reinitialize dropout perms rows n_epochs epsilon patience split n last = FDone n' e last' ->
  (0 < split <= 1)%R /\
  let tl := train_len (length rows) split in
  let train := firstn tl rows in let val := skipn tl rows in
  let s := start reinitialize dropout n in
  n' = (if dropout then set_mode false (net bs perms train s e) else net bs perms train s e) /\
  last' = (if Nat.eqb e 0 then last else epoch_loss bs perms train s (e - 1)) /\
  match epsilon with
  | None => e = match n_epochs with None => 1 | Some k => k end
  | Some eps => es bs perms train val s fuel eps patience n_epochs None 0 0 = Some e
  end.
Proof.
  intros fuel bs reinitialize dropout perms rows n_epochs epsilon patience split n last n' e last' H.
  unfold tfit in H. destruct (Rlt_dec 0 split); [|discriminate]. destruct (Rle_dec split 1); [|discriminate].
  split; [lra|]. intros tl train val s. change (if dropout then set_mode true (if reinitialize then reinit n else n) else (if reinitialize then reinit n else n)) with s in H.
  fold tl in H. fold train val in H. destruct epsilon as [eps|].
  - change s with (net bs perms train s 0) in H. rewrite floop_es in H. cbn [net] in H.
    destruct (es bs perms train val s fuel eps patience n_epochs None 0 0) as [e1|] eqn:E; [|discriminate].
    inversion H; subst e1 n' last'. auto.
  - change s with (net bs perms train s 0) in H. rewrite ffor_net in H. cbn [net fst snd] in H.
    inversion H; subst e n' last'. auto.
Qed.

Lemma net_steps : forall bs perms train s e, 
  (forall k, k < e -> bs <> 0 -> Permutation (perms k) (seq 0 (length train))) ->
  exists ep, length ep = e /\ net bs perms train s e = fold_left step (concat ep) s /\
    forall bl, In bl ep -> Permutation (concat bl) train /\
      (bs = 0 -> bl = [train]) /\
      (bs <> 0 -> length bl = minibatch_number (length train) bs /\ forall b, In b bl -> 1 <= length b <= bs).
Proof.
  intros bs perms train s e HP. exists (map (fun k => fbatches bs (perms k) train) (seq 0 e)).
  split; [rewrite map_length; apply seq_length|]. split.
  - clear HP. induction e; [reflexivity|]. rewrite seq_S, map_app, concat_app, fold_left_app. cbn [map concat]. rewrite app_nil_r.
    cbn [net]. rewrite IHe. reflexivity.
  - intros bl Hin. apply in_map_iff in Hin. destruct Hin as (k & <- & Hk). apply in_seq in Hk. unfold fit_batches.
    destruct (Nat.ltb_spec 0 bs) as [B|B].
    + destruct (minibatches_partition _ d bs (perms k) [train] (length train)) as (idxs & EM & CC & N1 & N2 & LI & PP); auto.
      { discriminate. } { intros a [<-|[]]; auto. } { apply HP; lia. }
      assert (LN : length idxs = minibatch_number (length train) bs).
      { apply (f_equal (@length _)) in EM. rewrite map_length in EM. rewrite <- EM. unfold minibatches. rewrite map_length, seq_length. reflexivity. }
      unfold row_batches. split; [apply (PP 0 train); reflexivity|]. split; [lia|]. intros _.
      split; [rewrite EM, !map_length; auto|].
      intros b Hin. rewrite EM, map_map in Hin. apply in_map_iff in Hin. destruct Hin as (idx & <- & Hin).
      cbn [map nth]. rewrite map_length. apply (In_nth _ _ []) in Hin. destruct Hin as (i & Hi & <-).
      rewrite LI by auto. destruct (Nat.eqb (S i) (length idxs)) eqn:E; [|lia]. apply Nat.eqb_eq in E. nia.
    + split; [cbn [concat]; rewrite app_nil_r; auto|]. split; auto. lia.
Qed.

(** A call of fit that returns has made its epochs and nothing else: every epoch goes
    once through the training rows (in minibatches of at most the batch size, or as one
    batch), there is one optimizer step per batch, and no validation row is part of a
    batch. Without early stopping there are exactly [n_epochs] epochs (one by default);
    with it at most that many. *)
Theorem torch_fit_epochs : forall fuel bs reinitialize dropout perms rows n_epochs epsilon patience split n last n' e last',
  fit fuel bs reinitialize dropout perms rows n_epochs epsilon patience split n last = FDone n' e last' ->
  let train := firstn (train_len (length rows) split) rows in
  (forall k, k < e -> bs <> 0 -> Permutation (perms k) (seq 0 (length train))) ->
  (epsilon = None -> e = match n_epochs with None => 1 | Some k => k end) /\
  (forall m, n_epochs = Some m -> e <= m) /\
  exists ep, length ep = e /\
    n' = (let x := fold_left step (concat ep) (start reinitialize dropout n) in if dropout then set_mode false x else x) /\
    forall bl, In bl ep -> Permutation (concat bl) train /\
      (bs = 0 -> bl = [train]) /\
      (bs <> 0 -> length bl = minibatch_number (length train) bs /\ forall b, In b bl -> 1 <= length b <= bs).
Proof.
  intros fuel bs reinitialize dropout perms rows n_epochs epsilon patience split n last n' e last' H train HP.
  apply fit_cases in H. destruct H as (Hs & Hn & Hl & He). cbv zeta in Hn, He. fold train in Hn, He.
  split; [intros ->; auto|]. split.
  - intros m ->. destruct epsilon as [eps|]; [|lia]. revert He.
    assert (A : forall fuel best pc ec, ec <= m -> es bs perms train (skipn (train_len (length rows) split) rows) (start reinitialize dropout n) fuel eps patience (Some m) best pc ec = Some e -> e <= m).
    { induction fuel0 as [|fuel0 IHf]; intros best pc ec L; cbn [es]; destruct (Nat.ltb_spec ec m); destruct (Nat.ltb pc patience); cbn [andb]; try discriminate;
        try (intros E; inversion E; lia). destruct (improves _ _ _); apply IHf; lia. }
    apply A. lia.
  - destruct (net_steps bs perms train (start reinitialize dropout n) e HP) as (ep & A & B & C).
    exists ep. split; auto. split; auto. rewrite Hn, B. reflexivity.
Qed.

(** [x] is lower than [b] by more than [eps]; None is infinity for [b], not finite for [x] *)
Definition gain (eps : R) (b x : option R) : Prop :=
  match x with None => False | Some x => match b with None => True | Some b => (eps < b - x)%R end end.

Lemma improves_gain : forall b x eps, improves b x eps = true <-> gain eps b x.
Proof.
  intros [b|] [x|] eps; simpl; try tauto; try (split; [discriminate|tauto]).
  destruct (Rlt_dec eps (b - x)); split; auto; discriminate.
Qed.

(** Early stopping. When fit returns before its bound on the epochs, the last [patience]
    epochs have not lowered the watched loss (validation loss, or training loss without
    validation rows) by more than epsilon below the best one. And it did not return too
    early: after every earlier epoch, one of the last [patience] epochs had set a new
    record. *)
Theorem torch_early_stopping : forall fuel bs reinitialize dropout perms rows n_epochs eps patience split n last n' e last',
  fit fuel bs reinitialize dropout perms rows n_epochs (Some eps) patience split n last = FDone n' e last' ->
  let l := watched bs perms (firstn (train_len (length rows) split) rows) (skipn (train_len (length rows) split) rows) (start reinitialize dropout n) in
  (n_epochs = Some e \/
   exists j, j + patience = e /\ (j = 0 \/ l (j - 1) <> None) /\
     forall i, j <= i < e -> ~ gain eps (if Nat.eqb j 0 then None else l (j - 1)) (l i)) /\
  ((0 <= eps)%R -> forall e', patience <= e' < e ->
     exists i x, e' - patience <= i < e' /\ l i = Some x /\ forall k y, k < i -> l k = Some y -> (x < y)%R).
Proof.
  intros fuel bs reinitialize dropout perms rows n_epochs eps patience split n last n' e last' H l.
  apply fit_cases in H. destruct H as (_ & _ & _ & He). cbv zeta in He.
  set (train := firstn _ rows) in *. set (val := skipn _ rows) in *. set (s := start reinitialize dropout n) in *.
  assert (A : forall fuel j best pc ec, j + pc = ec -> best = (if Nat.eqb j 0 then None else l (j - 1)) -> (j = 0 \/ l (j - 1) <> None) ->
    pc <= patience -> (match n_epochs with None => True | Some m => ec <= m end) ->
    (forall i, j <= i < ec -> ~ gain eps best (l i)) ->
    ((0 <= eps)%R -> forall x, best = Some x -> forall k y, k < j - 1 -> l k = Some y -> (x < y)%R) ->
    es bs perms train val s fuel eps patience n_epochs best pc ec = Some e ->
    (n_epochs = Some e \/
     exists j, j + patience = e /\ (j = 0 \/ l (j - 1) <> None) /\ forall i, j <= i < e -> ~ gain eps (if Nat.eqb j 0 then None else l (j - 1)) (l i)) /\
    ((0 <= eps)%R -> forall e', ec <= e' < e -> patience <= e' ->
       exists i x, e' - patience <= i < e' /\ l i = Some x /\ forall k y, k < i -> l k = Some y -> (x < y)%R)).
  { clear He fuel. induction fuel as [|fuel IH]; intros j best pc ec J B JN PC MX NG RC.
    - cbn [es]. destruct (Nat.ltb_spec pc patience); destruct (match n_epochs with None => true | Some m => Nat.ltb ec m end) eqn:M; cbn [andb]; intros E; inversion E; subst e.
      + split; [left|intros; lia]. destruct n_epochs as [m|]; [|discriminate]. apply Nat.ltb_ge in M. f_equal. lia.
      + split; [right|intros; lia]. exists j. split; [lia|]. split; auto. rewrite <- B. auto.
      + split; [right|intros; lia]. exists j. split; [lia|]. split; auto. rewrite <- B. auto.
    - cbn [es]. destruct (Nat.ltb_spec pc patience) as [LP|LP]; destruct (match n_epochs with None => true | Some m => Nat.ltb ec m end) eqn:M; cbn [andb]; intros E.
      2,3,4: inversion E; subst e.
      2: { split; [left|intros; lia]. destruct n_epochs as [m|]; [|discriminate]. apply Nat.ltb_ge in M. f_equal. lia. }
      2,3: split; [right|intros; lia]; exists j; split; [lia|]; split; auto; rewrite <- B; auto.
      assert (CUR : (0 <= eps)%R -> patience <= ec -> exists i x, ec - patience <= i < ec /\ l i = Some x /\ forall k y, k < i -> l k = Some y -> (x < y)%R).
      { intros He P. destruct j as [|j]; [lia|]. cbn [Nat.eqb] in B. replace (S j - 1) with j in * by lia.
        destruct JN as [JN|JN]; [discriminate|]. destruct (l j) as [x|] eqn:Lj; [|congruence].
        exists j, x. split; [lia|]. split; auto. intros k y Hk Hy. apply (RC He x B k y); auto. }
      assert (MX' : match n_epochs with None => True | Some m => S ec <= m end) by (destruct n_epochs; auto; apply Nat.ltb_lt in M; lia).
      change (watched bs perms train val s ec) with (l ec) in E.
      destruct (improves best (l ec) eps) eqn:I.
      + apply improves_gain in I. destruct (l ec) as [x|] eqn:Lx; [|destruct I].
        destruct (IH (S ec) (Some x) 0 (S ec)) as [P1 P2]; auto; try lia.
        { cbn [Nat.eqb]. replace (S ec - 1) with ec by lia. auto. }
        { right. replace (S ec - 1) with ec by lia. congruence. }
        { intros He z Ez k y Hk Hy. inversion Ez; subst z. assert (Hk' : k < ec) by lia. clear Hk.
          destruct best as [b|].
          - cbn [gain] in I. destruct (Nat.lt_ge_cases k j) as [Q|Q].
            + destruct (Nat.eq_dec k (j - 1)) as [->|QQ].
              * destruct j; [lia|]. cbn [Nat.eqb] in B. rewrite Hy in B. inversion B. lra.
              * assert (b < y)%R by (apply (RC He b eq_refl k y); [lia|auto]). lra.
            + specialize (NG k (conj Q Hk')). rewrite Hy in NG. cbn [gain] in NG. lra.
          - destruct (Nat.lt_ge_cases k j) as [Q|Q].
            + destruct j; [lia|]. cbn [Nat.eqb] in B. destruct JN; congruence.
            + specialize (NG k (conj Q Hk')). rewrite Hy in NG. cbn [gain] in NG. tauto. }
        split; auto. intros He e' R1 R2. destruct (Nat.eq_dec e' ec) as [->|]; [apply CUR; auto|apply P2; auto; lia].
      + assert (I' : ~ gain eps best (l ec)) by (rewrite <- improves_gain; congruence).
        destruct (IH j best (S pc) (S ec)) as [P1 P2]; auto; try lia.
        { intros i Hi. destruct (Nat.eq_dec i ec) as [->|]; auto. apply NG. lia. }
        split; auto. intros He e' R1 R2. destruct (Nat.eq_dec e' ec) as [->|]; [apply CUR; auto|apply P2; auto; lia]. }
  destruct (A fuel 0 None 0 0) as [P1 P2]; auto; try lia.
  { destruct n_epochs; auto. lia. }
  split; auto. intros He' e' R1. apply P2; auto; lia.
Qed.

(** With a positive epsilon and a loss that is bounded below, fit returns, even without a
    bound on the number of epochs. *)
Theorem torch_fit_terminates : forall bs reinitialize dropout perms rows n_epochs eps patience split n last lo,
  (0 < eps)%R -> (0 < split <= 1)%R -> (forall m b x, loss m b = Some x -> (lo <= x)%R) ->
  exists fuel0, forall fuel, fuel0 <= fuel -> exists n' e last',
    fit fuel bs reinitialize dropout perms rows n_epochs (Some eps) patience split n last = FDone n' e last'.
Proof.
  intros bs reinitialize dropout perms rows n_epochs eps patience split n last lo He Hs HL.
  set (train := firstn (train_len (length rows) split) rows). set (val := skipn (train_len (length rows) split) rows).
  set (s := start reinitialize dropout n). set (l := watched bs perms train val s).
  assert (HO : forall xs x, (forall o, In o xs -> forall y, o = Some y -> (lo <= y)%R) -> omean xs = Some x -> (lo <= x)%R).
  { intros xs x Hx Ho. unfold omean in Ho. destruct (all_some xs) as [ys|] eqn:E; [|discriminate].
    assert (Hy : forall y, In y ys -> (lo <= y)%R).
    { clear Ho. revert ys E. induction xs as [|[o|] xs IH]; intros ys E; cbn [all_some] in E.
      - inversion E; subst. intros y [].
      - destruct (all_some xs) as [t|]; [|discriminate]. inversion E; subst. intros y [<-|Hy]; [apply (Hx (Some o)); simpl; auto|].
        apply (IH (fun o' H' => Hx o' (or_intror H')) t eq_refl y Hy).
      - discriminate. }
    destruct ys as [|y ys]; [discriminate|]. set (yy := y :: ys) in *. inversion Ho; subst x. unfold tmean.
    assert (P : (0 < INR (length yy))%R) by (apply lt_0_INR; unfold yy; simpl; lia).
    apply Rmult_le_reg_r with (INR (length yy)); auto. unfold Rdiv. rewrite Rmult_assoc, Rinv_l by lra. rewrite Rmult_1_r.
    rewrite <- (map_id yy) at 2. rewrite Rmult_comm, <- (rsum_map_const _ lo yy). apply rsum_map_le. auto. }
  assert (LB : forall k x, l k = Some x -> (lo <= x)%R).
  { intros k x. unfold l, watched. destruct val as [|r v]; [|apply HL]. unfold epoch_loss. apply HO.
    intros o Ho. revert Ho. unfold fit_epoch. generalize (net bs perms train s k) as m. intros m.
    assert (G : forall bl m acc, (forall o, In o acc -> forall y, o = Some y -> (lo <= y)%R) ->
       forall o, In o (snd (fold_left (fun st b => (step (fst st) b, snd st ++ [loss (fst st) b])) bl (m, acc))) -> forall y, o = Some y -> (lo <= y)%R).
    { induction bl as [|b bl IH]; intros m' acc Ha o' Ho y Hy; [eapply Ha; eauto|].
      cbn [fold_left fst snd] in Ho. eapply IH in Ho; eauto. intros o2 H2. apply in_app_or in H2. destruct H2 as [H2|[<-|[]]]; eauto. }
    intros Ho. apply (G _ m [] (fun o (F : In o []) => match F with end) o Ho). }
  assert (A : forall m b pc ec, (b - lo <= INR m * eps)%R -> pc <= patience -> forall fuel, (patience - pc) + m * patience <= fuel ->
     exists e, es bs perms train val s fuel eps patience n_epochs (Some b) pc ec = Some e).
  { induction m as [|m IHm].
    - intros b pc ec Hb Hp fuel. cbn [INR] in Hb. revert pc ec Hp. induction fuel as [|fuel IH]; intros pc ec Hp Hf; cbn [es].
      + destruct (Nat.ltb_spec pc patience); [lia|]. cbn [andb]. eexists; reflexivity.
      + destruct (Nat.ltb_spec pc patience); cbn [andb]; [|eexists; reflexivity].
        destruct (match n_epochs with None => true | Some _ => _ end); [|eexists; reflexivity].
        fold (l ec). destruct (improves (Some b) (l ec) eps) eqn:I; [|apply IH; lia].
        apply improves_gain in I. destruct (l ec) as [x|] eqn:Lx; [|destruct I]. cbn [gain] in I. apply LB in Lx. lra.
    - intros b pc ec Hb Hp fuel. rewrite S_INR in Hb. revert pc ec Hp. induction fuel as [|fuel IH]; intros pc ec Hp Hf; cbn [es].
      + destruct (Nat.ltb_spec pc patience); [lia|]. cbn [andb]. eexists; reflexivity.
      + destruct (Nat.ltb_spec pc patience); cbn [andb]; [|eexists; reflexivity].
        destruct (match n_epochs with None => true | Some _ => _ end); [|eexists; reflexivity].
        fold (l ec). destruct (improves (Some b) (l ec) eps) eqn:I; [|apply IH; lia].
        apply improves_gain in I. destruct (l ec) as [x|] eqn:Lx; [|destruct I]. cbn [gain] in I.
        apply IHm; [lra|lia|]. simpl in Hf. lia. }
  assert (UP : forall f1 f2 b pc ec e, f1 <= f2 -> es bs perms train val s f1 eps patience n_epochs b pc ec = Some e -> es bs perms train val s f2 eps patience n_epochs b pc ec = Some e).
  { induction f1 as [|f1 IH]; intros f2 b pc ec e Hf; cbn [es].
    - destruct (andb _ _) eqn:C; [discriminate|]. destruct f2; cbn [es]; rewrite C; auto.
    - destruct f2 as [|f2]; [lia|]. cbn [es]. destruct (andb _ _); auto. destruct (improves _ _ _); apply IH; lia. }
  assert (T : forall q pc ec, patience - pc <= q -> exists fuel e, es bs perms train val s fuel eps patience n_epochs None pc ec = Some e).
  { induction q as [|q IH]; intros pc ec Hq.
    - exists 0. cbn [es]. destruct (Nat.ltb_spec pc patience); [lia|]. cbn [andb]. eexists; reflexivity.
    - destruct (l ec) as [x|] eqn:Lx.
      + destruct (archimed ((x - lo) / eps)) as [AR _].
        set (m := Z.to_nat (up ((x - lo) / eps))).
        assert (Hm : (x - lo <= INR m * eps)%R).
        { assert (0 <= (x - lo) / eps)%R. { apply LB in Lx. apply Rmult_le_pos; [lra|]. apply Rlt_le, Rinv_0_lt_compat; auto. }
          assert (UZ : (0 <= up ((x - lo) / eps))%Z) by (apply le_IZR; lra).
          unfold m. rewrite INR_IZR_INZ, Z2Nat.id by auto.
          replace (x - lo)%R with ((x - lo) / eps * eps)%R at 1 by (field; lra). apply Rmult_le_compat_r; lra. }
        destruct (A m x 0 (S ec) Hm ltac:(lia) (patience + m * patience) ltac:(lia)) as [e Ee].
        exists (S (patience + m * patience)). cbn [es]. destruct (andb _ _); [|eexists; reflexivity].
        fold (l ec). rewrite Lx. cbn [improves]. exists e. exact Ee.
      + destruct (Nat.lt_ge_cases pc patience) as [Q|Q].
        * destruct (IH (S pc) (S ec)) as (f & e & Ee); [lia|]. exists (S f). cbn [es]. destruct (andb _ _); [|eexists; reflexivity].
          fold (l ec). rewrite Lx. cbn [improves]. exists e. exact Ee.
        * exists 0. cbn [es]. destruct (Nat.ltb_spec pc patience); [lia|]. cbn [andb]. eexists; reflexivity. }
  destruct (T patience 0 0) as (f0 & e & Ee); [lia|]. exists f0. intros fuel Hf. unfold tfit.
  destruct (Rlt_dec 0 split); [|lra]. destruct (Rle_dec split 1); [|lra]. cbv zeta.
  change (if dropout then set_mode true (if reinitialize then reinit n else n) else if reinitialize then reinit n else n) with s. fold train val.
  assert (FE : floop fuel bs perms train val eps patience n_epochs s last None 0 0 =
     Some (net bs perms train s e, e, if Nat.eqb e 0 then last else epoch_loss bs perms train s (e - 1))).
  { pose proof (floop_es bs perms train val s fuel eps patience n_epochs last None 0 0) as FE. cbn [net] in FE. rewrite FE, (UP f0 fuel None 0 0 e Hf Ee). reflexivity. }
  rewrite FE. eexists _, _, _. reflexivity.
Qed.

(** After fit the network is in evaluation mode when it has dropout; an invalid split
    leaves it in training mode. *)
Theorem torch_fit_mode : forall (mode : N -> bool) fuel bs reinitialize perms rows n_epochs epsilon patience split n last,
  (forall b m, mode (set_mode b m) = b) ->
  match fit fuel bs reinitialize true perms rows n_epochs epsilon patience split n last with
  | FDone n' _ _ => mode n' = false
  | FRaise n' => mode n' = true /\ ~ (0 < split <= 1)%R
  | FRun => True
  end.
Proof.
  intros mode fuel bs reinitialize perms rows n_epochs epsilon patience split n last HM. unfold tfit.
  destruct (Rlt_dec 0 split); [|split; [apply HM|lra]]. destruct (Rle_dec split 1); [|split; [apply HM|lra]].
  cbv zeta. destruct epsilon; [destruct (fit_loop _ _ _ _ _ _ _ _ _ _ _ _ _ _ _ _) as [[[? ?] ?]|]|]; auto.
Qed.

(** loss_fit is the mean of the batch losses of the last epoch, each computed before its
    own step; without an epoch it is the value of the previous call. *)
Theorem torch_loss_fit : forall fuel bs reinitialize dropout perms rows n_epochs epsilon patience split n last n' e last',
  fit fuel bs reinitialize dropout perms rows n_epochs epsilon patience split n last = FDone n' e last' ->
  (e = 0 -> last' = last) /\
  (forall k, e = S k -> exists m bl, 
     m = net bs perms (firstn (train_len (length rows) split) rows) (start reinitialize dropout n) k /\
     bl = fbatches bs (perms k) (firstn (train_len (length rows) split) rows) /\
     forall v, last' = Some v -> exists ls, v = tmean ls /\ length ls = length bl /\
       forall i, i < length bl -> loss (fold_left step (firstn i bl) m) (nth i bl []) = Some (nth i ls 0%R)).
Proof.
  intros fuel bs reinitialize dropout perms rows n_epochs epsilon patience split n last n' e last' H.
  apply fit_cases in H. destruct H as (_ & _ & Hl & _). cbv zeta in Hl. split; [intros ->; auto|].
  intros k ->. cbn [Nat.eqb] in Hl. replace (S k - 1) with k in Hl by lia. eexists _, _. split; [reflexivity|]. split; [reflexivity|].
  intros v Hv. rewrite Hv in Hl. clear Hv. symmetry in Hl. unfold epoch_loss in Hl.
  set (bl := fbatches bs (perms k) _) in *. set (m := net bs perms _ _ k) in *. clearbody bl m.
  unfold fit_epoch in Hl.
  assert (G : forall bl m acc, exists os, snd (fold_left (fun st b => (step (fst st) b, snd st ++ [loss (fst st) b])) bl (m, acc)) = acc ++ os /\ length os = length bl /\
     forall i, i < length bl -> nth i os None = loss (fold_left step (firstn i bl) m) (nth i bl [])).
  { clear. induction bl as [|b bl IH]; intros m acc.
    - exists []. rewrite app_nil_r. repeat split; auto. simpl. intros; lia.
    - cbn [fold_left fst snd]. destruct (IH (step m b) (acc ++ [loss m b])) as (os & E & L & P).
      exists (loss m b :: os). rewrite E, <- app_assoc. split; [reflexivity|]. split; [simpl; auto|].
      intros [|i] Hi; [reflexivity|]. cbn [nth firstn fold_left]. simpl in Hi. apply P. lia. }
  destruct (G bl m []) as (os & E & L & P). rewrite E in Hl. cbn [app] in Hl. clear E G. unfold omean in Hl.
  destruct (all_some os) as [ls|] eqn:EA; [|discriminate].
  assert (Q : length ls = length os /\ forall i, i < length os -> nth i os None = Some (nth i ls 0%R)).
  { clear - EA. revert ls EA. induction os as [|[o|] os IH]; intros ls EA; cbn [all_some] in EA; try discriminate.
    - inversion EA; subst. simpl. split; auto. intros; lia.
    - destruct (all_some os) as [t|]; [|discriminate]. inversion EA; subst ls. destruct (IH t eq_refl) as [A B].
      split; [simpl; auto|]. intros [|i] Hi; [reflexivity|]. cbn [nth]. simpl in Hi. apply B. lia. }
  destruct Q as [Q1 Q2]. destruct ls as [|x ls]; [discriminate|]. exists (x :: ls). split; [congruence|]. split; [congruence|].
  intros i Hi. rewrite <- P by auto. apply Q2. lia.
Qed.
End Fit.

(** examples: the network is a number, a step halves it, the loss of a batch is its value *)
Definition half (w : R) (b : list R) : R := (w / 2)%R.
Definition val_loss (w : R) (b : list R) : option R := Some w.

Example torch_fit_demo : tfit 0%R half val_loss (fun _ n => n) (fun n => n) 0 0 false false (fun _ => []) [1]%R (Some 2) None 1 1%R 8%R None =
  FDone (8 / 2 / 2)%R 2 (Some (tmean [8 / 2]%R)).
Proof.
  unfold tfit. destruct (Rlt_dec 0 1); [|lra]. destruct (Rle_dec 1 1); [|lra]. reflexivity.
Qed.

(** With epsilon zero the loop need not end: every epoch may improve, however little. *)
Theorem torch_fit_terminates_refuted : exists (w : R), 
  (forall m b x, val_loss m b = Some x -> x = m) /\
  forall fuel, tfit 0%R half val_loss (fun _ n => n) (fun n => n) fuel 0 false false (fun _ => []) [0]%R None (Some 0%R) 1 1%R w None = FRun.
Proof.
  exists 1%R. split; [unfold val_loss; congruence|]. intros fuel. unfold tfit. destruct (Rlt_dec 0 1); [|lra]. destruct (Rle_dec 1 1); [|lra].
  cbv zeta. cbn [length].
  assert (TL : train_len 1 1 = 1) by (apply (torch_fit_split 1 1); lra). rewrite TL. cbn [firstn skipn].
  assert (A : forall fuel w best last ec, (0 < w)%R -> (match best with None => True | Some b => (w < b)%R end) ->
     fit_loop 0%R half val_loss fuel 0 (fun _ => []) [0]%R [] 0 1 None w last best 0 ec = None).
  { induction fuel0 as [|f IH]; intros w best last ec Hw Hb; [reflexivity|]. cbn [fit_loop Nat.ltb Nat.leb andb].
    unfold fit_batches. cbn [Nat.ltb Nat.leb]. unfold fit_epoch. cbn [fold_left fst snd app]. unfold omean. cbn [all_some val_loss].
    assert (TM : tmean [w] = w) by (unfold tmean; simpl; field). rewrite TM.
    assert (I : improves best (Some w) 0 = true). { apply improves_gain. destruct best; cbn [gain]; auto. lra. }
    rewrite I. apply IH; unfold half; simpl; lra. }
  rewrite A; auto; lra.
Qed.

(** loss_fit is not the average loss over the training set when the last minibatch is
    smaller: with losses 0, 0, 3 and batches of two it is 3/2 instead of 1. *)
Theorem torch_loss_fit_refuted :
  let per_batch (w : unit) (b : list R) := Some (tmean b) in
  exists perms rows l, Permutation (perms 0) (seq 0 (length rows)) /\
    tfit 0%R (fun w _ => w) per_batch (fun _ n => n) (fun n => n) 0 2 false false perms rows (Some 1) None 1 1%R tt None = FDone tt 1 (Some l) /\
    l <> tmean rows.
Proof.
  intros per_batch. exists (fun _ => [0; 1; 2]), [0; 0; 3]%R, (3 / 2)%R. split; [apply Permutation_refl|]. split.
  - unfold tfit. destruct (Rlt_dec 0 1); [|lra]. destruct (Rle_dec 1 1); [|lra]. cbv zeta.
    assert (TL : train_len (length [0; 0; 3]%R) 1 = 3) by (apply (torch_fit_split 3 1); lra). rewrite TL. cbn [firstn fit_for fst snd].
    f_equal. unfold fit_batches. cbn [Nat.ltb Nat.leb]. unfold row_batches, minibatches, fit_epoch. cbn.
    unfold omean. cbn. f_equal. unfold tmean. cbn. field.
  - unfold tmean. simpl. lra.
Qed.

(** The validation loss is computed while dropout is active: with a network whose loss in
    evaluation mode keeps falling by one per epoch, fit stops after the second epoch
    because the loss in training mode stands still. *)
Theorem torch_validation_mode_refuted :
  exists (step : bool * nat -> list unit -> bool * nat) (loss : bool * nat -> list unit -> option R),
  (forall k b, loss (false, S k) b = match loss (false, k) b with Some x => Some (x - 1)%R | None => None end) /\
  exists n' last, tfit tt step loss (fun b n => (b, snd n)) (fun n => n) 5 0 false true (fun _ => []) [tt; tt] (Some 5) (Some (1 / 2)%R) 1 (1 / 2)%R (false, 0) None
    = FDone n' 2 last.
Proof.
  exists (fun (n : bool * nat) (_ : list unit) => (fst n, S (snd n))), (fun (n : bool * nat) (_ : list unit) => Some (if fst n then 0 else - INR (snd n))%R). split.
  - intros k b. cbn [fst snd]. rewrite S_INR. f_equal. ring.
  - unfold tfit. destruct (Rlt_dec 0 (1/2)); [|lra]. destruct (Rle_dec (1/2) 1); [|lra]. cbv zeta.
    assert (TL : train_len (length [tt; tt]) (1/2) = 1).
    { destruct (torch_fit_split 2 (1/2)) as (A & B & C & _); [lra|]. cbn [length]. replace (INR 2) with 2%R in A by (simpl; lra).
      assert (train_len 2 (1/2) < 2) by (apply INR_lt; replace (INR 2) with 2%R by (simpl; lra); lra). lia. }
    rewrite TL. cbn [firstn skipn fit_loop Nat.ltb Nat.leb andb]. unfold fit_batches. cbn [Nat.ltb Nat.leb]. unfold fit_epoch. cbn [fold_left fst snd app].
    cbn [improves]. destruct (Rlt_dec (1 / 2) (0 - 0)); [lra|]. cbn. eexists _, _. reflexivity.
Qed.

Print Assumptions torch_fit_split.
Print Assumptions torch_weighted_loss.
Print Assumptions torch_fit_epochs.
Print Assumptions torch_early_stopping.
Print Assumptions torch_fit_terminates.
Print Assumptions torch_fit_mode.
Print Assumptions torch_loss_fit.
Print Assumptions torch_fit_terminates_refuted.
Print Assumptions torch_loss_fit_refuted.
Print Assumptions torch_validation_mode_refuted.

(** Theorems about network weights, optimizer state and TorchApproximator.fit (C76, C77). *)
From Coq Require Import List Arith Lia Reals Lra Bool ZArith Permutation.
From Verif Require Import Common UtilModel UtilProps PpoModel PpoProps DqnModel TorchModel.
Import ListNotations.
Local Open Scope nat_scope.

(** * C76: weights as one vector *)

Definition wf_net (ps : list param) : Prop := Forall (fun p => length (p_data p) = numel (p_shape p)) ps.

Lemma slice_skip : forall A (w : list A) i c, slice i (i + c) w = firstn c (skipn i w).
Proof. intros. unfold slice. f_equal. lia. Qed.

Lemma tset_loop_ok : forall ps idx w, idx + tsize ps <= length w ->
  exists ps', tset_loop idx w ps = (ps', true) /\ tget ps' = firstn (tsize ps) (skipn idx w) /\
    map p_shape ps' = map p_shape ps /\ wf_net ps'.
Proof.
  induction ps as [|p ps IH]; intros idx w H.
  - exists []. simpl. repeat split; auto. constructor.
  - cbn [tset_loop tsize fold_right] in *. fold (tsize ps) in *. rewrite slice_skip.
    assert (L : length (firstn (numel (p_shape p)) (skipn idx w)) = numel (p_shape p)).
    { rewrite firstn_length, skipn_length. lia. }
    rewrite L, Nat.eqb_refl. destruct (IH (idx + numel (p_shape p)) w) as (ps' & E & G & M & W); [lia|].
    rewrite E. cbn [fst snd]. eexists. split; [reflexivity|]. unfold tget in *. cbn [map concat p_data p_shape]. rewrite G, M.
    split; [|split; [reflexivity|constructor; auto]].
    rewrite <- (firstn_skipn (numel (p_shape p)) (firstn (numel (p_shape p) + tsize ps) (skipn idx w))).
    rewrite firstn_firstn, Nat.min_l by lia. f_equal.
    rewrite <- firstn_skipn_comm, skipn_skipn'. reflexivity.
Qed.

Lemma tget_length : forall ps, wf_net ps -> length (tget ps) = tsize ps.
Proof.
  induction 1 as [|p ps H W IH]; auto. unfold tget in *. cbn [map concat]. rewrite app_length, H, IH. reflexivity.
Qed.

Lemma tget_inj : forall ps ps', wf_net ps -> wf_net ps' -> map p_shape ps = map p_shape ps' -> tget ps = tget ps' -> ps = ps'.
Proof.
  induction ps as [|p ps IH]; destruct ps' as [|p' ps']; intros W W' M G; try discriminate; auto.
  inversion W as [|? ? H1 H2]; subst. inversion W' as [|? ? H1' H2']; subst. cbn [map] in M. inversion M as [[M1 M2]].
  unfold tget in G. cbn [map concat] in G.
  assert (E : p_data p = p_data p' /\ concat (map p_data ps) = concat (map p_data ps')).
  { assert (L : length (p_data p) = length (p_data p')) by congruence. clear - G L. revert G L.
    generalize (p_data p) (p_data p'). intros l. induction l as [|x l IH]; intros [|y l0] G L; simpl in *; try discriminate; auto.
    inversion G. destruct (IH l0) as [-> ->]; auto. }
  destruct E as [E1 E2]. f_equal; [destruct p, p'; simpl in *; congruence|apply IH; auto].
Qed.

(** Setting a weight vector of the right size makes the network report exactly this
    vector, with the shapes unchanged; writing back the vector a network reports changes
    nothing. *)
Theorem torch_weights_roundtrip : forall ps w,
  (length w = tsize ps -> exists ps', tset ps w = (ps', true) /\ tget ps' = w /\ map p_shape ps' = map p_shape ps /\ wf_net ps') /\
  (wf_net ps -> tset ps (tget ps) = (ps, true)).
Proof.
  intros ps w. assert (A : forall w, length w = tsize ps -> exists ps', tset ps w = (ps', true) /\ tget ps' = w /\ map p_shape ps' = map p_shape ps /\ wf_net ps').
  { intros v H. destruct (tset_loop_ok ps 0 v) as (ps' & E & G & M & W); [lia|]. exists ps'. split; [exact E|].
    rewrite G. simpl skipn. rewrite firstn_all2 by lia. auto. }
  split; auto. intros W. destruct (A (tget ps) (tget_length _ W)) as (ps' & E & G & M & W').
  rewrite E. f_equal. apply tget_inj; auto.
Qed.

Example torch_weights_demo :
  let ps := [{| p_shape := [2; 1]; p_data := [1; 2]%R |}; {| p_shape := []; p_data := [3]%R |}] in
  tget ps = [1; 2; 3]%R /\ tset ps [7; 8; 9]%R = ([{| p_shape := [2; 1]; p_data := [7; 8]%R |}; {| p_shape := []; p_data := [9]%R |}], true).
Proof. split; reflexivity. Qed.

(** A vector that is too short makes the call raise... *)
Theorem torch_weights_short : forall ps w, length w < tsize ps -> snd (tset ps w) = false.
Proof.
  intros ps w H. unfold tset. assert (A : forall ps idx, idx <= length w -> length w < idx + tsize ps -> snd (tset_loop idx w ps) = false).
  { clear. induction ps as [|p ps IH]; intros idx Hi H; [simpl in H; lia|].
    cbn [tset_loop tsize fold_right] in *. fold (tsize ps) in *.
    destruct (Nat.eqb _ _) eqn:E; [|reflexivity]. cbn [snd]. apply Nat.eqb_eq in E. rewrite slice_skip in E.
    rewrite firstn_length, skipn_length in E. apply IH; lia. }
  apply A; lia.
Qed.

Example torch_weights_short_demo : snd (tset [{| p_shape := [2]; p_data := [1; 2]%R |}] [5]%R) = false.
Proof. reflexivity. Qed.

(** ... but the parameters before the failing one have then already been overwritten. *)
Theorem torch_weights_rollback_refuted : exists ps w, wf_net ps /\ length w < tsize ps /\ snd (tset ps w) = false /\ fst (tset ps w) <> ps.
Proof.
  exists [{| p_shape := [1]; p_data := [1]%R |}; {| p_shape := [1]; p_data := [2]%R |}], [5]%R.
  split; [repeat constructor|]. split; [simpl; lia|]. split; [reflexivity|]. cbn. intros E. inversion E. lra.
Qed.

(** A vector that is too long is accepted: the check of its size is commented out
    (torch.py 44). *)
Theorem torch_weights_size_refuted : forall ps w extra, length w = tsize ps -> extra <> [] ->
  snd (tset ps (w ++ extra)) = true /\ tget (fst (tset ps (w ++ extra))) = w.
Proof.
  intros ps w extra H _. destruct (tset_loop_ok ps 0 (w ++ extra)) as (ps' & E & G & _); [rewrite app_length; lia|].
  unfold tset. rewrite E. split; [reflexivity|]. cbn [fst]. rewrite G. simpl skipn. rewrite firstn_app, firstn_all2 by lia.
  replace (tsize ps - length w) with 0 by lia. simpl. apply app_nil_r.
Qed.

Example torch_weights_size_demo : snd (tset [{| p_shape := [1]; p_data := [1]%R |}] [5; 6; 7]%R) = true.
Proof. reflexivity. Qed.

(** The Gaussian and the SAC policy split one vector between their parts without loss. *)
Theorem gaussian_torch_weights : forall k p w, length (g_ls p) = k -> length w = tsize (g_mu p) + k ->
  (exists p', gpol_set k p w = (p', true) /\ gpol_get p' = w /\ g_ls p' = skipn (tsize (g_mu p)) w /\
              map p_shape (g_mu p') = map p_shape (g_mu p)) /\
  (wf_net (g_mu p) -> gpol_set k p (gpol_get p) = (p, true)).
Proof.
  intros k p w Hk Hw. split.
  - unfold gpol_set. destruct (proj1 (torch_weights_roundtrip (g_mu p) (firstn (length w - k) w))) as (ps' & E & G & M & W).
    { rewrite firstn_length. lia. }
    rewrite E. eexists. split; [reflexivity|]. unfold gpol_get. cbn [g_mu g_ls fst]. rewrite G. unfold lastn.
    split; [apply firstn_skipn|]. split; auto. f_equal. lia.
  - intros W. unfold gpol_set, gpol_get. pose proof (tget_length _ W) as L. rewrite app_length, L, Hk.
    replace (tsize (g_mu p) + k - k) with (tsize (g_mu p)) by lia.
    assert (EF : firstn (tsize (g_mu p)) (tget (g_mu p) ++ g_ls p) = tget (g_mu p)).
    { rewrite <- L. rewrite firstn_app, firstn_all, Nat.sub_diag. apply app_nil_r. }
    rewrite EF.
    rewrite (proj2 (torch_weights_roundtrip (g_mu p) w) W). cbn [fst snd]. unfold lastn. rewrite app_length, L, Hk.
    replace (tsize (g_mu p) + k - k) with (length (tget (g_mu p))) by lia. rewrite skipn_app, skipn_all, Nat.sub_diag. destruct p; reflexivity.
Qed.

Example gaussian_torch_weights_demo :
  gpol_set 1 {| g_mu := [{| p_shape := [2]; p_data := [0; 0]%R |}]; g_ls := [0]%R |} [1; 2; 3]%R =
  ({| g_mu := [{| p_shape := [2]; p_data := [1; 2]%R |}]; g_ls := [3]%R |}, true).
Proof. reflexivity. Qed.

Theorem sac_policy_weights : forall p w, length w = tsize (fst p) + tsize (snd p) ->
  (exists p', pair_set p w = (p', true) /\ pair_get p' = w /\ tget (fst p') = firstn (tsize (fst p)) w) /\
  (wf_net (fst p) -> wf_net (snd p) -> pair_set p (pair_get p) = (p, true)).
Proof.
  intros p w Hw. split.
  - unfold pair_set. destruct (proj1 (torch_weights_roundtrip (fst p) (firstn (tsize (fst p)) w))) as (m & E & G & _).
    { rewrite firstn_length. lia. }
    destruct (proj1 (torch_weights_roundtrip (snd p) (skipn (tsize (fst p)) w))) as (s & E' & G' & _).
    { rewrite skipn_length. lia. }
    rewrite E. cbn [fst snd]. rewrite E'. cbn [fst snd]. eexists. split; [reflexivity|]. unfold pair_get. cbn [fst snd].
    rewrite G, G'. split; [apply firstn_skipn|auto].
  - intros W W'. unfold pair_set, pair_get. pose proof (tget_length _ W) as L.
    rewrite <- L. rewrite firstn_app, firstn_all, Nat.sub_diag, app_nil_r, skipn_app, skipn_all, Nat.sub_diag. simpl.
    rewrite (proj2 (torch_weights_roundtrip (fst p) w) W). cbn [fst snd].
    rewrite (proj2 (torch_weights_roundtrip (snd p) w) W'). destruct p; reflexivity.
Qed.

Example sac_policy_weights_demo :
  pair_set ([{| p_shape := [1]; p_data := [0]%R |}], [{| p_shape := [1]; p_data := [0]%R |}]) [4; 5]%R =
  (([{| p_shape := [1]; p_data := [4]%R |}], [{| p_shape := [1]; p_data := [5]%R |}]), true).
Proof. reflexivity. Qed.

(** ** Sharing *)

Definition valid (h : heap) (n : list loc) : Prop := Forall (fun l => l_off l + l_len l <= length (h (l_addr l))) n.

Lemma hset_read : forall n a idx h v, h a = v -> flat_map (hread h) (hset a idx n) =
  firstn (fold_right (fun l s => l_len l + s) 0 n) (skipn idx v).
Proof.
  induction n as [|l n IH]; intros a idx h v E; [reflexivity|]. cbn [hset flat_map fold_right]. rewrite (IH a _ h v E).
  unfold hread at 1. cbn [l_addr l_off l_len]. rewrite E, slice_skip.
  set (s := fold_right _ 0 n). rewrite <- (firstn_skipn (l_len l) (firstn (l_len l + s) (skipn idx v))).
  rewrite firstn_firstn, Nat.min_l by lia. f_equal. rewrite <- firstn_skipn_comm, skipn_skipn'. reflexivity.
Qed.

Lemma hget_length : forall h n, valid h n -> length (hget h n) = fold_right (fun l s => l_len l + s) 0 n.
Proof.
  induction 1 as [|l n H V IH]; auto. unfold hget in *. cbn [flat_map fold_right]. rewrite app_length, IH. f_equal.
  unfold hread. rewrite slice_skip, firstn_length, skipn_length. lia.
Qed.

Lemma fresh_read : forall h a v n, Forall (fun l => l_addr l <> a) n -> hget (hfresh h a v) n = hget h n.
Proof.
  induction n as [|l n IH]; intros F; auto. inversion F; subst. unfold hget in *. cbn [flat_map]. rewrite IH by auto. f_equal.
  unfold hread, hfresh. destruct (Nat.eqb_spec (l_addr l) a); [congruence|reflexivity].
Qed.

Lemma step_other : forall n xs h a, Forall (fun l => l_addr l <> a) n -> hstep h n xs a = h a.
Proof.
  unfold hstep. induction n as [|l n IH]; intros xs h a F; auto. inversion F; subst. destruct xs as [|x xs]; auto.
  cbn [combine fold_left]. rewrite IH by auto. unfold hwrite. cbn [fst]. destruct (Nat.eqb_spec a (l_addr l)); [congruence|reflexivity].
Qed.

(** After target.set_weights(online.get_weights()) the target network has the weights of
    the online network, and it keeps them through any number of optimizer steps of the
    online network. *)
Theorem target_sync_independent : forall h a online target steps,
  valid h online -> map l_len target = map l_len online -> Forall (fun l => l_addr l <> a) online ->
  let h1 := fst (hsync h a online target) in
  let t1 := snd (hsync h a online target) in
  hget h1 t1 = hget h online /\ hget h1 online = hget h online /\
  hget (fold_left (fun h xs => hstep h online xs) steps h1) t1 = hget h online.
Proof.
  intros h a online target steps V ML F h1 t1.
  assert (SZ : fold_right (fun l s => l_len l + s) 0 target = fold_right (fun l s => l_len l + s) 0 online).
  { clear - ML. revert online ML. induction target as [|l t IH]; destruct online; simpl; intros M; try discriminate; auto.
    inversion M. erewrite IH; eauto. }
  assert (G : forall h', h' a = hget h online -> hget h' t1 = hget h online).
  { intros h' E. unfold t1, hsync. cbn [snd]. unfold hget at 1. rewrite (hset_read target a 0 h' (hget h online) E). simpl skipn.
    rewrite SZ. apply firstn_all2. rewrite hget_length by auto. lia. }
  assert (E1 : h1 a = hget h online) by (unfold h1, hsync, hfresh; cbn [fst]; rewrite Nat.eqb_refl; reflexivity).
  split; [apply G; auto|]. split; [unfold h1, hsync; cbn [fst]; apply fresh_read; auto|].
  apply G. rewrite <- E1. generalize h1. clear - F. induction steps as [|xs steps IH]; intros h1; auto. cbn [fold_left].
  rewrite IH. apply step_other; auto.
Qed.

Example target_sync_demo :
  let h : heap := fun b => if Nat.eqb b 0 then [1; 2]%R else [] in
  let online := [{| l_addr := 0; l_off := 0; l_len := 2 |}] in
  let target := [{| l_addr := 1; l_off := 0; l_len := 2 |}] in
  let s := hsync h 2 online target in
  hget (hstep (fst s) online [[8; 9]%R]) (snd s) = [1; 2]%R /\ hget (hstep (fst s) online [[8; 9]%R]) online = [8; 9]%R.
Proof. split; reflexivity. Qed.

(** Two networks that were given the same vector share its memory: training one of them
    changes the other, and the vector of the caller. *)
Theorem shared_weights_refuted : exists (h : heap) a n1 n2 xs,
  let b := hset a 0 n1 in let c := hset a 0 n2 in
  hget h b = h a /\ hget h c = h a /\
  hget (hstep h b xs) c <> hget h c /\ hstep h b xs a <> h a.
Proof.
  exists (fun b => if Nat.eqb b 0 then [1; 2]%R else [0; 0]%R), 0,
    [{| l_addr := 1; l_off := 0; l_len := 2 |}], [{| l_addr := 2; l_off := 0; l_len := 2 |}], [[5; 6]%R].
  cbn. repeat split; intros E; inversion E; lra.
Qed.

(** ** Optimizer state *)

Section Opt.
Variable St : Type.
Variable empty : St.

Lemma lookup_remove : forall (m : list (nat * St)) k j, lookup (remove_key m k) j = if Nat.eqb j k then None else lookup m j.
Proof.
  unfold lookup, remove_key. induction m as [|[x s] m IH]; intros k j; simpl.
  - destruct (Nat.eqb j k); reflexivity.
  - destruct (Nat.eqb_spec x k); simpl.
    + subst. rewrite IH. destruct (Nat.eqb_spec j k); subst; auto. destruct (Nat.eqb_spec k j); [congruence|auto].
    + destruct (Nat.eqb_spec x j).
      * subst. destruct (Nat.eqb_spec j k); [congruence|auto].
      * rewrite IH. reflexivity.
Qed.

Lemma lookup_move : forall (m : list (nat * St)) o n j, lookup (move empty m (o, n)) j =
  if Nat.eqb j n then Some (match lookup m o with Some x => x | None => empty end) else if Nat.eqb j o then None else lookup m j.
Proof.
  intros m o n j. unfold move. cbn [fst snd]. unfold lookup at 1. cbn [find fst]. rewrite (Nat.eqb_sym n j).
  destruct (Nat.eqb_spec j n); [reflexivity|].
  change (lookup (remove_key (remove_key m o) n) j = if Nat.eqb j o then None else lookup m j).
  rewrite !lookup_remove. destruct (Nat.eqb_spec j n); [congruence|reflexivity].
Qed.

Lemma moves_spec : forall old new (m : list (nat * St)), length old = length new -> NoDup old -> NoDup new ->
  (forall i j, i < length old -> j < length new -> i <> j -> nth i old 0 <> nth j new 0) ->
  (forall i, i < length old -> lookup m (nth i old 0) <> None) ->
  (forall i, i < length new -> lookup (fold_left (move empty) (combine old new) m) (nth i new 0) = lookup m (nth i old 0)) /\
  (forall k, ~ In k old -> ~ In k new -> lookup (fold_left (move empty) (combine old new) m) k = lookup m k) /\
  (forall k, In k old -> ~ In k new -> lookup (fold_left (move empty) (combine old new) m) k = None).
Proof.
  induction old as [|o old IH]; destruct new as [|n new]; intros m L N1 N2 D E; try discriminate.
  - cbn. split; [intros; lia|]. split; [auto|intros k []].
  - inversion N1 as [|? ? O1 O2]; subst. inversion N2 as [|? ? O3 O4]; subst. cbn [combine fold_left].
    assert (Dn : forall i, i < length old -> nth i old 0 <> n).
    { intros i Hi. apply (D (S i) 0); simpl in *; lia. }
    assert (Do : forall i, i < length new -> nth i new 0 <> o).
    { intros i Hi X. apply (D 0 (S i)); [simpl; lia|simpl; lia|lia|symmetry; exact X]. }
    assert (LM : forall k, k <> n -> k <> o -> lookup (move empty m (o, n)) k = lookup m k).
    { intros k A B. rewrite lookup_move. destruct (Nat.eqb_spec k n); [congruence|]. destruct (Nat.eqb_spec k o); [congruence|auto]. }
    assert (No : forall i, i < length old -> nth i old 0 <> o).
    { intros i Hi X. apply O1. rewrite <- X. apply nth_In; auto. }
    destruct (IH new (move empty m (o, n))) as (A & B & C); auto.
    { intros i j Hi Hj Hij. apply (D (S i) (S j)); simpl in *; lia. }
    { intros i Hi. rewrite LM by (try apply Dn; try apply No; auto). apply (E (S i)); simpl; lia. }
    split; [|split].
    + intros [|i] Hi.
      * cbn [nth]. simpl in L. destruct (in_dec Nat.eq_dec n old) as [Q|Q].
        -- exfalso. apply (In_nth _ _ 0) in Q. destruct Q as (i & Hi' & Q). apply (Dn i Hi' Q).
        -- rewrite B by auto. rewrite lookup_move, Nat.eqb_refl.
           specialize (E 0). cbn [nth] in E. destruct (lookup m o); [reflexivity|]. exfalso. apply E; simpl; auto. lia.
      * cbn [nth]. simpl in Hi. rewrite A by lia. simpl in L. apply LM; [apply Dn; lia|apply No; lia].
    + intros k K1 K2. simpl in K1, K2. rewrite B by tauto. apply LM; intros X; subst; tauto.
    + intros k K1 K2. simpl in K1, K2. destruct K1 as [K1|K1].
      * subst k. rewrite B by tauto. rewrite lookup_move. destruct (Nat.eqb_spec o n); [subst; tauto|]. rewrite Nat.eqb_refl. reflexivity.
      * apply C; tauto.
Qed.

(** Loading: the optimizer works on the loaded parameters, and the state (moments, step
    counts) of the i-th old parameter is the state of the i-th new one; no entry of an old
    parameter is left behind. A parameter may be its own replacement. *)
Theorem optimizer_state_moves : forall (o : optim St) new,
  length (o_params o) = length new -> NoDup (o_params o) -> NoDup new ->
  (forall i j, i < length new -> j < length new -> i <> j -> nth i (o_params o) 0 <> nth j new 0) ->
  (forall i, i < length new -> lookup (o_state o) (nth i (o_params o) 0) <> None) ->
  let o' := update_params empty o new in
  o_params o' = new /\
  (forall i, i < length new -> lookup (o_state o') (nth i new 0) = lookup (o_state o) (nth i (o_params o) 0)) /\
  (forall k, In k (o_params o) -> ~ In k new -> lookup (o_state o') k = None).
Proof.
  intros o new L N1 N2 D E o'. split; [reflexivity|].
  destruct (moves_spec (o_params o) new (o_state o)) as (A & B & C); auto.
  { intros; apply D; auto; lia. }
  { intros; apply E; lia. }
  unfold o', update_params. cbn [o_state]. destruct (o_state o) as [|e m] eqn:EM.
  - destruct new as [|x new]; [|exfalso; apply (E 0); simpl; [lia|reflexivity]].
    split; [simpl; intros; lia|]. intros; reflexivity.
  - split; auto.
Qed.

Example optimizer_state_demo : forall a b : St,
  o_state (update_params empty {| o_state := [(1, a); (2, b)]; o_params := [1; 2] |} [7; 8]) = [(8, b); (7, a)].
Proof. reflexivity. Qed.
End Opt.

Print Assumptions torch_weights_roundtrip.
Print Assumptions torch_weights_short.
Print Assumptions torch_weights_rollback_refuted.
Print Assumptions torch_weights_size_refuted.
Print Assumptions gaussian_torch_weights.
Print Assumptions sac_policy_weights.
Print Assumptions target_sync_independent.
Print Assumptions shared_weights_refuted.
Print Assumptions optimizer_state_moves.

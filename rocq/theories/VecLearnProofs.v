(** Proofs for C114: simulation of the run with values by the schedule of VecCoreModel. *)
From Coq Require Import List Arith Lia Bool Reals.
From Verif Require Import Common VecCoreModel VecCoreSpec VecCoreProofs VecLearnModel VecLearnSpec VecPreProps.
From Verif Require CoreModel.
Import ListNotations.
Local Open Scope list_scope.
Local Open Scope nat_scope.

Section Lists.
Context {X A : Type}.
Notation vsample := (CoreModel.sample X A R unit).
Notation event := (xevent X A).

Definition has (o : option vsample) : bool := match o with Some _ => true | None => false end.
Definition ends (o : option vsample) : bool := match o with Some x => CoreModel.last x | None => false end.
Definition mask_of (r : list (option vsample)) : list bool := map has r.
Definition last_of (r : list (option vsample)) : list bool := map ends r.
Definition pst (t : nat) (r : list (option vsample)) : pstep := (t, mask_of r, last_of r).
Fixpoint pst_from (t : nat) (rows : list (list (option vsample))) : list pstep :=
  match rows with [] => [] | r :: rows' => pst t r :: pst_from (S t) rows' end.

Lemma nth_mask_of : forall r j, nth j (mask_of r) false = has (nth j r None).
Proof. intros r j. exact (map_nth has r None j). Qed.
Lemma nth_last_of : forall r j, nth j (last_of r) false = ends (nth j r None).
Proof. intros r j. exact (map_nth ends r None j). Qed.

Lemma pst_from_app : forall a b t, pst_from t (a ++ b) = pst_from t a ++ pst_from (t + length a) b.
Proof.
  induction a as [|x a IH]; intros b t; cbn [app pst_from length].
  - rewrite Nat.add_0_r. reflexivity.
  - rewrite IH. do 2 f_equal. f_equal. lia.
Qed.
Lemma pst_from_len : forall a t, length (pst_from t a) = length a.
Proof. induction a; intros t; simpl; auto. Qed.
Lemma pst_from_skip : forall c rows t, skipn c (pst_from t rows) = pst_from (t + c) (skipn c rows).
Proof.
  induction c as [|c IH]; intros rows t; [rewrite Nat.add_0_r; reflexivity|]. destruct rows as [|r rows]; [reflexivity|].
  cbn [pst_from skipn]. rewrite IH. f_equal. lia.
Qed.

Definition col (j : nat) (rows : list (list (option vsample))) : list vsample :=
  flat_map (fun r => match nth j r None with Some x => [x] | None => [] end) rows.

Lemma with_last_id : forall x : vsample, with_last x (CoreModel.last x) = x.
Proof. intros []. reflexivity. Qed.

Lemma closed_snoc : forall (xs : list vsample) x, closed (xs ++ [x]) = xs ++ [with_last x true].
Proof.
  induction xs as [|y xs IH]; intros x; [reflexivity|]. cbn [app]. rewrite <- IH.
  destruct xs; reflexivity.
Qed.

Lemma read_all_app : forall tab a b xa xb, read_all tab a = Some xa -> read_all tab b = Some xb ->
  @read_all X A tab (a ++ b) = Some (xa ++ xb).
Proof.
  induction a as [|c a IH]; intros b xa xb Ha Hb; cbn [app read_all] in *.
  - injection Ha as <-. exact Hb.
  - destruct (read_cell tab c) as [x|]; [|discriminate]. cbn [obind] in *. destruct (read_all tab a) as [ys|]; [|discriminate].
    cbn [obind] in *. injection Ha as <-. rewrite (IH b ys xb eq_refl Hb). reflexivity.
Qed.
Lemma read_all_flat : forall tab (f : nat -> list cell) g js, (forall j, In j js -> read_all tab (f j) = Some (g j)) ->
  @read_all X A tab (flat_map f js) = Some (flat_map g js).
Proof.
  induction js as [|j js IH]; intros H; [reflexivity|]. cbn [flat_map]. apply read_all_app; [apply H; left; reflexivity|].
  apply IH. intros i Hi. apply H. right. exact Hi.
Qed.

(** Reading back the cells of an environment gives its transitions. *)
Lemma read_env : forall tab j rows t, (forall i, i < length rows -> nth (t + i) tab [] = nth i rows []) ->
  @read_all X A tab (cells_of_env (pst_from t rows) j) = Some (col j rows).
Proof.
  intros tab j rows. induction rows as [|r rows IH]; intros t H; [reflexivity|].
  unfold cells_of_env, col in *. cbn [pst_from flat_map]. apply read_all_app.
  - unfold took, pst. cbn [fst snd]. rewrite nth_mask_of. pose proof (H 0 ltac:(simpl; lia)) as H0. rewrite Nat.add_0_r in H0. cbn [nth] in H0.
    destruct (nth j r None) as [x|] eqn:EX; [|reflexivity]. cbn [has read_all read_cell]. rewrite H0, EX. cbn [obind].
    unfold ended. cbn [snd]. rewrite nth_last_of, EX. cbn [ends]. rewrite with_last_id. reflexivity.
  - apply IH. intros i Hi. transitivity (nth (t + S i) tab []); [f_equal; lia|]. apply (H (S i)). simpl. lia.
Qed.

Lemma cells_app : forall a b j, cells_of_env (a ++ b) j = cells_of_env a j ++ cells_of_env b j.
Proof. intros. unfold cells_of_env. apply flat_map_app. Qed.
Lemma col_app : forall j a b, col j (a ++ b) = col j a ++ col j b.
Proof. intros. unfold col. apply flat_map_app. Qed.

(** The same when the last row, in which the environment takes part, is closed. *)
Lemma read_env_cut : forall tab j rows row x t, (forall i, i < length (rows ++ [row]) -> nth (t + i) tab [] = nth i (rows ++ [row]) []) ->
  nth j row None = Some x ->
  @read_all X A tab (cells_of_env (cut (pst_from t (rows ++ [row]))) j) = Some (closed (col j (rows ++ [row]))).
Proof.
  intros tab j rows row x t H HX. rewrite pst_from_app. cbn [pst_from]. unfold pst at 1. rewrite cut_snoc, cells_app, col_app.
  assert (J : j < length row).
  { destruct (lt_dec j (length row)); auto. rewrite nth_overflow in HX by lia. discriminate. }
  replace (col j [row]) with [x] by (unfold col; cbn [flat_map]; rewrite HX; reflexivity). rewrite closed_snoc.
  apply read_all_app.
  - apply read_env. intros i Hi. rewrite H by (rewrite app_length; simpl; lia). rewrite app_nth1 by lia. reflexivity.
  - unfold cells_of_env. cbn [flat_map]. unfold took. cbn [fst snd]. rewrite nth_mask_of, HX. cbn [has app]. cbn [read_all read_cell].
    rewrite H by (rewrite app_length; simpl; lia). rewrite app_nth2, Nat.sub_diag by lia. cbn [nth]. rewrite HX.
    assert (EE : ended j (t + length rows, mask_of row, map (fun _ : bool => true) (last_of row)) = true).
    { unfold ended. cbn [snd]. unfold last_of. rewrite map_map. transitivity (nth j (map (fun _ : option vsample => true) row) true).
      - apply nth_indep. rewrite map_length. exact J.
      - exact (map_nth (fun _ => true) row None j). }
    rewrite EE. reflexivity.
Qed.

(** The episodes that end in some rows, counted environment by environment. *)
Lemma flat_map_ext_in : forall B C (f g : B -> list C) l, (forall x, In x l -> f x = g x) -> flat_map f l = flat_map g l.
Proof. induction l as [|x l IH]; intros H; [reflexivity|]. cbn [flat_map]. rewrite H by (left; reflexivity). rewrite IH; [reflexivity|]. intros y Hy. apply H. right. exact Hy. Qed.
Lemma filter_flat : forall B C (p : C -> bool) (f : B -> list C) l, length (filter p (flat_map f l)) = list_sum (map (fun j => length (filter p (f j))) l).
Proof. induction l as [|x l IH]; [reflexivity|]. cbn [flat_map map list_sum]. rewrite filter_app, app_length, IH. reflexivity. Qed.
Lemma count_ends : forall n rows t, Forall (fun y => length y = n) rows ->
  length (filter (@CoreModel.last X A R unit) (flat_map (fun j => col j rows) (seq 0 n))) = n_eps_done (pst_from t rows).
Proof.
  intros n rows. induction rows as [|r rows IH]; intros t H.
  - cbn [pst_from]. rewrite filter_flat. unfold col. cbn [flat_map filter length]. unfold n_eps_done. cbn [map list_sum].
    induction (seq 0 n); [reflexivity|]. cbn [map list_sum]. exact IHl.
  - inversion H as [|? ? H1 H2]; subst. cbn [pst_from]. change (n_eps_done (pst t r :: pst_from (S t) rows)) with (cnt (last_of r) + n_eps_done (pst_from (S t) rows)).
    rewrite <- (IH (S t) H2). rewrite cnt_sumn. unfold last_of at 1. rewrite map_length. rewrite !filter_flat.
    fold (sumn (length r) (fun j => length (filter (@CoreModel.last X A R unit) (col j (r :: rows))))).
    fold (sumn (length r) (fun j => length (filter (@CoreModel.last X A R unit) (col j rows)))).
    rewrite <- sumn_plus. apply sumn_ext. intros j _. rewrite nth_last_of. unfold col. cbn [flat_map].
    rewrite filter_app, app_length. f_equal. destruct (nth j r None) as [x|]; [|reflexivity]. cbn [filter ends]. destruct (CoreModel.last x); reflexivity.
Qed.

(** ** Events *)
Lemma rows_of_app : forall a b : list event, rows_of (a ++ b) = rows_of a ++ rows_of b.
Proof. intros. unfold rows_of. apply flat_map_app. Qed.
Lemma xfits_app : forall a b : list event, xfits_of (a ++ b) = xfits_of a ++ xfits_of b.
Proof. intros. unfold xfits_of. apply flat_map_app. Qed.

Variable hor : option nat.
Lemma lives_app : forall j l1 l2 p q, lives hor j p (l1 ++ l2) q <-> exists m, lives (X := X) (A := A) hor j p l1 m /\ lives hor j m l2 q.
Proof.
  induction l1 as [|e l1 IH]; intros l2 p q; cbn [app].
  - cbn [lives]. split; [intros H; exists p; auto|intros (m & -> & H); exact H].
  - destruct e as [m|row|d]; cbn [lives].
    + destruct (nth j m false).
      * rewrite IH. firstorder.
      * apply IH.
    + destruct (nth j row None) as [x|].
      * split.
        { intros (a & Ha & Hl & H). apply IH in H as (m & H1 & H2). exists m. split; [exists a; auto|auto]. }
        { intros (m & (a & Ha & Hl & H1) & H2). exists a. split; auto. split; auto. apply IH. exists m. auto. }
      * rewrite IH. firstorder.
    + apply IH.
Qed.

Lemma lives_det : forall j l p q q', lives (X := X) (A := A) hor j p l q -> lives hor j p l q' -> q = q'.
Proof.
  induction l as [|e l IH]; intros p q q' H1 H2; cbn [lives] in *; [congruence|]. destruct e as [m|row|d].
  - destruct (nth j m false); [destruct H1, H2|]; eauto.
  - destruct (nth j row None) as [x|].
    + destruct H1 as (a & Ea & _ & H1), H2 as (a' & Ea' & _ & H2). rewrite Ea in Ea'. injection Ea' as <-. eauto.
    + destruct H1, H2. eauto.
  - eauto.
Qed.

Lemma lives_stuck : forall j l a q, lives (X := X) (A := A) hor j (Some a) l q -> of_env j l = [] -> q = Some a.
Proof.
  intros j l. unfold of_env. induction l as [|e l IH]; intros a q H O; cbn [lives] in *; [congruence|]. destruct e as [m|row|d]; cbn [rows_of flat_map app] in O.
  - destruct (nth j m false); [destruct H; discriminate|eauto].
  - fold (rows_of l) in O. destruct (nth j row None) as [x|]; [discriminate|]. destruct H; discriminate.
  - eauto.
Qed.

(** An environment whose part ends between episodes needs no closing. *)
Lemma lives_closed : forall j l p, lives (X := X) (A := A) hor j p l None -> closed (of_env j l) = of_env j l.
Proof.
  intros j l. unfold of_env. induction l as [|e l IH]; intros p H; [reflexivity|]. cbn [lives] in H.
  destruct e as [m|row|d]; cbn [rows_of flat_map app]; fold (rows_of l) in *.
  - destruct (nth j m false); [destruct H|]; eapply IH; eauto.
  - destruct (nth j row None) as [x|] eqn:EX.
    + destruct H as (a & _ & _ & H). cbn [app]. specialize (IH _ H).
      destruct (flat_map _ (rows_of l)) as [|y ys] eqn:EF.
      * destruct (CoreModel.last x) eqn:EL.
        { cbn [closed]. rewrite <- EL, with_last_id. reflexivity. }
        { apply lives_stuck in H; [discriminate|]. exact EF. }
      * cbn [closed] in *. f_equal. exact IH.
    + cbn [app]. destruct H as [_ H]. eapply IH; eauto.
  - eapply IH; eauto.
Qed.
End Lists.

Section Sim.
Context {E X A Ag : Type}.
Notation vsample := (CoreModel.sample X A R unit).
Variable n : nat.
Variable hor : option nat.
Variable garb : nat -> nat -> nat -> bool.
Variable e_reset : E -> E * X.
Variable e_step : E -> A -> E * X * R * bool.
Variable draw : Ag -> list X -> Ag * list A.
Variable fitf : Ag -> list vsample -> Ag.
Hypothesis Hn : 2 <= n.
Hypothesis Hhor : hor <> Some 0.
Hypothesis Hdraw : forall a xs, length (snd (draw a xs)) = length xs.
Variable cap : nat.
Variable s0 : xst E X A Ag.
Notation W0 := (W_of n hor garb []).
Notation xit := (xiterate n hor garb e_reset e_step draw fitf cap).
Notation xouts' := (xouts e_reset e_step draw).
Notation xab' := (xab e_reset e_step draw).
Notation xrow' := (xrow n hor garb e_reset e_step draw).
Notation xes' := (xes e_reset).
Notation xdraw' := (xdraw e_reset draw).

(** The absorbing flags the run will meet, as a world for VecCoreModel. *)
Definition xnext (s : xst E X A Ag) : xst E X A Ag := match xit s with Some s' => s' | None => s end.
Fixpoint at_t (t : nat) : xst E X A Ag := match t with O => s0 | S t' => xnext (at_t t') end.
Definition ab_at (t j : nat) : bool :=
  match vreset W0 (x_r (at_t t)) with Some r1 => nth j (xab' (at_t t) r1) false | None => false end.
Definition Wg : vworld := mkVW n hor ab_at garb.
Notation vn := (n_envs Wg).

Lemma vstep_W : forall ab r1, (forall j, j < n -> nth j ab false = ab_at (v_t r1) j) -> vstep (W_of n hor garb ab) r1 = vstep Wg r1.
Proof.
  intros ab r1 H. unfold vstep.
  assert (Q : map (fun p : bool * nat => fst p && absb (W_of n hor garb ab) (v_t r1) (snd p)) (combine (v_mask r1) (seq 0 (n_envs (W_of n hor garb ab)))) =
              map (fun p : bool * nat => fst p && absb Wg (v_t r1) (snd p)) (combine (v_mask r1) (seq 0 (n_envs Wg)))).
  { cbn [n_envs W_of Wg absb]. apply map_ext_in. intros [b j] HI. apply in_combine_r in HI. apply in_seq in HI. cbn [fst snd]. rewrite H by lia. reflexivity. }
  rewrite Q. reflexivity.
Qed.

Lemma viterate_W : forall ab r r1, vreset W0 r = Some r1 -> v_t r1 = v_t r -> (forall j, j < n -> nth j ab false = ab_at (v_t r) j) ->
  viterate (W_of n hor garb ab) cap r = viterate Wg cap r.
Proof.
  intros ab r r1 HR HT H. unfold viterate.
  change (vreset (W_of n hor garb ab) r) with (vreset W0 r). change (vreset Wg r) with (vreset W0 r).
  rewrite HR. cbn [obind]. rewrite vstep_W by (rewrite HT; exact H). reflexivity.
Qed.

(** Shape of an iteration. *)
Lemma viterate_shape : forall W r r', viterate W cap r = Some r' -> exists r1, vreset W r = Some r1 /\
  let ev := v_events r1 ++ [VStep (v_t r1) (v_mask r1) (v_last (vstep W r1))] in
  v_t r' = S (v_t r1) /\
  (v_events r' = ev \/
   exists d, v_events r' = ev ++ [VFit d] /\
     (forall k, CoreModel.n_episodes_per_fit (vl (v_log r')) = Some k -> running (v_log r') = repeat false (n_envs W))).
Proof.
  intros W r r' H. unfold viterate in H. destruct (vreset W r) as [r1|] eqn:R1; [|discriminate]. cbn [obind] in H.
  exists r1. split; [reflexivity|]. cbv zeta.
  destruct (vappend _ _ _ _ _) as [ds|]; [|discriminate]. cbn [obind] in H.
  destruct (CoreModel.fit_required _) as [[]|]; [| |discriminate].
  - destruct (flatten _ _ _) as [flat ds']. unfold after_fit_vectorized in H.
    destruct (CoreModel.n_episodes_per_fit (CoreModel.after_fit _)) eqn:NE; injection H as <-; cbn [v_t v_events v_log vl running];
      (split; [reflexivity|]); right; exists flat; (split; [reflexivity|]).
    + reflexivity.
    + intros k EK. pose proof (eq_trans (eq_sym NE) EK). discriminate.
  - injection H as <-. split; [reflexivity|]. left. reflexivity.
Qed.

(** ** One row *)
Lemma step_envs_len : forall m acts (es : list (E * X)), length m = n -> length acts = n -> length es = n -> length (step_envs e_step m acts es) = n.
Proof. intros. unfold step_envs. rewrite map_length, !combine_length. lia. Qed.

Lemma nth_error_combine : forall B C (a : list B) (b : list C) j x y, nth_error a j = Some x -> nth_error b j = Some y -> nth_error (combine a b) j = Some (x, y).
Proof. induction a; destruct b; destruct j; simpl; intros; try discriminate; [congruence|]. apply IHa; auto. Qed.

Lemma outs_at : forall m acts (es : list (E * X)) j e o, length m = n -> length acts = n -> length es = n -> nth_error es j = Some (e, o) ->
  exists a, nth_error acts j = Some a /\
  nth_error (step_envs e_step m acts es) j =
    Some (if nth j m false then let '(e', o', rw, ab) := e_step e a in ((e', o'), Some (CoreModel.mkS o a rw o' ab false tt tt)) else ((e, o), None)).
Proof.
  intros m acts es j e o Lm La Le He.
  assert (J : j < n) by (rewrite <- Le; apply nth_error_Some; congruence).
  destruct (nth_error acts j) as [a|] eqn:EA; [|apply nth_error_None in EA; lia].
  exists a. split; [reflexivity|].
  assert (EM : nth_error m j = Some (nth j m false)) by (apply List.nth_error_nth'; lia).
  unfold step_envs. rewrite nth_error_map.
  rewrite (nth_error_combine _ _ _ _ _ _ _ EM (nth_error_combine _ _ _ _ _ _ _ EA He)). cbn [option_map]. reflexivity.
Qed.

Record Shape (s : xst E X A Ag) (r1 : vrun) : Prop := {
  sh_reset : vreset W0 (x_r s) = Some r1;
  sh_env : length (x_env s) = n; sh_mask : length (v_mask r1) = n; sh_last : length (v_last (x_r s)) = n }.

Lemma xes_len : forall s r1, Shape s r1 -> length (xes' s r1) = n.
Proof.
  intros s r1 [_ L1 L2 L3]. unfold xes. destruct (vany _); [|exact L1]. unfold reset_envs, xrm, vand.
  rewrite map_length, combine_length, map_length, combine_length. lia.
Qed.
Lemma xes_at : forall s r1 j e o, Shape s r1 -> nth_error (x_env s) j = Some (e, o) ->
  nth_error (xes' s r1) j = Some (if vany (v_last (x_r s)) && nth j (xrm s r1) false then e_reset e else (e, o)).
Proof.
  intros s r1 j e o [_ L1 L2 L3] H. unfold xes. destruct (vany _); [|exact H]. cbn [andb]. unfold reset_envs. rewrite nth_error_map.
  assert (J : j < n) by (rewrite <- L1; apply nth_error_Some; congruence).
  assert (EM : nth_error (xrm s r1) j = Some (nth j (xrm s r1) false)).
  { apply List.nth_error_nth'. unfold xrm. rewrite vand_length; lia. }
  rewrite (nth_error_combine _ _ _ _ _ _ _ EM H). reflexivity.
Qed.
Lemma acts_len : forall s r1, Shape s r1 -> length (snd (xdraw' s r1)) = n.
Proof. intros s r1 SH. unfold xdraw. rewrite Hdraw, map_length. apply xes_len. exact SH. Qed.
Lemma xouts_len : forall s r1, Shape s r1 -> length (xouts' s r1) = n.
Proof. intros s r1 SH. apply step_envs_len; [apply SH|apply acts_len; exact SH|apply xes_len; exact SH]. Qed.

Lemma xrow_at : forall s r1 j, Shape s r1 -> length (v_last (vstep (W_of n hor garb (xab' s r1)) r1)) = n -> j < n ->
  exists e o a, nth_error (xes' s r1) j = Some (e, o) /\ nth_error (snd (xdraw' s r1)) j = Some a /\
    if nth j (v_mask r1) false then
      let '(e', o', rw, ab) := e_step e a in
      nth j (xrow' s r1) None = Some (CoreModel.mkS o a rw o' ab (nth j (v_last (vstep (W_of n hor garb (xab' s r1)) r1)) false) tt tt) /\
      nth_error (map fst (xouts' s r1)) j = Some (e', o')
    else nth j (xrow' s r1) None = None /\ nth_error (map fst (xouts' s r1)) j = Some (e, o).
Proof.
  intros s r1 j SH LL J. pose proof (xes_len _ _ SH) as LE. pose proof (acts_len _ _ SH) as LA.
  destruct (nth_error (xes' s r1) j) as [[e o]|] eqn:EE; [|apply nth_error_None in EE; lia].
  destruct (outs_at _ _ _ _ _ _ (sh_mask _ _ SH) LA LE EE) as (a & EA & EO).
  exists e, o, a. split; [reflexivity|]. split; [exact EA|].
  assert (EL : nth_error (v_last (vstep (W_of n hor garb (xab' s r1)) r1)) j = Some (nth j (v_last (vstep (W_of n hor garb (xab' s r1)) r1)) false)) by (apply List.nth_error_nth'; lia).
  unfold xrow, xouts. rewrite nth_error_map, EO.
  assert (RN : forall y, nth_error (map snd (step_envs e_step (v_mask r1) (snd (xdraw' s r1)) (xes' s r1))) j = Some y ->
     nth j (map (fun p : option vsample * bool => match fst p with Some x => Some (with_last x (snd p)) | None => None end)
       (combine (map snd (step_envs e_step (v_mask r1) (snd (xdraw' s r1)) (xes' s r1))) (v_last (vstep (W_of n hor garb (xab' s r1)) r1)))) None
     = match y with Some x => Some (with_last x (nth j (v_last (vstep (W_of n hor garb (xab' s r1)) r1)) false)) | None => None end).
  { intros y HY. apply nth_error_nth. rewrite nth_error_map, (nth_error_combine _ _ _ _ _ _ _ HY EL). reflexivity. }
  destruct (nth j (v_mask r1) false).
  - destruct (e_step e a) as [[[e' o'] rw] ab]. split; [|reflexivity].
    rewrite (RN (Some (CoreModel.mkS o a rw o' ab false tt tt))); [reflexivity|]. rewrite nth_error_map, EO. reflexivity.
  - split; [|reflexivity]. rewrite (RN None); [reflexivity|]. rewrite nth_error_map, EO. reflexivity.
Qed.

Lemma xrow_len : forall s r1, Shape s r1 -> length (v_last (vstep (W_of n hor garb (xab' s r1)) r1)) = n -> length (xrow' s r1) = n.
Proof. intros s r1 SH L. unfold xrow. rewrite map_length, combine_length, map_length, (xouts_len _ _ SH). lia. Qed.

(** The absorbing flag reported by an environment that takes part is that of its transition. *)
Lemma xab_at : forall s r1 j x, Shape s r1 -> length (v_last (vstep (W_of n hor garb (xab' s r1)) r1)) = n -> j < n ->
  nth j (xrow' s r1) None = Some x -> nth j (xab' s r1) false = CoreModel.absorbing x.
Proof.
  intros s r1 j x SH LL J HX. unfold xab. pose proof (xouts_len _ _ SH) as LO.
  destruct (nth_error (xouts' s r1) j) as [q|] eqn:EQ; [|apply nth_error_None in EQ; lia].
  assert (EL : nth_error (v_last (vstep (W_of n hor garb (xab' s r1)) r1)) j = Some (nth j (v_last (vstep (W_of n hor garb (xab' s r1)) r1)) false)) by (apply List.nth_error_nth'; lia).
  rewrite (nth_error_nth _ _ false (eq_trans (nth_error_map _ _ _) (f_equal _ EQ))). 
  assert (E2 : nth_error (map snd (xouts' s r1)) j = Some (snd q)) by (rewrite nth_error_map, EQ; reflexivity).
  pose proof (nth_error_nth _ _ None (eq_trans (nth_error_map _ _ _) (f_equal _ (nth_error_combine _ _ _ _ _ _ _ E2 EL)))
     : nth j (xrow' s r1) None = _) as NR.
  rewrite HX in NR. cbn [fst snd option_map] in NR. destruct (snd q) as [y|]; [|discriminate]. injection NR as ->. reflexivity.
Qed.

(** ** The run *)
Variable c0 : list (E * X) * Ag.
Notation hist := (history n e_reset e_step draw fitf).
Definition life (a : nat) : option nat := match a with O => None | S _ => Some a end.
Definition apart (u0 : list (xevent X A)) : Prop := u0 = [] \/ exists u1 d1, u0 = u1 ++ [XFit d1].

Record Inv (sc : vsched) (b : vbudget) (s : xst E X A Ag) : Prop := {
  i_head : Head Wg sc b (x_r s); i_data : Data Wg cap sc b (x_r s);
  i_at : s = at_t (v_t (x_r s));
  i_env : length (x_env s) = n;
  i_rows : rows_of (x_ev s) = x_tab s;
  i_len : Forall (fun y => length y = n) (x_tab s);
  i_steps : st_of (x_r s) = pst_from 0 (x_tab s);
  i_hist : hist c0 (x_ev s) (x_env s, x_ag s);
  i_life : forall j, j < n -> lives hor j None (x_ev s) (life (age j (st_of (x_r s))));
  i_cur : exists u0 w, x_ev s = u0 ++ w /\ apart u0 /\ xfits_of w = [] /\
            since_fit (v_events (x_r s)) = skipn (length (rows_of u0)) (pst_from 0 (x_tab s)) /\
            (match sc with VEps _ => forall j, j < n -> lives hor j None u0 None | _ => True end);
  i_fits : fits_by_env n (x_ev s);
  i_sizes : match sc with VSteps k => Forall (fun d => length d = k) (xfits_of (x_ev s))
            | VEps k => Forall (fun d => length (filter (@CoreModel.last X A R unit) d) = k) (xfits_of (x_ev s)) | VNever => True end;
  i_whole : match sc with VEps _ => forall u d v, x_ev s = u ++ XFit d :: v -> forall j, j < n -> lives hor j None u None | _ => True end;
  i_all : match sc with VSteps _ => Forall (Forall (fun o => o <> None)) (x_tab s) | _ => True end }.

Lemma Wn1 : 1 <= n_envs Wg. Proof. cbn. lia. Qed.
Lemma Wn2 : n_envs Wg <> 1. Proof. cbn. lia. Qed.

Lemma fits_by_env_more : forall l e, (forall d, e <> XFit d) -> fits_by_env n l -> fits_by_env (X := X) (A := A) n (l ++ [e]).
Proof.
  intros l e NE H u d v EQ. destruct v as [|y v] using rev_ind.
  - apply app_inj_tail in EQ as [_ EQ]. destruct (NE d EQ).
  - clear IHv. rewrite app_comm_cons, app_assoc in EQ. apply app_inj_tail in EQ as [EQ _]. apply (H u d v EQ).
Qed.
Lemma fits_by_env_fit : forall l d, fits_by_env n l ->
  (exists u0 w, l = u0 ++ w /\ apart u0 /\ xfits_of w = [] /\ d = by_env n w) -> fits_by_env (X := X) (A := A) n (l ++ [XFit d]).
Proof.
  intros l d H H1 u d' v EQ. destruct v as [|y v] using rev_ind.
  - apply app_inj_tail in EQ as [<- EQ]. injection EQ as <-. exact H1.
  - clear IHv. rewrite app_comm_cons, app_assoc in EQ. apply app_inj_tail in EQ as [EQ _]. apply (H u d' v EQ).
Qed.

Lemma Forall2_snoc : forall B C (Q : B -> C -> Prop) a b x y, Forall2 Q (a ++ [x]) (b ++ [y]) -> Q x y.
Proof.
  intros B C Q a b x y H. apply Forall2_app_inv_l in H as (l1 & l2 & _ & H & EQ). inversion H as [|? z ? l3 HQ H0]; subst. inversion H0; subst.
  apply app_inj_tail in EQ as [_ ->]. exact HQ.
Qed.
Lemma skip_app_len : forall B (a b : list B) c, c <= length a -> skipn c (a ++ b) = skipn c a ++ b.
Proof. intros B a b c H. rewrite skipn_app. replace (c - length a) with 0 by lia. reflexivity. Qed.

Lemma xiterate_inv : forall sc b s,
  Inv sc b s -> vpos sc -> clean Wg sc b cap -> CoreModel.move_required (vl (v_log (x_r s))) = Some true ->
  exists s', xit s = Some s' /\ Inv sc b s' /\ viterate Wg cap (x_r s) = Some (x_r s').
Proof.
  intros sc b s I Hp Hc Hm. pose proof (i_head _ _ _ I) as HH. pose proof (i_data _ _ _ I) as HD.
  destruct (viterate_ok Wg Wn1 Hhor Wn2 cap sc b (x_r s) HH HD Hp Hc Hm) as (r' & EV & D' & _).
  pose proof (viterate_head Wg Wn1 Hhor cap sc b (x_r s) r' HH Hp Hm EV) as H'.
  destruct (viterate_cases Wg Wn1 Hhor cap sc b (x_r s) HH Hp Hm) as (r1 & R1 & M & _ & Ee & Et & _ & _).
  change (vreset Wg (x_r s)) with (vreset W0 (x_r s)) in R1.
  assert (SH : Shape s r1).
  { constructor; [exact R1|apply (i_env _ _ _ I)|apply (c_lm _ _ _ _ (m_cnt _ _ _ _ M))|apply (c_ll _ _ _ _ (h_cnt _ _ _ _ HH))]. }
  assert (AB : forall j, j < n -> nth j (xab' s r1) false = ab_at (v_t (x_r s)) j).
  { intros j _. unfold ab_at. rewrite <- (i_at _ _ _ I), R1. reflexivity. }
  assert (AB1 : forall j, j < n -> nth j (xab' s r1) false = ab_at (v_t r1) j) by (rewrite Et; exact AB).
  pose proof (vstep_W _ _ AB1) as VW. pose proof (viterate_W _ _ _ R1 Et AB) as IW.
  destruct (vstep_lengths Wg Wn1 sc b r1 M) as [LL _]. pose proof (vstep_sub Wg Wn1 Hhor sc b r1 M) as SB. cbn [n_envs Wg] in LL.
  assert (LL' : length (v_last (vstep (W_of n hor garb (xab' s r1)) r1)) = n) by (rewrite VW; exact LL).
  pose proof (xrow_len _ _ SH LL') as LR. pose proof (fun j => xrow_at s r1 j SH LL') as RA. rewrite VW in RA.
  pose proof (fun j x => xab_at s r1 j x SH LL') as XA.
  set (row := xrow' s r1) in *.
  assert (EM : mask_of row = v_mask r1).
  { apply (nth_ext _ _ false false); unfold mask_of; rewrite map_length; [rewrite LR; symmetry; apply SH|].
    rewrite LR. intros j J. fold (mask_of row). rewrite nth_mask_of. destruct (RA j J) as (e & o & a & _ & _ & Q).
    destruct (nth j (v_mask r1) false); [destruct (e_step e a) as [[[? ?] ?] ?]|]; destruct Q as [-> _]; reflexivity. }
  assert (EL : last_of row = v_last (vstep Wg r1)).
  { apply (nth_ext _ _ false false); unfold last_of; rewrite map_length; [lia|].
    rewrite LR. intros j J. fold (last_of row). rewrite nth_last_of. destruct (RA j J) as (e & o & a & _ & _ & Q).
    destruct (nth j (v_mask r1) false) eqn:MJ; [destruct (e_step e a) as [[[? ?] ?] ?]; destruct Q as [-> _]; reflexivity|].
    destruct Q as [-> _]. cbn [ends]. destruct (nth j (v_last (vstep Wg r1)) false) eqn:LJ; auto. apply SB in LJ. congruence. }
  destruct (viterate_shape _ _ _ EV) as (r1' & R1' & SHP). change (vreset Wg (x_r s)) with (vreset W0 (x_r s)) in R1'. rewrite R1 in R1'. injection R1' as <-.
  cbv zeta in SHP. rewrite <- EM, <- EL, Ee in SHP. destruct SHP as (T' & SHP). fold (pst (v_t r1) row) in SHP.
  assert (TT : v_t r1 = length (x_tab s)).
  { rewrite Et, (c_time _ _ _ _ (h_cnt _ _ _ _ HH)), (i_steps _ _ _ I). apply pst_from_len. }
  (* life of each environment through this iteration *)
  set (ev1 := (if vany (v_last (x_r s)) then [XReset (xrm s r1)] else []) ++ [XStep row]) in *.
  assert (RV1 : forall j, j < n -> nth j (v_mask r1) false = true ->
     (vany (v_last (x_r s)) && nth j (xrm s r1) false = true /\ age j (st_of (x_r s)) = 0) \/
     (vany (v_last (x_r s)) && nth j (xrm s r1) false = false /\ 1 <= age j (st_of (x_r s)))).
  { intros j J MJ. unfold xrm. rewrite nth_vand by (rewrite (sh_last _ _ SH), (sh_mask _ _ SH); reflexivity). rewrite MJ, andb_true_r.
    destruct (h_mode _ _ _ _ HH) as [(R0 & L0 & A0)|(SBr & _ & MR & AG)].
    - left. split; [|apply A0; exact J]. rewrite L0. cbn [n_envs Wg]. rewrite nth_repeat_lt by exact J. rewrite andb_true_r.
      apply vany_cnt. rewrite cnt_repeat_t. lia.
    - specialize (AG j J). destruct (nth j (v_last (x_r s)) false) eqn:LJ.
      + left. split; [|exact AG]. rewrite andb_true_r. apply vany_cnt. destruct (cnt (v_last (x_r s))) eqn:CZ; [|lia].
        rewrite (proj1 (cnt_0 _) CZ) in LJ. discriminate.
      + right. rewrite andb_false_r. split; [reflexivity|]. apply AG.
        unfold vreset in R1. destruct (vany (v_last (x_r s))) eqn:VA.
        * destruct (get_mask W0 (v_log (x_r s)) (v_last (x_r s))) as [[m v']|] eqn:G; [|discriminate]. injection R1 as <-. cbn [v_mask] in MJ.
          destruct (get_mask_cases W0 _ _ _ _ (c_ll _ _ _ _ (h_cnt _ _ _ _ HH)) (c_lr _ _ _ _ (h_cnt _ _ _ _ HH)) G) as (_ & _ & K).
          destruct K as [K|K]; [|rewrite <- K; auto].
          apply vany_cnt in VA. assert (exists i, nth i (v_last (x_r s)) false = true) as (i & Hi).
          { apply cnt_pos_any. apply vany_cnt. exact VA. }
          apply SBr in Hi. rewrite (proj1 (cnt_0 _) K) in Hi. discriminate.
        * injection R1 as <-. rewrite <- MR. exact MJ. }
  assert (NP : forall j, j < n -> nth j (v_mask r1) false = false -> age j (st_of (x_r s)) = 0 /\ vany (v_last (x_r s)) && nth j (xrm s r1) false = false).
  { intros j J MJ. split.
    - destruct (age j (st_of (x_r s))) eqn:EA; auto. exfalso. pose proof (m_prog _ _ _ _ M j J) as Q. unfold in_progress, st_of in Q. rewrite Ee in Q.
      fold (st_of (x_r s)) in Q. rewrite EA, MJ in Q. specialize (Q ltac:(lia)). discriminate.
    - unfold xrm. rewrite nth_vand by (rewrite (sh_last _ _ SH), (sh_mask _ _ SH); reflexivity). rewrite MJ, !andb_false_r. reflexivity. }
  assert (ST : forall ev, (ev = v_events (x_r s) ++ [VStep (v_t r1) (mask_of row) (last_of row)]) ->
     steps_of ev = st_of (x_r s) ++ [pst (v_t r1) row]) by (intros ev ->; rewrite steps_app; reflexivity).
  assert (SR : st_of r' = st_of (x_r s) ++ [pst (v_t r1) row]).
  { unfold st_of. destruct SHP as [->|(d & -> & _)]; rewrite ?steps_app; reflexivity || (cbn [steps_of flat_map]; rewrite ?app_nil_r; reflexivity). }
  assert (AGE : forall j, age j (st_of r') = if nth j (last_of row) false then 0 else if nth j (mask_of row) false then age j (st_of (x_r s)) + 1 else age j (st_of (x_r s))).
  { intros j. rewrite SR. unfold pst. rewrite age_snoc. reflexivity. }
  assert (LIFE : forall j, j < n -> lives hor j None (x_ev s ++ ev1) (life (age j (st_of r')))).
  { intros j J. apply lives_app. exists (life (age j (st_of (x_r s)))). split; [apply (i_life _ _ _ I); exact J|].
    rewrite AGE, EM. pose proof (nth_last_of row j) as NLO. destruct (RA j J) as (e & o & a & _ & _ & Q).
    assert (STEP : forall p, (nth j (v_mask r1) false = true -> p = Some (age j (st_of (x_r s)))) -> (nth j (v_mask r1) false = false -> p = None) ->
       lives hor j p [XStep row] (life (if nth j (last_of row) false then 0 else if nth j (v_mask r1) false then age j (st_of (x_r s)) + 1 else age j (st_of (x_r s))))).
    { intros p P1 P2. cbn [lives]. destruct (nth j (v_mask r1) false) eqn:MJ.
      - specialize (P1 eq_refl). destruct (e_step e a) as [[[e' o'] rw] abj]. destruct Q as [Q _].
        assert (AB2 := XA j _ J Q). rewrite Q. exists (age j (st_of (x_r s))). split; [exact P1|]. cbn [CoreModel.last CoreModel.absorbing] in *.
        pose proof (vstep_last Wg Wn1 Hhor sc b r1 M j J) as VL. rewrite VL. rewrite MJ.
        rewrite NLO, Q. cbn [ends CoreModel.last]. rewrite VL, MJ. cbn [andb].
        assert (AT : absb Wg (v_t r1) j = abj) by (cbn [absb Wg]; rewrite <- AB1 by exact J; exact AB2).
        assert (AS : age j (st_of r1) = age j (st_of (x_r s))) by (unfold st_of; rewrite Ee; reflexivity).
        rewrite AT, AS. split.
        + rewrite orb_true_iff. cbn [vhorizon Wg]. destruct hor as [h|].
          * rewrite Nat.leb_le. split; [intros [?|?]; [left; auto|right; exists h; auto]|intros [?|(h' & EH & ?)]; [auto|right; injection EH as <-; auto]].
          * split; [intros [?|?]; [auto|discriminate]|intros [?|(h' & EH & _)]; [auto|discriminate]].
        + destruct (abj || _); [reflexivity|]. destruct (age j (st_of (x_r s))); reflexivity.
      - destruct Q as [Q _]. rewrite Q. split; [apply P2; reflexivity|]. rewrite NLO, Q. cbn [ends].
        destruct (NP j J MJ) as [-> _]. reflexivity. }
    destruct (vany (v_last (x_r s))) eqn:VA.
    - change (lives hor j (life (age j (st_of (x_r s)))) (XReset (xrm s r1) :: [XStep row]) (life (if nth j (last_of row) false then 0 else if nth j (v_mask r1) false then age j (st_of (x_r s)) + 1 else age j (st_of (x_r s))))).
      remember [XStep row] as tl. cbn [lives]. subst tl. destruct (nth j (xrm s r1) false) eqn:RJ.
      + destruct (nth j (v_mask r1) false) eqn:MJ.
        * destruct (RV1 j J MJ) as [[_ A0]|[Z _]]; [|rewrite RJ in Z; discriminate]. split; [rewrite A0; reflexivity|]. apply STEP; [rewrite A0; auto|discriminate].
        * destruct (NP j J MJ) as [_ Z]. rewrite RJ in Z. discriminate.
      + apply STEP.
        * intros MJ. destruct (RV1 j J MJ) as [[Z _]|[_ Z]]; [rewrite RJ in Z; discriminate|]. destruct (age j (st_of (x_r s))); [lia|reflexivity].
        * intros MJ. destruct (NP j J MJ) as [-> _]. reflexivity.
    - change (lives hor j (life (age j (st_of (x_r s)))) [XStep row] (life (if nth j (last_of row) false then 0 else if nth j (v_mask r1) false then age j (st_of (x_r s)) + 1 else age j (st_of (x_r s))))).
      apply STEP.
      + intros MJ. destruct (RV1 j J MJ) as [[Z _]|[_ Z]]; [discriminate Z|]. destruct (age j (st_of (x_r s))); [lia|reflexivity].
      + intros MJ. destruct (NP j J MJ) as [-> _]. reflexivity. }
  (* history *)
  assert (HIST : hist c0 (x_ev s ++ ev1) (map fst (xouts' s r1), fst (xdraw' s r1))).
  { assert (HI1 : hist c0 (x_ev s ++ (if vany (v_last (x_r s)) then [XReset (xrm s r1)] else [])) (xes' s r1, x_ag s)).
    { pose proof (fun j e o => xes_at s r1 j e o SH) as XE. pose proof (xes_len s r1 SH) as XL. unfold xes in *. destruct (vany (v_last (x_r s))).
      - eapply hi_snoc; [apply (i_hist _ _ _ I)|]. constructor; [apply SH|exact XL|]. intros j e o He. apply XE. exact He.
      - rewrite app_nil_r. apply (i_hist _ _ _ I). }
    unfold ev1. rewrite app_assoc. eapply hi_snoc; [exact HI1|].
    apply (h_step n e_reset e_step draw fitf row (xes' s r1) (map fst (xouts' s r1)) (x_ag s) (fst (xdraw' s r1)) (snd (xdraw' s r1))).
    - apply xes_len; exact SH.
    - rewrite map_length. apply xouts_len; exact SH.
    - exact LR.
    - apply surjective_pairing.
    - intros j e o He. assert (J : j < n) by (rewrite <- (xes_len s r1 SH); apply nth_error_Some; congruence).
      destruct (RA j J) as (e1 & o1 & a & He1 & Ha & Q). rewrite He in He1. injection He1 as <- <-.
      destruct (nth j (v_mask r1) false).
      + destruct (e_step e a) as [[[e' o'] rw] abj] eqn:ES. destruct Q as [-> Q]. cbn. split; [reflexivity|]. split; [exact Ha|]. exists e'. rewrite ES. auto.
      + destruct Q as [-> Q]. exact Q. }
  assert (ROWS : rows_of (x_ev s ++ ev1) = x_tab s ++ [row]).
  { rewrite rows_of_app, (i_rows _ _ _ I). f_equal. unfold ev1. destruct (vany _); reflexivity. }
  assert (NF1 : xfits_of ev1 = []) by (unfold ev1; destruct (vany _); reflexivity).
  assert (TAB : pst_from 0 (x_tab s ++ [row]) = pst_from 0 (x_tab s) ++ [pst (v_t r1) row]) by (rewrite pst_from_app, TT; reflexivity).
  assert (FM : fits_by_env n (x_ev s ++ ev1)).
  { unfold ev1. rewrite app_assoc. apply fits_by_env_more; [discriminate|]. destruct (vany _); [apply fits_by_env_more; [discriminate|]|rewrite app_nil_r]; apply (i_fits _ _ _ I). }
  assert (WH : match sc with VEps _ => forall u d v, x_ev s ++ ev1 = u ++ XFit d :: v -> forall j, j < n -> lives hor j None u None | _ => True end).
  { pose proof (i_whole _ _ _ I) as Q. destruct sc as [|k|]; auto. intros u d v EQ. apply (Q u d (firstn (length (x_ev s) - (length u + 1)) v)).
    assert (LU : length u < length (x_ev s)).
    { destruct (lt_dec (length u) (length (x_ev s))); auto. exfalso.
      assert (NN : nth_error (x_ev s ++ ev1) (length u) = Some (XFit d)) by (rewrite EQ, nth_error_app2, Nat.sub_diag by lia; reflexivity).
      rewrite nth_error_app2 in NN by lia. apply nth_error_In in NN. assert (In d (xfits_of ev1)); [|rewrite NF1 in *; auto].
      unfold xfits_of. apply in_flat_map. exists (XFit d). split; [exact NN|left; reflexivity]. }
    assert (F1 : firstn (length (x_ev s)) (x_ev s ++ ev1) = x_ev s) by (rewrite firstn_app, Nat.sub_diag, firstn_all; cbn [firstn]; apply app_nil_r).
    rewrite <- F1 at 1. rewrite EQ, firstn_app, (firstn_all2 u) by lia. f_equal.
    replace (length (x_ev s) - length u) with (S (length (x_ev s) - (length u + 1))) by lia. reflexivity. }
  destruct (i_cur _ _ _ I) as (u0 & w & EU & AP & NF & SF & WU).
  assert (LU0 : length (rows_of u0) <= length (x_tab s)).
  { rewrite <- (i_rows _ _ _ I), EU, rows_of_app, app_length. lia. }
  assert (RW : rows_of (w ++ ev1) = skipn (length (rows_of u0)) (x_tab s ++ [row])).
  { rewrite <- ROWS, EU, <- app_assoc, (rows_of_app u0), skipn_app, skipn_all, Nat.sub_diag. reflexivity. }
  assert (SF1 : since_fit (v_events (x_r s) ++ [VStep (v_t r1) (mask_of row) (last_of row)]) = skipn (length (rows_of u0)) (pst_from 0 (x_tab s ++ [row]))).
  { rewrite since_snoc_step, SF, TAB, skip_app_len by (rewrite pst_from_len; exact LU0). reflexivity. }
  assert (TAIL : xit s = match rev (v_events r') with
     | VFit d :: _ => ds <- read_all (x_tab s ++ [row]) d ;;
         Some (mkX r' (map fst (xouts' s r1)) (fitf (fst (xdraw' s r1)) ds) (x_tab s ++ [row]) ((x_ev s ++ ev1) ++ [XFit ds]))
     | _ => Some (mkX r' (map fst (xouts' s r1)) (fst (xdraw' s r1)) (x_tab s ++ [row]) (x_ev s ++ ev1))
     end).
  { unfold xiterate. rewrite R1. cbn [obind]. fold row. rewrite IW, EV. cbn [obind]. fold ev1. reflexivity. }
  assert (ATN : forall s', xit s = Some s' -> v_t (x_r s') = S (v_t r1) -> s' = at_t (v_t (x_r s'))).
  { intros s' E1 E2. rewrite E2, Et. cbn [at_t]. rewrite <- (i_at _ _ _ I). unfold xnext. rewrite E1. reflexivity. }
  assert (LO : length (map fst (xouts' s r1)) = n) by (rewrite map_length; apply xouts_len; exact SH).
  assert (SIZ0 : match sc with VSteps k => Forall (fun d => length d = k) (xfits_of (x_ev s ++ ev1))
            | VEps k => Forall (fun d => length (filter (@CoreModel.last X A R unit) d) = k) (xfits_of (x_ev s ++ ev1)) | VNever => True end).
  { pose proof (i_sizes _ _ _ I) as Q. rewrite xfits_app, NF1, app_nil_r. exact Q. }
  assert (ALL : match sc with VSteps _ => Forall (Forall (fun o => o <> None)) (x_tab s ++ [row]) | _ => True end).
  { pose proof (i_all _ _ _ I) as Q. destruct sc as [k| |]; auto. apply Forall_app. split; [exact Q|]. constructor; [|constructor].
    assert (MA : cnt (v_mask r1) = n) by (pose proof (m_all _ _ _ _ M) as Z; destruct b; [exact Z|destruct Hc]).
    rewrite <- EM in MA. assert (MB : cnt (mask_of row) = length row) by lia. clear - MB. unfold mask_of in MB.
    induction row as [|y l IH]; [constructor|]. cbn [map length] in MB. rewrite cnt_cons in MB. pose proof (cnt_le (map has l)) as LE. rewrite map_length in LE.
    destruct y as [x|]; cbn [has] in MB; [|lia]. constructor; [discriminate|]. apply IH. lia. }
  destruct SHP as [EVT|(d & EVT & RUN)].
  - rewrite EVT, rev_app_distr in TAIL. cbn [rev app] in TAIL.
    exists (mkX r' (map fst (xouts' s r1)) (fst (xdraw' s r1)) (x_tab s ++ [row]) (x_ev s ++ ev1)). split; [exact TAIL|]. split; [|exact EV].
    constructor; cbn [x_r x_env x_ag x_tab x_ev]; try assumption.
    + apply (ATN _ TAIL). exact T'.
    + apply Forall_app. split; [apply (i_len _ _ _ I)|constructor; [exact LR|constructor]].
    + rewrite SR, (i_steps _ _ _ I), TAB. reflexivity.
    + exists u0, (w ++ ev1). rewrite EU, <- app_assoc. split; [reflexivity|]. split; [exact AP|]. split; [rewrite xfits_app, NF, NF1; reflexivity|].
      split; [rewrite EVT; exact SF1|exact WU].
  - rewrite EVT, !rev_app_distr in TAIL. cbn [rev app] in TAIL.
    pose proof (d_fits _ _ _ _ _ D') as DF. rewrite EVT, fitb_snoc_fit, vfits_app, fitb_snoc_step in DF. cbn [vfits_of flat_map app] in DF.
    apply Forall2_snoc in DF as [D1 D2].
    rewrite SF1, pst_from_skip, Nat.add_0_l in D1. rewrite SF1, pst_from_skip, Nat.add_0_l in D2.
    assert (CL : match sc with VEps _ => forall j, j < n -> closed (of_env j (w ++ ev1)) = of_env j (w ++ ev1) | _ => True end).
    { destruct sc as [|k|]; auto. intros j Hj.
      assert (LW : lives hor j None (w ++ ev1) None).
      { assert (L1 := LIFE j ltac:(lia)). rewrite EU, <- app_assoc in L1. apply lives_app in L1 as (m & L1 & L2).
          rewrite (lives_det hor j u0 None m None L1 (WU j ltac:(lia))) in L2.
          assert (A0 : age j (st_of r') = 0); [|rewrite A0 in L2; exact L2].
          assert (EK : CoreModel.n_episodes_per_fit (vl (v_log r')) = Some k).
          { pose proof (c_s _ _ _ _ (h_cnt _ _ _ _ H')) as Q. simpl in Q. apply Q. }
          specialize (RUN _ EK). destruct (h_mode _ _ _ _ H') as [(_ & _ & A0)|(_ & CP & _)]; [apply A0; cbn; lia|].
          rewrite RUN, cnt_repeat_f in CP. lia. }
      apply (lives_closed hor j _ _ LW). }
    assert (RD : read_all (x_tab s ++ [row]) d = Some (by_env n (w ++ ev1))).
    { set (c := length (rows_of u0)) in *.
      assert (NTH : forall i, i < length (skipn c (x_tab s ++ [row])) -> nth (c + i) (x_tab s ++ [row]) [] = nth i (skipn c (x_tab s ++ [row])) []).
      { intros i _. clear. revert i. generalize (x_tab s ++ [row]). induction c as [|c IH]; intros [|y l] i; try reflexivity; cbn [plus nth skipn]; auto. destruct i; reflexivity. }
      unfold by_env. destruct sc as [k|k|];
        [| |exfalso; assert (CB := c_batches _ _ _ _ (h_cnt _ _ _ _ H')); rewrite EVT, fitb_snoc_fit in CB; apply Forall_app in CB as [_ CB]; inversion CB; assumption].
      - rewrite D1. unfold transitions. apply read_all_flat. intros j Hj. apply in_seq in Hj. unfold of_env. fold (col j (rows_of (w ++ ev1))). rewrite RW.
        rewrite skip_app_len by exact LU0. rewrite skip_app_len in NTH by exact LU0.
        assert (MA : cnt (v_mask r1) = n) by (pose proof (m_all _ _ _ _ M) as Q; destruct b; [exact Q|destruct Hc]).
        assert (MJ : nth j (v_mask r1) false = true).
        { destruct (nth j (v_mask r1) false) eqn:Z; auto. exfalso. rewrite <- (sh_mask _ _ SH) in MA.
          assert (J : j < length (v_mask r1)) by (rewrite (sh_mask _ _ SH); lia).
          clear - MA Z J. revert j Z J. induction (v_mask r1) as [|y l IH]; intros j Z J; [simpl in J; lia|]. rewrite cnt_cons in MA. pose proof (cnt_le l).
          destruct y; [|simpl in MA; lia]. destruct j; [discriminate|]. simpl in MA. apply (IH ltac:(lia) j Z). simpl in J. lia. }
        destruct (RA j ltac:(lia)) as (e & o & a & _ & _ & Q). rewrite MJ in Q. destruct (e_step e a) as [[[? ?] ?] ?]. destruct Q as [Q _].
        eapply read_env_cut; [exact NTH|exact Q].
      - rewrite D2. unfold transitions. apply read_all_flat. intros j Hj. apply in_seq in Hj.
        rewrite (CL j ltac:(lia)). unfold of_env. fold (col j (rows_of (w ++ ev1))). rewrite RW. apply read_env. exact NTH. }
    rewrite RD in TAIL. cbn [obind] in TAIL.
    eexists. split; [exact TAIL|]. split; [|exact EV].
    assert (LZ : match sc with VEps _ => forall j, j < n -> lives hor j None (x_ev s ++ ev1) None | _ => True end).
    { destruct sc as [|k|]; auto. intros j J. assert (L1 := LIFE j J).
      assert (EK : CoreModel.n_episodes_per_fit (vl (v_log r')) = Some k).
      { pose proof (c_s _ _ _ _ (h_cnt _ _ _ _ H')) as Q. simpl in Q. apply Q. }
      specialize (RUN _ EK). destruct (h_mode _ _ _ _ H') as [(_ & _ & A0)|(_ & CP & _)]; [rewrite (A0 j J) in L1; exact L1|].
      rewrite RUN, cnt_repeat_f in CP. lia. }
    constructor; cbn [x_r x_env x_ag x_tab x_ev]; try assumption.
    + apply (ATN _ TAIL). exact T'.
    + rewrite rows_of_app, ROWS. cbn [rows_of flat_map]. apply app_nil_r.
    + apply Forall_app. split; [apply (i_len _ _ _ I)|constructor; [exact LR|constructor]].
    + rewrite SR, (i_steps _ _ _ I), TAB. reflexivity.
    + eapply hi_snoc; [exact HIST|]. constructor.
    + intros j J. apply lives_app. eexists. split; [apply LIFE; exact J|reflexivity].
    + exists ((x_ev s ++ ev1) ++ [XFit (by_env n (w ++ ev1))]), []. rewrite app_nil_r. split; [reflexivity|]. split; [right; eauto|]. split; [reflexivity|].
      split.
      * rewrite EVT, since_snoc_fit, rows_of_app, ROWS. cbn [rows_of flat_map]. rewrite app_nil_r, skipn_all2; [reflexivity|]. rewrite pst_from_len. lia.
      * destruct sc; auto. intros j J. apply lives_app. exists None. split; [apply LZ; exact J|reflexivity].
    + apply fits_by_env_fit; [exact FM|]. exists u0, (w ++ ev1). rewrite EU, <- app_assoc. split; [reflexivity|]. split; [exact AP|]. split; [rewrite xfits_app, NF, NF1; reflexivity|reflexivity].
    + destruct sc as [k|k|]; auto.
      { rewrite xfits_app. apply Forall_app. split; [exact SIZ0|]. cbn [xfits_of flat_map app]. constructor; [|constructor].
      rewrite <- D2. clear -RD. revert RD. generalize (by_env n (w ++ ev1)). induction d as [|y d IH]; intros l RD; cbn [read_all] in RD; [injection RD as <-; reflexivity|].
      destruct (read_cell _ y); [|discriminate]. cbn [obind] in RD. destruct (read_all _ d) as [l'|]; [|discriminate]. cbn [obind] in RD. injection RD as <-. cbn [length]. f_equal. apply IH. reflexivity. }
      rewrite xfits_app. apply Forall_app. split; [exact SIZ0|]. cbn [xfits_of flat_map app]. constructor; [|constructor].
      assert (CB := c_batches _ _ _ _ (h_cnt _ _ _ _ H')). rewrite EVT, fitb_snoc_fit, fitb_snoc_step in CB. apply Forall_app in CB as [_ CB]. inversion CB as [|? ? CK _]. cbn beta iota in CK.
      rewrite SF1, pst_from_skip, Nat.add_0_l in CK. rewrite <- CK. unfold by_env.
      rewrite (flat_map_ext_in _ _ _ (fun j => col j (rows_of (w ++ ev1)))) by (intros j Hj; apply in_seq in Hj; apply CL; lia).
      rewrite RW. apply count_ends. rewrite Forall_forall. intros y Hy. assert (In y (x_tab s ++ [row])).
      { rewrite <- (firstn_skipn (length (rows_of u0)) (x_tab s ++ [row])). apply in_or_app. right. exact Hy. }
      assert (Forall (fun y => length y = n) (x_tab s ++ [row])) as FL by (apply Forall_app; split; [apply (i_len _ _ _ I)|constructor; [exact LR|constructor]]).
      rewrite Forall_forall in FL. apply FL. assumption.
    + destruct sc as [|k|]; auto. intros u d' v EQ. destruct v as [|y v] using rev_ind.
      * apply app_inj_tail in EQ as [<- EQ]. exact LZ.
      * clear IHv. rewrite app_comm_cons, app_assoc in EQ. apply app_inj_tail in EQ as [EQ _]. apply (WH u d' v EQ).
Qed.
End Sim.

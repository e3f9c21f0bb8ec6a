(** Theorems C35, C36. *)
From Coq Require Import List Arith Lia Reals Bool Lra Psatz ZArith.
From Verif Require Import Common FmdpModel FmdpSpec FmdpProofs FeatProofs UtilProofs.
Import ListNotations.

(** * Simple chain *)

Theorem chain_stochastic : forall n prob i a, (0 <= prob <= 1)%R -> i < n -> a < 2 ->
  distribution n (chain_p n prob i a) /\
  (a = 0 -> S i < n -> chain_p n prob i a (S i) = prob /\ chain_p n prob i a i = (1 - prob)%R) /\
  (a = 1 -> 0 < i -> chain_p n prob i a (i - 1) = prob /\ chain_p n prob i a i = (1 - prob)%R).
Proof.
  intros n prob i a Hp Hi Ha.
  assert (D1 : distribution n (vset vzero i 1%R)).
  { split; [|split].
    - intros j _. unfold vset, vzero. destruct (Nat.eqb j i); lra.
    - fold (row_total n (vset vzero i 1%R)). rewrite total_vset, total_vzero by auto. unfold vzero. lra.
    - intros j Hj. rewrite vset_neq by lia. reflexivity. }
  assert (D2 : forall k, k < n -> k <> i -> distribution n (vset (vset vzero i (1 - prob)%R) k prob)).
  { intros k Hk N. split; [|split].
    - intros j _. unfold vset, vzero. destruct (Nat.eqb j k); [lra|]. destruct (Nat.eqb j i); lra.
    - fold (row_total n (vset (vset vzero i (1 - prob)%R) k prob)). rewrite !total_vset, total_vzero by auto.
      rewrite vset_neq by auto. unfold vzero. lra.
    - intros j Hj. rewrite !vset_neq by lia. reflexivity. }
  unfold chain_p. destruct a as [|[|a]]; [| |lia]; cbn [Nat.eqb].
  - destruct (Nat.eqb_spec i (n - 1)) as [E|E].
    + split; [exact D1|]. split; intros; lia.
    + split; [apply D2; lia|]. split; [|discriminate]. intros _ _. rewrite Nat.add_1_r.
      rewrite vset_eq. rewrite vset_neq, vset_eq by lia. auto.
  - destruct (Nat.eqb_spec i 0) as [E|E].
    + split; [exact D1|]. split; intros; lia.
    + split; [apply D2; lia|]. split; [discriminate|]. intros _ _.
      rewrite vset_eq. rewrite vset_neq, vset_eq by lia. auto.
Qed.

Lemma fold_hit : forall (T : Type) (body : (nat -> nat -> nat -> R) -> T -> nat -> nat -> nat -> R) (hit : T -> Prop) i a j rew l t,
  (forall g, hit g \/ ~ hit g) ->
  (forall t g, In g l -> (hit g -> body t g i a j = rew) /\ (~ hit g -> body t g i a j = t i a j)) ->
  ((exists g, In g l /\ hit g) -> fold_left body l t i a j = rew) /\
  ((forall g, In g l -> ~ hit g) -> fold_left body l t i a j = t i a j).
Proof.
  intros T body hit i a j rew l t D. revert t. induction l as [|g l IH]; intros t H.
  - split; [intros (g & [] & _)|auto].
  - destruct (IH (body t g)) as [A B]; [intros; apply H; simpl; auto|]. destruct (H t g (or_introl eq_refl)) as [H1 H2]. cbn [fold_left]. split.
    + intros (g' & I & Hg). 
      assert (DD : (exists g, In g l /\ hit g) \/ (forall g, In g l -> ~ hit g)).
      { clear -D. induction l as [|x l [IH|IH]]; [right; intros g []|left; destruct IH as (g & I & h); exists g; simpl; auto|].
        destruct (D x); [left; exists x; simpl; auto|right]. intros g [<-|I]; auto. }
      destruct DD as [DD|DD]; [auto|]. rewrite B by auto. apply H1. destruct I as [->|I]; auto. exfalso. apply (DD g' I Hg).
    + intros N. rewrite B by (intros; apply N; simpl; auto). apply H2. apply N. simpl; auto.
Qed.

(** The reward is obtained exactly by the transitions that move into a goal state. *)
Theorem chain_reward : forall n goals rew i a j, (forall g, In g goals -> g < n) -> i < n -> j < n -> a < 2 ->
  let moves := (a = 0 /\ j = S i) \/ (a = 1 /\ i = S j) in
  (In j goals /\ moves -> chain_r n goals rew i a j = rew) /\
  (~ (In j goals /\ moves) -> chain_r n goals rew i a j = 0%R).
Proof.
  intros n goals rew i a j HG Hi Hj Ha moves. unfold chain_r.
  assert (DM : moves \/ ~ moves) by (unfold moves; lia).
  destruct (fold_hit nat (fun t g => let t1 := if Nat.eqb g 0 then t else tset3 t (g - 1) 0 g rew in
      if Nat.eqb g (n - 1) then t1 else tset3 t1 (g + 1) 1 g rew) (fun g => g = j /\ moves) i a j rew goals (fun _ _ _ => 0%R)) as [A B].
  - intros g. destruct (Nat.eq_dec g j), DM; tauto.
  - intros t g Ig. specialize (HG g Ig). split.
    + intros [-> [[-> Hj']|[-> Hi']]].
      * destruct (Nat.eqb_spec j 0); [lia|].
        assert (E : tset3 t (j - 1) 0 j rew i 0 j = rew) by (replace (j - 1) with i by lia; apply tset3_eq).
        destruct (Nat.eqb_spec j (n - 1)); auto. rewrite tset3_neq by (intros X; injection X; lia). exact E.
      * destruct (Nat.eqb_spec j (n - 1)); [lia|]. replace (j + 1) with i by lia. apply tset3_eq.
    + intros N. cbv zeta.
      assert (E : (if Nat.eqb g 0 then t else tset3 t (g - 1) 0 g rew) i a j = t i a j).
      { destruct (Nat.eqb_spec g 0); auto. apply tset3_neq. intros X. injection X as X1 X2 X3. apply N. split; auto. left. lia. }
      destruct (Nat.eqb_spec g (n - 1)); auto. rewrite tset3_neq; auto. intros X. injection X as X1 X2 X3. apply N. split; auto. right. lia.
  - split.
    + intros [I M]. apply A. exists j. auto.
    + intros N. apply B. intros g Ig [-> M]. apply N. auto.
Qed.

(** * Grid files *)

(** When the file ends with a newline the cells are exactly the non-wall positions of
    the map, in row-major order. *)
Theorem parse_grid_cells_partial : forall bad cs g cells, parse_grid bad (cs ++ [NL]) = Some (g, cells) ->
  cells = positions (fun m => negb (is_wall m)) g /\
  (forall x, In x cells <-> exists m, lookup g x = Some m /\ m <> Wall) /\ NoDup cells.
Proof.
  intros bad cs g cells H. unfold parse_grid in H. apply (parse_inv bad (cs ++ [NL]) [] [] [] g cells eq_refl) in H.
  destruct H as (row' & A & B & _). rewrite B in A; [|destruct cs; discriminate|apply last_last].
  assert (E : cells = positions (fun m => negb (is_wall m)) g) by (rewrite A; unfold row_cells; simpl; apply app_nil_r).
  split; auto. rewrite E. split; [|apply positions_NoDup]. intros x. rewrite positions_In.
  split; intros (m & L & F); exists m; split; auto; [destruct m; discriminate || (intros X; discriminate)|destruct m; auto; congruence].
Qed.

(** Without the final newline the last row is missing from the map while its cells are
    in the list: the construction of the transition matrix raises. *)
Theorem parse_grid_last_row_refuted : forall bad cs m g cells, m <> Wall -> parse_grid bad (cs ++ [Mk m]) = Some (g, cells) ->
  exists i, i < length cells /\ lookup g (nth i cells (0, 0)) = None /\ forall prob a, grid_p g cells prob i a = None.
Proof.
  intros bad cs m g cells HM H. unfold parse_grid in H. apply (parse_inv bad (cs ++ [Mk m]) [] [] [] g cells eq_refl) in H.
  destruct H as (row' & A & _ & _ & D). destruct (D m) as (r0 & ->); [apply last_last|].
  rewrite row_cells_snoc in A. destruct (is_wall m) eqn:W; [destruct m; try discriminate; congruence|].
  assert (I : In (length g, length r0) cells) by (rewrite A, !in_app_iff; right; right; simpl; auto).
  destruct (In_nth cells (length g, length r0) (0, 0) I) as (i & Hi & E). exists i. split; auto.
  assert (L : lookup g (nth i cells (0, 0)) = None).
  { rewrite E. unfold lookup. cbn [fst]. replace (nth_error g (length g)) with (@None (list mark)); auto. symmetry. apply nth_error_None. lia. }
  split; auto. intros prob a. unfold grid_p. rewrite L. reflexivity.
Qed.

Lemma mark_eqb_iff : forall a b, mark_eqb a b = true <-> a = b.
Proof. intros [] []; simpl; split; intros; congruence. Qed.

(** Every mark of the file is on the map when the file ends with a newline. *)
Lemma parse_marks : forall bad cs gm cells row ri ci g out t, parse bad (cs ++ [NL]) gm cells row ri ci = Some (g, out) ->
  In t (concat gm) \/ In t row \/ has_mark t cs = true -> In t (concat g).
Proof.
  induction cs as [|c cs IH]; intros gm cells row ri ci g out t H I.
  - cbn [app parse] in H. inversion H; subst. rewrite concat_app, in_app_iff. simpl. rewrite app_nil_r.
    destruct I as [I|[I|I]]; [auto|auto|discriminate].
  - cbn [app parse] in H. destruct c as [m| |]; [|..].
    + destruct (mark_eqb m bad); [discriminate|]. eapply IH; [exact H|]. rewrite in_app_iff.
      unfold has_mark in I. cbn [existsb] in I. destruct I as [I|[I|I]]; auto.
      apply orb_prop in I. destruct I as [I|I]; [|auto]. apply mark_eqb_iff in I. subst. simpl. auto.
    + eapply IH; [exact H|]. unfold has_mark in I. cbn [existsb orb] in I. rewrite concat_app, in_app_iff. simpl.
      rewrite app_nil_r. tauto.
    + discriminate.
Qed.

Lemma in_concat_lookup : forall g t, In t (concat g) -> exists x, lookup g x = Some t.
Proof.
  intros g t H. apply in_concat in H. destruct H as (row & H1 & H2).
  apply In_nth_error in H1. destruct H1 as (r & H1). apply In_nth_error in H2. destruct H2 as (c & H2).
  exists (r, c). unfold lookup. cbn [fst snd]. rewrite H1. auto.
Qed.

(** A file that is accepted contains a start and a goal; when it ends with a newline both are
    cells of the world, so that the initial distribution below is one. *)
Theorem read_grid_start_goal : forall bad cs g cells, read_grid bad (cs ++ [NL]) = Some (g, cells) ->
  positions (mark_eqb Start) g <> [] /\ positions (mark_eqb Goal) g <> [] /\
  exists s q, In s cells /\ In q cells /\ s <> q /\ lookup g s = Some Start /\ lookup g q = Some Goal.
Proof.
  intros bad cs g cells H. unfold read_grid in H. destruct (has_mark Start _ && _) eqn:E; [|discriminate].
  apply andb_prop in E. destruct E as [E1 E2].
  assert (HM : forall t, has_mark t (cs ++ [NL]) = true -> has_mark t cs = true).
  { intros t. unfold has_mark. rewrite existsb_app. simpl. rewrite orb_false_r. auto. }
  apply HM in E1, E2.
  assert (A1 : In Start (concat g)) by (eapply parse_marks; [exact H|auto]).
  assert (A2 : In Goal (concat g)) by (eapply parse_marks; [exact H|auto]).
  apply in_concat_lookup in A1, A2. destruct A1 as (s & S1), A2 as (q & Q1).
  destruct (parse_grid_cells_partial bad cs g cells H) as (_ & IC & _).
  assert (NP : forall t x, lookup g x = Some t -> positions (mark_eqb t) g <> []).
  { intros t x L N. assert (I : In x (positions (mark_eqb t) g)) by (apply positions_In; exists t; split; auto; apply mark_eqb_iff; auto).
    rewrite N in I. destruct I. }
  split; [eapply NP; eauto|]. split; [eapply NP; eauto|]. exists s, q. repeat split; auto.
  - apply IC. exists Start. split; auto. discriminate.
  - apply IC. exists Goal. split; auto. discriminate.
  - intros ->. congruence.
Qed.

(** A file without start or without goal is rejected. *)
Theorem read_grid_rejects : forall bad cs, ~ In (Mk Start) cs \/ ~ In (Mk Goal) cs -> read_grid bad cs = None.
Proof.
  intros bad cs H. unfold read_grid. destruct (has_mark Start cs && has_mark Goal cs) eqn:E; auto.
  apply andb_prop in E. exfalso.
  assert (G : forall t, has_mark t cs = true -> In (Mk t) cs).
  { intros t E'. apply existsb_exists in E'. destruct E' as (c & I & M). destruct c as [m| |]; try discriminate.
    apply mark_eqb_iff in M. subst. auto. }
  destruct E as [E1 E2]. apply G in E1, E2. tauto.
Qed.

(** * Grid world generator *)
Section Grid.
Variable g : list (list mark).
Let cells := positions (fun m => negb (is_wall m)) g.

Lemma cells_nodup : NoDup cells. Proof. apply positions_NoDup. Qed.

Lemma cell_mark : forall i, i < length cells -> exists m, lookup g (nth i cells (0, 0)) = Some m /\ m <> Wall.
Proof.
  intros i Hi. assert (I : In (nth i cells (0, 0)) cells) by (apply nth_In; auto). apply positions_In in I.
  destruct I as (m & L & F). exists m. split; auto. intros ->. discriminate.
Qed.


(** Rows of ordinary cells are distributions: the neighbouring cell with probability
    prob, the same cell otherwise (always, when the neighbour is a wall or outside);
    rows of goals and holes are zero. *)
Theorem grid_stochastic : forall prob i a, (0 <= prob <= 1)%R -> i < length cells -> a < 4 ->
  exists m v, lookup g (nth i cells (0, 0)) = Some m /\ grid_p g cells prob i a = Some v /\
    (m = Dot \/ m = Start -> distribution (length cells) v /\
       (forall j, j < length cells -> moves_to (nth i cells (0, 0)) a (nth j cells (0, 0)) -> v j = prob /\ v i = (1 - prob)%R) /\
       ((forall j, j < length cells -> ~ moves_to (nth i cells (0, 0)) a (nth j cells (0, 0))) -> v i = 1%R)) /\
    (m <> Dot /\ m <> Start -> forall j, v j = 0%R).
Proof.
  intros prob i a Hp Hi Ha. destruct (cell_mark i Hi) as (m & L & W). exists m. unfold grid_p. rewrite L.
  eexists. split; auto. split; [reflexivity|]. split.
  - intros HM. assert (E : mark_eqb m Dot || mark_eqb m Start = true) by (destruct HM as [-> | ->]; reflexivity). rewrite E.
    destruct (target cells (nth i cells (0, 0)) (dir a)) as [j|] eqn:T.
    + apply target_Some in T; auto. destruct T as [Hj M]. pose proof (moves_to_neq _ _ _ M) as NE.
      assert (N : j <> i) by (intros ->; auto). split; [split; [|split]|split].
      * intros k _. unfold vset, vzero. destruct (Nat.eqb k j); [lra|]. destruct (Nat.eqb k i); lra.
      * match goal with |- rsum (map ?v _) = _ => fold (row_total (length cells) v) end.
        rewrite !total_vset, total_vzero by auto. rewrite vset_neq by auto. unfold vzero. lra.
      * intros k Hk. rewrite !vset_neq by lia. reflexivity.
      * intros k Hk Mk. assert (k = j).
        { assert (nth k cells (0, 0) = nth j cells (0, 0)).
          { destruct (nth k cells (0, 0)) as [r1 c1], (nth j cells (0, 0)) as [r2 c2], (nth i cells (0, 0)) as [r c].
            destruct a as [|[|[|a]]]; simpl in M, Mk; f_equal; lia. }
          pose proof cells_nodup as ND. rewrite (NoDup_nth _ (0, 0)) in ND. apply (ND k j Hk Hj H). }
        subst k. rewrite vset_eq, vset_neq, vset_eq by auto. auto.
      * intros X. exfalso. apply (X j Hj M).
    + split; [split; [|split]|split].
      * intros k _. unfold vset, vzero. destruct (Nat.eqb k i); lra.
      * match goal with |- rsum (map ?v _) = _ => fold (row_total (length cells) v) end.
        rewrite total_vset, total_vzero by auto. unfold vzero. lra.
      * intros k Hk. rewrite vset_neq by lia. reflexivity.
      * intros k Hk Mk. apply (target_iff cells _ a k cells_nodup Ha Hk) in Mk. congruence.
      * intros _. apply vset_eq.
  - intros [H1 H2] j. assert (E : mark_eqb m Dot || mark_eqb m Start = false) by (destruct m; auto; congruence). rewrite E. reflexivity.
Qed.

Lemma give_reward_spec : forall t rew r i a j, (forall c, c <> Wall -> mark_eqb t c = true <-> c = t) -> t <> Wall ->
  i < length cells -> j < length cells -> a < 4 ->
  (lookup g (nth j cells (0, 0)) = Some t /\ moves_to (nth i cells (0, 0)) a (nth j cells (0, 0)) -> give_reward g cells t rew r i a j = rew) /\
  (~ (lookup g (nth j cells (0, 0)) = Some t /\ moves_to (nth i cells (0, 0)) a (nth j cells (0, 0))) -> give_reward g cells t rew r i a j = r i a j).
Proof.
  intros t rew r i a j _ HT Hi Hj Ha. unfold give_reward. pose proof cells_nodup as ND.
  destruct (fold_hit (nat * nat) (fun r x => fold_left (fun r a => match target cells x (opp (dir a)), find_cell cells x 0 with
          | Some i, Some j => tset3 r i a j rew | _, _ => r end) (seq 0 4) r)
      (fun x => x = nth j cells (0, 0) /\ moves_to (nth i cells (0, 0)) a x) i a j rew (positions (mark_eqb t) g) r) as [A B].
  - intros x. assert ((x = nth j cells (0, 0)) \/ x <> nth j cells (0, 0)) as [E|E].
    { destruct (cell_eqb x (nth j cells (0, 0))) eqn:E; [left; apply cell_eqb_iff; auto|right; intros X; apply cell_eqb_iff in X; congruence]. }
    + assert (D : moves_to (nth i cells (0, 0)) a x \/ ~ moves_to (nth i cells (0, 0)) a x) by (destruct a as [|[|[|a]]]; simpl; lia). tauto.
    + tauto.
  - intros r0 x Ix.
    destruct (fold_hit nat (fun r a => match target cells x (opp (dir a)), find_cell cells x 0 with
          | Some i, Some j => tset3 r i a j rew | _, _ => r end)
        (fun a' => a' = a /\ x = nth j cells (0, 0) /\ moves_to (nth i cells (0, 0)) a x) i a j rew (seq 0 4) r0) as [A B].
    + intros a'. assert ((x = nth j cells (0, 0)) \/ x <> nth j cells (0, 0)) as [E|E].
      { destruct (cell_eqb x (nth j cells (0, 0))) eqn:E; [left; apply cell_eqb_iff; auto|right; intros X; apply cell_eqb_iff in X; congruence]. }
      * assert (D : moves_to (nth i cells (0, 0)) a x \/ ~ moves_to (nth i cells (0, 0)) a x) by (destruct a as [|[|[|a]]]; simpl; lia).
        destruct (Nat.eq_dec a' a); tauto.
      * tauto.
    + intros r1 a' Ia. apply in_seq in Ia. split.
      * intros (-> & -> & M). apply (target_opp_iff cells _ a i ND Ha Hi) in M. rewrite M, find_cell_nth by auto. apply tset3_eq.
      * intros N. destruct (target cells x (opp (dir a'))) as [i'|] eqn:T; auto. destruct (find_cell cells x 0) as [j'|] eqn:F; auto.
        apply tset3_neq. intros X. injection X as <- <- <-. apply N. split; auto. apply find_cell_Some in F. rewrite Nat.sub_0_r in F.
        destruct F as [F1 F2]. split; auto. apply (target_opp_iff cells x a i ND Ha Hi). exact T.
    + split.
      * intros [-> M]. apply A. exists a. split; [apply in_seq; lia|]. auto.
      * intros N. apply B. intros a' _ (-> & E & M). apply N. auto.
  - split.
    + intros [L M]. apply A. exists (nth j cells (0, 0)). split; [|auto]. apply positions_In. exists t. split; auto. apply mark_eqb_iff. auto.
    + intros N. apply B. intros x Ix [-> M]. apply N. split; auto. apply positions_In in Ix. destruct Ix as (m & L & F).
      apply mark_eqb_iff in F. congruence.
Qed.

(** Rewards are obtained exactly by the transitions that move into a goal or a hole. *)
Theorem grid_reward : forall pos neg i a j, i < length cells -> j < length cells -> a < 4 ->
  let enters m := lookup g (nth j cells (0, 0)) = Some m /\ moves_to (nth i cells (0, 0)) a (nth j cells (0, 0)) in
  (enters Goal -> grid_r g cells pos neg i a j = pos) /\
  (enters Hole -> grid_r g cells pos neg i a j = neg) /\
  (~ enters Goal -> ~ enters Hole -> grid_r g cells pos neg i a j = 0%R).
Proof.
  intros pos neg i a j Hi Hj Ha enters. unfold grid_r.
  assert (X : forall t c, c <> Wall -> mark_eqb t c = true <-> c = t) by (intros [] []; simpl; split; intros; congruence).
  destruct (give_reward_spec Hole neg (give_reward g cells Goal pos (fun _ _ _ => 0%R)) i a j (X Hole) ltac:(discriminate) Hi Hj Ha) as [A B].
  destruct (give_reward_spec Goal pos (fun _ _ _ => 0%R) i a j (X Goal) ltac:(discriminate) Hi Hj Ha) as [A' B'].
  unfold enters. split; [|split].
  - intros H. rewrite B; [apply A'; auto|]. intros [L _]. destruct H. congruence.
  - intros H. apply A. auto.
  - intros N1 N2. rewrite B, B'; auto.
Qed.

(** The initial distribution is uniform over the starting cells. *)
Theorem grid_initial_distribution : positions (mark_eqb Start) g <> [] ->
  distribution (length cells) (grid_mu g cells) /\
  (forall i, i < length cells ->
     (lookup g (nth i cells (0, 0)) = Some Start -> grid_mu g cells i = (/ INR (length (positions (mark_eqb Start) g)))%R) /\
     (lookup g (nth i cells (0, 0)) <> Some Start -> grid_mu g cells i = 0%R)).
Proof.
  intros NE. unfold grid_mu. set (st := positions (mark_eqb Start) g) in *. set (x := (1 / INR (length st))%R).
  assert (PL : (0 < INR (length st))%R) by (apply lt_0_INR; destruct st; simpl; [congruence|lia]).
  assert (PX : (0 < x)%R) by (apply Rdiv_lt_0_compat; lra). pose proof cells_nodup as ND.
  assert (SUB : forall s, In s st -> exists i, i < length cells /\ find_cell cells s 0 = Some i /\ nth i cells (0, 0) = s).
  { intros s Hs. apply positions_In in Hs. destruct Hs as (m & L & F). apply mark_eqb_iff in F. subst m.
    assert (I : In s cells) by (apply positions_In; exists Start; auto). destruct (find_cell_In cells s 0 I) as (i & E).
    exists i. pose proof (find_cell_Some _ _ _ _ E) as K. rewrite Nat.sub_0_r in K. split; [lia|]. tauto. }
  set (body := fun mu s => match find_cell cells s 0 with Some i => vset mu i x | None => mu end).
  assert (G : forall l v, NoDup l -> incl l st -> (forall s i, In s l -> find_cell cells s 0 = Some i -> v i = 0%R) ->
     row_total (length cells) (fold_left body l v) = (row_total (length cells) v + INR (length l) * x)%R /\
     (forall i, i < length cells -> (In (nth i cells (0, 0)) l -> fold_left body l v i = x) /\ (~ In (nth i cells (0, 0)) l -> fold_left body l v i = v i)) /\
     (forall i, length cells <= i -> fold_left body l v i = v i)).
  { induction l as [|s l IH]; intros v NDl Il Hv.
    - simpl. split; [ring|]. split; [|auto]. intros i _. split; [intros []|auto].
    - inversion NDl as [|? ? NI NDl']; subst. destruct (SUB s (Il s (or_introl eq_refl))) as (k & Hk & F & E).
      cbn [fold_left]. unfold body at 2 4 6 8. rewrite F. destruct (IH (vset v k x)) as (A & B & C); auto.
      + intros y Hy. apply Il. simpl; auto.
      + intros s' i Hs' Hf. rewrite vset_neq; [apply (Hv s'); simpl; auto|]. intros ->. apply NI.
        apply find_cell_Some in Hf. rewrite Nat.sub_0_r in Hf. destruct Hf as [_ Hf]. congruence.
      + split; [|split].
        * rewrite A, total_vset by auto. rewrite (Hv s k) by (simpl; auto). cbn [length]. rewrite S_INR. ring.
        * intros i Hi. destruct (B i Hi) as [B1 B2]. split.
          -- intros [Es|I]; [|auto]. assert (i = k) by (rewrite (NoDup_nth _ (0, 0)) in ND; apply ND; eauto; congruence). subst i.
             rewrite B2 by (rewrite E; auto). apply vset_eq.
          -- intros N. rewrite B2 by (intros I; apply N; simpl; auto). apply vset_neq. intros ->. apply N. simpl; auto.
        * intros i Hi. rewrite C by auto. apply vset_neq. lia. }
  destruct (G st vzero (positions_NoDup _ _) (incl_refl _)) as (A & B & C); [reflexivity|].
  assert (V : forall i, i < length cells -> (lookup g (nth i cells (0, 0)) = Some Start <-> In (nth i cells (0, 0)) st)).
  { intros i Hi. unfold st. rewrite positions_In. split; [intros L; exists Start; auto|]. intros (m & L & F). apply mark_eqb_iff in F. congruence. }
  fold body. split; [split; [|split]|].
  - intros i Hi. destruct (B i Hi) as [B1 B2]. destruct (in_dec (fun a b : nat * nat => ltac:(decide equality; apply Nat.eq_dec)) (nth i cells (0, 0)) st) as [I|I].
    + rewrite B1 by auto. lra.
    + rewrite B2 by auto. unfold vzero. lra.
  - change (row_total (length cells) (fold_left body st vzero) = 1%R). rewrite A, total_vzero. unfold x. field. lra.
  - intros i Hi. rewrite C by auto. reflexivity.
  - intros i Hi. destruct (B i Hi) as [B1 B2]. split.
    + intros L. rewrite B1 by (apply V; auto). unfold x. field. lra.
    + intros L. rewrite B2 by (intros I; apply L, V; auto). reflexivity.
Qed.

(** * Taxi generator *)
Let fares := positions (mark_eqb Fare) g.
Let nc := length cells.
Let ns := nc * 2 ^ length fares.

Definition cur (i : nat) : list bool := nth (Nat.div i nc) (pstates (length fares)) [].
Definition cell (i : nat) : nat * nat := nth (Nat.modulo i nc) cells (0, 0).

Lemma fares_cells : forall f, f < length fares -> In (nth f fares (0, 0)) cells.
Proof.
  intros f Hf. assert (I : In (nth f fares (0, 0)) fares) by (apply nth_In; auto). apply positions_In in I. destruct I as (m & L & F).
  apply positions_In. exists m. split; auto. destruct m; simpl in *; auto; discriminate.
Qed.

Lemma cur_length : forall i, i < ns -> length (cur i) = length fares.
Proof.
  intros i Hi. assert (P : 0 < nc) by (unfold ns in Hi; nia). apply pstates_In. apply nth_In. rewrite pstates_length.
  apply Nat.div_lt_upper_bound; [lia|]. exact Hi.
Qed.

(** A move into a cell changes the position and collects the passenger waiting there;
    a move into a wall or outside changes nothing. *)
Theorem taxi_moves : forall i a, i < ns -> a < 4 ->
  let t := taxi_target g cells fares i (dir a) in
  t < ns /\
  ((forall j, j < nc -> ~ moves_to (cell i) a (nth j cells (0, 0))) -> t = i) /\
  (forall j, j < nc -> moves_to (cell i) a (nth j cells (0, 0)) ->
     cell t = nth j cells (0, 0) /\
     length (cur t) = length fares /\
     forall f, f < length fares ->
       nth f (cur t) false = (nth f (cur i) false || cell_eqb (nth f fares (0, 0)) (nth j cells (0, 0)))).
Proof.
  intros i a Hi Ha t. pose proof cells_nodup as ND. assert (P : 0 < nc) by (unfold ns in Hi; nia).
  assert (LC : length (cur i) = length fares) by (apply cur_length; auto).
  assert (DI : Nat.div i nc < 2 ^ length fares) by (apply Nat.div_lt_upper_bound; [lia|]; exact Hi).
  assert (NS : forall j k, j < nc -> k < 2 ^ length fares -> j + nc * k < ns) by (intros; unfold ns; nia).
  assert (CD : forall j k, j < nc -> Nat.div (j + nc * k) nc = k /\ Nat.modulo (j + nc * k) nc = j).
  { intros j k Hj. rewrite (Nat.mul_comm nc), Nat.div_add, Nat.mod_add, Nat.div_small, Nat.mod_small by lia. auto. }
  assert (NF : NoDup fares) by apply positions_NoDup.
  assert (MU : forall j, j < nc -> moves_to (cell i) a (nth j cells (0, 0)) -> shift (cell i) (dir a) = Some (nth j cells (0, 0)) /\ find_cell cells (nth j cells (0, 0)) 0 = Some j).
  { intros j Hj M. split; [apply shift_dir; auto|apply find_cell_nth; auto]. }
  assert (CASE : (exists j, j < nc /\ moves_to (cell i) a (nth j cells (0, 0))) \/ (t = i /\ forall j, j < nc -> ~ moves_to (cell i) a (nth j cells (0, 0)))).
  { unfold t, taxi_target. fold nc. fold (cell i). destruct (shift (cell i) (dir a)) as [x|] eqn:S.
    - destruct (find_cell cells x 0) as [j|] eqn:F.
      + left. exists j. apply find_cell_Some in F. rewrite Nat.sub_0_r in F. destruct F as [F1 F2]. split; [unfold nc; lia|]. rewrite F2. apply shift_dir; auto.
      + right. split; auto. intros j Hj M. destruct (MU j Hj M) as [M1 M2]. assert (X : x = nth j cells (0, 0)) by congruence. rewrite X in F. congruence.
    - right. split; auto. intros j Hj M. destruct (MU j Hj M) as [M1 M2]. congruence. }
  assert (STEP : forall j, j < nc -> moves_to (cell i) a (nth j cells (0, 0)) -> t < ns /\ cell t = nth j cells (0, 0) /\ length (cur t) = length fares /\
     forall f, f < length fares -> nth f (cur t) false = (nth f (cur i) false || cell_eqb (nth f fares (0, 0)) (nth j cells (0, 0)))).
  { intros j Hj M. destruct (MU j Hj M) as [M1 M2].
    assert (T : t = match find_cell fares (nth j cells (0, 0)) 0 with
          | Some f => if nth f (cur i) false then j + nc * Nat.div i nc
              else match find_ps (pstates (length fares)) (setnth (cur i) f true) 0 with Some idx' => j + nc * idx' | None => i end
          | None => j + nc * Nat.div i nc end).
    { unfold t, taxi_target. fold nc. fold (cell i). rewrite M1, M2. fold (cur i). reflexivity. }
    assert (SAME : t = j + nc * Nat.div i nc -> t < ns /\ cell t = nth j cells (0, 0) /\ cur t = cur i).
    { intros ->. destruct (CD j (Nat.div i nc) Hj) as [E1 E2]. split; [apply NS; auto|]. unfold cell, cur. rewrite E1, E2. auto. }
    destruct (find_cell fares (nth j cells (0, 0)) 0) as [f|] eqn:F.
    - pose proof (find_cell_Some _ _ _ _ F) as K. rewrite Nat.sub_0_r in K. destruct K as [K1 K2].
      destruct (nth f (cur i) false) eqn:Q.
      + destruct (SAME T) as (S1 & S2 & S3). split; auto. split; auto. rewrite S3. split; auto. intros f' Hf'.
        destruct (cell_eqb (nth f' fares (0, 0)) (nth j cells (0, 0))) eqn:X; [|rewrite orb_false_r; auto]. apply cell_eqb_iff in X.
        assert (f' = f) by (rewrite (NoDup_nth _ (0, 0)) in NF; apply NF; eauto; [lia|congruence]). subst f'. rewrite Q. reflexivity.
      + destruct (find_ps_spec (pstates (length fares)) (setnth (cur i) f true) 0) as (k & E1 & E2 & E3).
        { apply pstates_In. rewrite setnth_length. auto. }
        rewrite E1 in T. rewrite Nat.sub_0_r in E3. rewrite pstates_length in E2. destruct (CD j k Hj) as [D1 D2].
        rewrite T. split; [apply NS; auto; lia|]. unfold cell, cur. rewrite D1, D2, E3. split; auto. split; [rewrite setnth_length; auto|].
        intros f' Hf'. destruct (Nat.eq_dec f' f) as [->|N].
        * rewrite nth_setnth_eq by lia. rewrite K2. replace (cell_eqb _ _) with true by (symmetry; apply cell_eqb_iff; auto). rewrite orb_true_r. reflexivity.
        * rewrite nth_setnth_neq by auto. destruct (cell_eqb (nth f' fares (0, 0)) (nth j cells (0, 0))) eqn:X; [|rewrite orb_false_r; auto]. 
          exfalso. apply N. apply cell_eqb_iff in X. rewrite (NoDup_nth _ (0, 0)) in NF. apply NF; eauto; [lia|congruence].
    - destruct (SAME T) as (S1 & S2 & S3). split; auto. split; auto. rewrite S3. split; auto. intros f' Hf'.
      destruct (cell_eqb (nth f' fares (0, 0)) (nth j cells (0, 0))) eqn:X; [|rewrite orb_false_r; auto].
      apply cell_eqb_iff in X. apply find_cell_None in F. exfalso. apply F. rewrite <- X. apply nth_In. auto. }
  split; [|split].
  - destruct CASE as [(j & Hj & M)|[-> _]]; auto. apply (STEP j Hj M).
  - intros N. destruct CASE as [(j & Hj & M)|[E _]]; auto. exfalso. apply (N j Hj M).
  - intros j Hj M. apply (STEP j Hj M).
Qed.

Definition perpendicular (a : nat) : nat * nat := if Nat.ltb a 2 then (3, 2) else (1, 0).

(** The rows of the states from which the taxi can move are distributions: the chosen
    move with probability prob, the two perpendicular ones otherwise. The other rows
    (goals, and waiting passengers, see taxi_no_waiting) are zero. *)
Theorem taxi_stochastic : forall prob i a, (0 <= prob <= 1)%R -> i < ns -> a < 4 ->
  let waiting := exists f, f < length fares /\ nth f fares (0, 0) = cell i /\ nth f (cur i) false = false in
  exists m v, lookup g (cell i) = Some m /\ taxi_p g cells fares prob i a = Some v /\
    (m <> Goal /\ m <> Hole /\ ~ waiting -> distribution ns v /\
      forall j, v j = ((if Nat.eqb j (taxi_target g cells fares i (dir a)) then prob else 0) +
                       (if Nat.eqb j (taxi_target g cells fares i (dir (fst (perpendicular a)))) then (1 - prob) / 2 else 0) +
                       (if Nat.eqb j (taxi_target g cells fares i (dir (snd (perpendicular a)))) then (1 - prob) / 2 else 0))%R) /\
    (m = Goal \/ m = Hole \/ waiting -> forall j, v j = 0%R).
Proof.
  intros prob i a Hp Hi Ha waiting. assert (P : 0 < nc) by (unfold ns in Hi; nia).
  destruct (cell_mark (Nat.modulo i nc)) as (m & L & W); [apply Nat.mod_upper_bound; lia|]. fold (cell i) in L.
  exists m. unfold taxi_p. fold nc. fold (cell i). fold (cur i). rewrite L. eexists. split; auto. split; [reflexivity|].
  assert (NF : NoDup fares) by apply positions_NoDup.
  assert (FW : m = Fare -> exists f, find_cell fares (cell i) 0 = Some f /\ f < length fares /\ nth f fares (0, 0) = cell i).
  { intros ->. assert (I : In (cell i) fares) by (apply positions_In; exists Fare; auto). destruct (find_cell_In fares _ 0 I) as (f & F).
    exists f. split; auto. apply find_cell_Some in F. rewrite Nat.sub_0_r in F. destruct F. split; [lia|auto]. }
  split.
  - intros (N1 & N2 & N3).
    assert (E : (mark_eqb m Dot || mark_eqb m Start || (mark_eqb m Fare && match find_cell fares (cell i) 0 with Some f => nth f (cur i) false | None => false end)) = true).
    { destruct m; simpl; auto; try congruence. destruct (FW eq_refl) as (f & F & Hf & Ef). rewrite F.
      destruct (nth f (cur i) false) eqn:Q; auto. exfalso. apply N3. exists f. auto. }
    rewrite E.
    assert (SL : slips (dir a) = [dir (fst (perpendicular a)); dir (snd (perpendicular a))]) by (destruct a as [|[|[|[|a]]]]; [reflexivity..|lia]).
    rewrite SL. cbn [fold_left].
    assert (PA : fst (perpendicular a) < 4 /\ snd (perpendicular a) < 4) by (unfold perpendicular; destruct (Nat.ltb a 2); simpl; lia).
    set (t0 := taxi_target g cells fares i (dir a)). set (t1 := taxi_target g cells fares i (dir (fst (perpendicular a)))).
    set (t2 := taxi_target g cells fares i (dir (snd (perpendicular a)))).
    assert (B0 : t0 < ns) by (apply taxi_moves; auto). assert (B1 : t1 < ns) by (apply taxi_moves; tauto). assert (B2 : t2 < ns) by (apply taxi_moves; tauto).
    assert (VAL : forall j, vinc (vinc (vset vzero t0 prob) t1 ((1 - prob) * (1 / 2))) t2 ((1 - prob) * (1 / 2)) j =
      ((if Nat.eqb j t0 then prob else 0) + (if Nat.eqb j t1 then (1 - prob) / 2 else 0) + (if Nat.eqb j t2 then (1 - prob) / 2 else 0))%R).
    { intros j. unfold vinc, vset, vzero. destruct (Nat.eqb_spec j t2) as [->|Q2].
      - destruct (Nat.eqb_spec t2 t1) as [E1|E1]; destruct (Nat.eqb_spec t2 t0); destruct (Nat.eqb_spec t1 t0); try congruence; lra.
      - destruct (Nat.eqb_spec j t1) as [Q1|Q1]; destruct (Nat.eqb_spec j t0); destruct (Nat.eqb_spec t1 t0); try congruence; lra. }
    split; [split; [|split]|exact VAL].
    + intros j _. rewrite VAL. destruct (Nat.eqb j t0), (Nat.eqb j t1), (Nat.eqb j t2); lra.
    + match goal with |- rsum (map ?v _) = _ => fold (row_total ns v) end. unfold vinc. rewrite !total_vset, total_vzero by auto. unfold vzero. lra.
    + intros j Hj. rewrite VAL. destruct (Nat.eqb_spec j t0), (Nat.eqb_spec j t1), (Nat.eqb_spec j t2); try lia. lra.
  - intros H j.
    assert (E : (mark_eqb m Dot || mark_eqb m Start || (mark_eqb m Fare && match find_cell fares (cell i) 0 with Some f => nth f (cur i) false | None => false end)) = false).
    { destruct H as [-> | [-> | (f & Hf & Ef & Q)]]; auto.
      assert (ME : m = Fare).
      { assert (I : In (cell i) fares) by (rewrite <- Ef; apply nth_In; auto). apply positions_In in I. destruct I as (m' & L' & F').
        apply mark_eqb_iff in F'. congruence. }
      subst m. simpl. destruct (FW eq_refl) as (f' & F & Hf' & Ef'). rewrite F.
      assert (f' = f) by (rewrite (NoDup_nth _ (0, 0)) in NF; apply NF; eauto; congruence). subst f'. exact Q. }
    rewrite E. reflexivity.
Qed.

(** States standing on a waiting passenger, whose rows are zero, are never entered. *)
Theorem taxi_no_waiting : forall i a f, i < ns -> a < 4 -> f < length fares ->
  let t := taxi_target g cells fares i (dir a) in
  t <> i -> nth f fares (0, 0) = cell t -> nth f (cur t) false = true.
Proof.
  intros i a f Hi Ha Hf t NE E. destruct (taxi_moves i a Hi Ha) as (B & N & M). fold t in B, N, M.
  assert (P : 0 < nc) by (unfold ns in Hi; nia).
  destruct (target cells (cell i) (dir a)) as [j|] eqn:T.
  - apply target_Some in T; auto. destruct T as [Hj Mj]. destruct (M j Hj Mj) as (C & _ & D). rewrite D by auto.
    replace (cell_eqb _ _) with true by (symmetry; apply cell_eqb_iff; congruence). apply orb_true_r.
  - exfalso. apply NE, N. intros j Hj Mj. apply (target_iff cells _ a j cells_nodup Ha Hj) in Mj. congruence.
Qed.

(** The reward of the passengers is given only when the chosen action points into the
    goal; entering the goal by a slip is not rewarded. *)
Theorem taxi_reward : forall rew i a j k k', i < nc -> j < nc -> a < 4 -> k < 2 ^ length fares -> k' < 2 ^ length fares ->
  let delivers := lookup g (nth j cells (0, 0)) = Some Goal /\ moves_to (nth i cells (0, 0)) a (nth j cells (0, 0)) /\ k = k' in
  (delivers -> taxi_r g cells fares rew (i + nc * k) a (j + nc * k') = nth (count_occ Bool.bool_dec (nth k (pstates (length fares)) []) true) rew 0%R) /\
  (~ delivers -> taxi_r g cells fares rew (i + nc * k) a (j + nc * k') = 0%R).
Proof.
  intros rew i a j k k' Hi Hj Ha Hk Hk' delivers. unfold taxi_r. fold nc. pose proof cells_nodup as ND.
  set (val := fun k => nth (count_occ Bool.bool_dec (nth k (pstates (length fares)) []) true) rew 0%R).
  assert (INJ : forall x y kx ky, x < nc -> y < nc -> x + nc * kx = y + nc * ky -> x = y /\ kx = ky).
  { intros x y kx ky Hx Hy E. assert (kx = ky) by nia. split; [subst; lia|auto]. }
  assert (D3 : forall x, (x = nth j cells (0, 0) /\ moves_to (nth i cells (0, 0)) a x /\ k = k') \/ ~ (x = nth j cells (0, 0) /\ moves_to (nth i cells (0, 0)) a x /\ k = k')).
  { intros x. destruct (cell_eqb x (nth j cells (0, 0))) eqn:E.
    - apply cell_eqb_iff in E. assert (D : moves_to (nth i cells (0, 0)) a x \/ ~ moves_to (nth i cells (0, 0)) a x) by (destruct a as [|[|[|a]]]; simpl; lia).
      destruct (Nat.eq_dec k k'); tauto.
    - right. intros (X & _). apply cell_eqb_iff in X. congruence. }
  set (inner := fun (x : nat * nat) r a => match target cells x (opp (dir a)), find_cell cells x 0 with
          | Some i, Some j => fold_left (fun r k => tset3 r (i + nc * k) a (j + nc * k) (val k)) (seq 0 (length (pstates (length fares)))) r
          | _, _ => r end).
  destruct (fold_hit (nat * nat) (fun r x => fold_left (inner x) (seq 0 4) r)
      (fun x => x = nth j cells (0, 0) /\ moves_to (nth i cells (0, 0)) a x /\ k = k') (i + nc * k) a (j + nc * k') (val k) (positions (mark_eqb Goal) g) (fun _ _ _ => 0%R)) as [A B].
  - auto.
  - intros r0 x Ix.
    destruct (fold_hit nat (inner x) (fun a' => a' = a /\ x = nth j cells (0, 0) /\ moves_to (nth i cells (0, 0)) a x /\ k = k') (i + nc * k) a (j + nc * k') (val k) (seq 0 4) r0) as [A B].
    + intros a'. destruct (Nat.eq_dec a' a), (D3 x); tauto.
    + intros r1 a' Ia. apply in_seq in Ia. unfold inner.
      destruct (target cells x (opp (dir a'))) as [i'|] eqn:T.
      2:{ split; auto. intros (-> & -> & M & _). apply (target_opp_iff cells _ a i ND Ha Hi) in M. congruence. }
      destruct (find_cell cells x 0) as [j'|] eqn:F.
      2:{ split; auto. intros (-> & -> & M & _). rewrite find_cell_nth in F by auto. discriminate. }
      assert (I' : i' < nc).
      { unfold target in T. destruct (shift x (opp (dir a'))); [|discriminate]. apply find_cell_Some in T. unfold nc. lia. }
      pose proof (find_cell_Some _ _ _ _ F) as F'. rewrite Nat.sub_0_r in F'. destruct F' as [F1 F2].
      assert (J' : j' < nc) by (unfold nc; lia).
      destruct (fold_hit nat (fun r k => tset3 r (i' + nc * k) a' (j' + nc * k) (val k))
         (fun k0 => k0 = k /\ a' = a /\ i' = i /\ j' = j /\ k = k') (i + nc * k) a (j + nc * k') (val k) (seq 0 (length (pstates (length fares)))) r1) as [A B].
      * intros k0. lia.
      * intros t k0 _. split.
        -- intros (-> & -> & -> & -> & <-). apply tset3_eq.
        -- intros N. apply tset3_neq. intros X. injection X as X1 X2 X3. apply N.
           destruct (INJ _ _ _ _ Hi I' X1), (INJ _ _ _ _ Hj J' X3). lia.
      * split.
        -- intros (-> & -> & M & E). apply A. exists k. split; [apply in_seq; rewrite pstates_length; lia|].
           apply (target_opp_iff cells _ a i ND Ha Hi) in M. rewrite M in T. injection T as <-. rewrite find_cell_nth in F by auto. injection F as <-. auto.
        -- intros N. apply B. intros k0 _ (-> & -> & -> & -> & <-). apply N. split; auto. split; auto. split; auto.
           apply (target_opp_iff cells x a i ND Ha Hi). exact T.
    + split.
      * intros H. apply A. exists a. split; [apply in_seq; lia|]. auto.
      * intros N. apply B. intros a' _ (_ & H). apply N. auto.
  - fold (val k). split.
    + intros (L & M & E). apply A. exists (nth j cells (0, 0)). split; [|auto]. apply positions_In. exists Goal. auto.
    + intros N. apply B. intros x Ix (-> & M & E). apply N. split; [|auto]. apply positions_In in Ix. destruct Ix as (m & L & F).
      apply mark_eqb_iff in F. congruence.
Qed.
End Grid.

(** Row "FSG", passenger collected, taxi on the start: the action up may slip right into
    the goal, with no reward; the action right is rewarded. *)
Theorem taxi_slip_reward_refuted : forall prob, (0 <= prob < 1)%R ->
  let g := [[Fare; Start; Goal]] in
  let cells := positions (fun m => negb (is_wall m)) g in
  let fares := positions (mark_eqb Fare) g in
  (exists v, taxi_p g cells fares prob 4 0 = Some v /\ (0 < v 5%nat)%R) /\
  lookup g (nth 2 cells (0, 0)) = Some Goal /\
  taxi_r g cells fares [0; 7]%R 4 0 5 = 0%R /\ taxi_r g cells fares [0; 7]%R 4 3 5 = 7%R.
Proof.
  intros prob Hp g cells fares.
  assert (N4 : 4 < length cells * 2 ^ length fares) by (vm_compute; lia).
  destruct (taxi_stochastic g prob 4 0 ltac:(lra) N4 ltac:(lia)) as (m & v & L & T & D & _). split; [|split].
  - exists v. split; [exact T|]. destruct D as [_ D].
    + assert (m = Start) by (cbv in L; congruence). subst m. split; [discriminate|]. split; [discriminate|].
      intros (f & Hf & E & _). change (length (positions (mark_eqb Fare) g)) with 1 in Hf. assert (f = 0) by lia. subst f. cbv in E. discriminate.
    + rewrite D.
      assert (T0 : taxi_target g cells fares 4 (dir 0) = 4) by reflexivity.
      assert (T1 : taxi_target g cells fares 4 (dir (fst (perpendicular 0))) = 5) by reflexivity.
      assert (T2 : taxi_target g cells fares 4 (dir (snd (perpendicular 0))) = 3) by reflexivity.
      fold cells fares. rewrite T0, T1, T2. cbn [Nat.eqb]. lra.
  - reflexivity.
  - split.
    + apply (taxi_reward g [0; 7]%R 1 0 2 1 1); try (vm_compute; lia).
    + transitivity (nth (count_occ Bool.bool_dec (nth 1 (pstates 1) []) true) [0; 7]%R 0%R); [|reflexivity].
      apply (taxi_reward g [0; 7]%R 1 3 2 1 1); try (vm_compute; lia). split; [reflexivity|]. split; [cbv; auto|reflexivity].
Qed.

(** * C36: FiniteMDP *)

(** Each state has either outgoing distributions for every action or no transitions. *)
Definition wf_mdp (n m : nat) (p : nat -> nat -> nat -> R) : Prop :=
  forall s, s < n -> (forall a, a < m -> distribution n (p s a)) \/ (forall a j, a < m -> j < n -> p s a j = 0%R).
Definition terminal (n m : nat) (p : nat -> nat -> nat -> R) (s : nat) : Prop := forall a j, a < m -> j < n -> p s a j = 0%R.

Lemma any_row_iff : forall n m p s, any_row n m p s = false <-> terminal n m p s.
Proof.
  intros. unfold any_row, terminal. split.
  - intros H a j Ha Hj. destruct (Req_EM_T (p s a j) 0%R) as [E|E]; auto. exfalso.
    assert (T : existsb (fun a => existsb (fun j => if Req_EM_T (p s a j) 0%R then false else true) (seq 0 n)) (seq 0 m) = true).
    { apply existsb_exists. exists a. split; [apply in_seq; lia|]. apply existsb_exists. exists j. split; [apply in_seq; lia|].
      destruct (Req_EM_T (p s a j) 0%R); [contradiction|auto]. }
    congruence.
  - intros H. destruct (existsb _ _) eqn:E; auto. apply existsb_exists in E. destruct E as (a & Ia & E). apply existsb_exists in E.
    destruct E as (j & Ij & E). apply in_seq in Ia, Ij. rewrite H in E by lia. destruct (Req_EM_T 0%R 0%R); [discriminate|congruence].
Qed.

(** A step from a non-terminal state succeeds, moves to a state of positive probability
    and reports absorbing exactly for terminal states. *)
Theorem finite_mdp_step : forall n m p r s a draw, wf_mdp n m p -> s < n -> a < m -> ~ terminal n m p s -> choice_ok n (p s a) draw ->
  exists b, fmdp_step n m p r s a draw = Some (draw, r s a draw, b) /\ draw < n /\ (0 < p s a draw)%R /\ (b = true <-> terminal n m p draw).
Proof.
  intros n m p r s a draw W Hs Ha NT [Hd Pd]. destruct (W s Hs) as [D|T]; [|contradiction].
  unfold fmdp_step. destruct (D a Ha) as (_ & S & _). fold (row_total n (p s a)) in S. destruct (Req_EM_T _ _) as [E|E]; [|contradiction].
  eexists. split; [reflexivity|]. split; auto. split; auto. rewrite negb_true_iff. apply any_row_iff.
Qed.

(** Runs: a run that stops at the first absorbing state never raises. *)
Fixpoint fmdp_run (n m : nat) (p r : nat -> nat -> nat -> R) (s : nat) (moves : list (nat * nat)) : option (list (nat * R * bool)) :=
  match moves with
  | [] => Some []
  | (a, draw) :: t =>
      match fmdp_step n m p r s a draw with
      | None => None
      | Some (s', rw, b) => if b then Some [(s', rw, b)] else match fmdp_run n m p r s' t with Some l => Some ((s', rw, b) :: l) | None => None end
      end
  end.
Fixpoint run_ok (n m : nat) (p : nat -> nat -> nat -> R) (s : nat) (moves : list (nat * nat)) : Prop :=
  match moves with [] => True | (a, draw) :: t => a < m /\ choice_ok n (p s a) draw /\ run_ok n m p draw t end.

Theorem finite_mdp_run : forall n m p r moves s, wf_mdp n m p -> s < n -> ~ terminal n m p s -> run_ok n m p s moves ->
  exists l, fmdp_run n m p r s moves = Some l /\ (forall x, In x l -> fst (fst x) < n) /\
    (forall k, k < length l -> (snd (nth k l (0, 0%R, false)) = true <-> terminal n m p (fst (fst (nth k l (0, 0%R, false)))))) /\
    (forall k, S k < length l -> snd (nth k l (0, 0%R, false)) = false).
Proof.
  intros n m p r. induction moves as [|[a draw] t IH]; intros s W Hs NT OK.
  - exists []. simpl. split; auto. split; [intros x []|]. split; intros; lia.
  - destruct OK as (Ha & CH & OK). destruct (finite_mdp_step n m p r s a draw W Hs Ha NT CH) as (b & E & Hd & _ & B).
    cbn [fmdp_run]. rewrite E. destruct b.
    + exists [(draw, r s a draw, true)]. split; auto. split; [intros x [<-|[]]; auto|]. split.
      * intros [|k] Hk; [simpl; auto|simpl in Hk; lia].
      * intros k Hk. simpl in Hk. lia.
    + destruct (IH draw W Hd) as (l & E' & A1 & A2 & A3); auto; [intros T; apply B in T; discriminate|].
      rewrite E'. exists ((draw, r s a draw, false) :: l). split; auto. split; [intros x [<-|I]; auto|]. split.
      * intros [|k] Hk; [exact B|]. apply A2. simpl in Hk. lia.
      * intros [|k] Hk; [auto|]. apply A3. simpl in Hk. lia.
Qed.

(** The generated grid worlds and chains are of this form. *)
Theorem grid_world_wf : forall g prob, (0 <= prob <= 1)%R ->
  let cells := positions (fun m => negb (is_wall m)) g in
  wf_mdp (length cells) 4 (fun i a => match grid_p g cells prob i a with Some v => v | None => vzero end) /\
  (forall i, i < length cells -> lookup g (nth i cells (0, 0)) = Some Start ->
     ~ terminal (length cells) 4 (fun i a => match grid_p g cells prob i a with Some v => v | None => vzero end) i).
Proof.
  intros g prob Hp cells.
  assert (ROW : forall i, i < length cells -> exists m, lookup g (nth i cells (0, 0)) = Some m /\
    forall a, a < 4 -> (m = Dot \/ m = Start -> distribution (length cells) (match grid_p g cells prob i a with Some v => v | None => vzero end)) /\
      (m <> Dot /\ m <> Start -> forall j, (match grid_p g cells prob i a with Some v => v | None => vzero end) j = 0%R)).
  { intros i Hi. destruct (cell_mark g i Hi) as (m & L & W). exists m. split; auto. intros a Ha.
    destruct (grid_stochastic g prob i a Hp Hi Ha) as (m' & v & L' & E & D & Z). fold cells in L', E, D, Z. assert (m' = m) by (fold cells in L; congruence). subst m'. rewrite E. split; auto.
    intros H. apply (proj1 (D H)). }
  split.
  - intros i Hi. destruct (ROW i Hi) as (m & L & R). 
    assert (C : (m = Dot \/ m = Start) \/ (m <> Dot /\ m <> Start)) by (destruct m; auto; right; split; discriminate).
    destruct C as [C|C]; [left; intros a Ha; apply (R a Ha); auto|right; intros a j Ha _; apply (R a Ha); auto].
  - intros i Hi L T. destruct (ROW i Hi) as (m & L' & R). assert (m = Start) by congruence. subst m.
    destruct (proj1 (R 0 ltac:(lia)) (or_intror eq_refl)) as (_ & S & _).
    rewrite (rsum_map_ext _ _ (fun _ => 0%R)) in S by (intros j Hj; apply in_seq in Hj; apply (T 0 j); lia). rewrite rsum_map_const in S. lra.
Qed.

(** * C36: GridWorld *)
Lemma to_grid_int : forall w r c, c < w -> to_grid (to_int (r, c) w) w = (r, c).
Proof.
  intros w r c H. unfold to_grid, to_int. cbn [fst snd]. rewrite Nat.add_comm, Nat.div_add, Nat.mod_add, Nat.div_small, Nat.mod_small by lia. reflexivity.
Qed.

Lemma grid_move_spec : forall h w s a, fst s < h -> snd s < w -> a < 4 ->
  fst (grid_move h w s a) < h /\ snd (grid_move h w s a) < w /\
  (moves_to s a (grid_move h w s a) \/ (grid_move h w s a = s /\ forall r c, r < h -> c < w -> ~ moves_to s a (r, c))).
Proof.
  intros h w [r c] a Hr Hc Ha. simpl in Hr, Hc. destruct a as [|[|[|[|a]]]]; [| | | |lia]; unfold grid_move; cbn [fst snd];
    match goal with |- context [if ?b then _ else _] => destruct b eqn:E end;
    first [apply Nat.ltb_lt in E | apply Nat.ltb_ge in E]; cbn [fst snd moves_to];
    (split; [lia|]); (split; [lia|]); first [left; lia | right; split; [reflexivity|]; intros; cbn [fst snd]; lia].
Qed.

(** The state stays in the space, moves to the neighbouring cell unless that is outside
    the grid, and the goal is recognised exactly. *)
Theorem grid_world_step : forall h w goal s a, s < h * w -> a < 4 ->
  let '(s', rw, b) := gw_step h w goal s a in
  s' < h * w /\
  (moves_to (to_grid s w) a (to_grid s' w) \/ (s' = s /\ forall r c, r < h -> c < w -> ~ moves_to (to_grid s w) a (r, c))) /\
  (b = true <-> to_grid s' w = goal) /\ rw = (if b then 10 else 0)%R.
Proof.
  intros h w goal s a Hs Ha. unfold gw_step. assert (W : 0 < w) by nia.
  assert (G1 : fst (to_grid s w) < h) by (unfold to_grid; cbn [fst]; apply Nat.div_lt_upper_bound; [lia|]; rewrite Nat.mul_comm; auto).
  assert (G2 : snd (to_grid s w) < w) by (unfold to_grid; cbn [snd]; apply Nat.mod_upper_bound; lia).
  destruct (grid_move_spec h w (to_grid s w) a G1 G2 Ha) as (A & B & C).
  set (s1 := grid_move h w (to_grid s w) a) in *.
  assert (R : to_grid (to_int s1 w) w = s1) by (destruct s1; apply to_grid_int; auto).
  assert (RS : to_int (to_grid s w) w = s).
  { unfold to_int, to_grid. cbn [fst snd]. pose proof (Nat.div_mod s w ltac:(lia)). lia. }
  assert (L : to_int s1 w < h * w) by (unfold to_int; nia).
  assert (M : moves_to (to_grid s w) a (to_grid (to_int s1 w) w) \/ (to_int s1 w = s /\ forall r c, r < h -> c < w -> ~ moves_to (to_grid s w) a (r, c))).
  { rewrite R. destruct C as [C|[C1 C2]]; auto. right. split; auto. rewrite C1. auto. }
  destruct (cell_eqb s1 goal) eqn:E; rewrite R.
  - split; auto. split; [rewrite R in M; auto|]. split; auto. split; auto. intros _. apply cell_eqb_iff; auto.
  - split; auto. split; [rewrite R in M; auto|]. split; auto. split; [discriminate|]. intros X. apply cell_eqb_iff in X. congruence.
Qed.

(** Van Hasselt's grid: the goal is absorbing when left, never entered-and-absorbing. *)
Theorem grid_world_van_hasselt_step : forall h w goal s a coin, s < h * w -> a < 4 ->
  let '(s', rw, b) := vh_step h w goal s a coin in
  s' < h * w /\ (b = true <-> to_grid s w = goal) /\ (b = true -> s' = s /\ rw = 5%R) /\ (b = false -> rw = coin).
Proof.
  intros h w goal s a coin Hs Ha. unfold vh_step. assert (W : 0 < w) by nia.
  assert (G1 : fst (to_grid s w) < h) by (unfold to_grid; cbn [fst]; apply Nat.div_lt_upper_bound; [lia|]; rewrite Nat.mul_comm; auto).
  assert (G2 : snd (to_grid s w) < w) by (unfold to_grid; cbn [snd]; apply Nat.mod_upper_bound; lia).
  assert (RS : to_int (to_grid s w) w = s).
  { unfold to_int, to_grid. cbn [fst snd]. pose proof (Nat.div_mod s w ltac:(lia)). lia. }
  destruct (cell_eqb (to_grid s w) goal) eqn:E.
  - rewrite RS. split; auto. split; [split; auto; intros _; apply cell_eqb_iff; auto|]. split; auto. discriminate.
  - destruct (grid_move_spec h w (to_grid s w) a G1 G2 Ha) as (A & B & C). split; [unfold to_int; nia|].
    split; [split; [discriminate|intros X; apply cell_eqb_iff in X; congruence]|]. split; [discriminate|auto].
Qed.

(** render draws the start cell in the right place only when it is the origin: the
    coordinates are converted as if they were a state index. *)
Theorem grid_render_start_refuted : forall start w, 2 <= w -> (drawn_start start w = start <-> start = (0, 0)).
Proof.
  intros [r c] w Hw. unfold drawn_start, to_grid. cbn [fst]. split.
  - intros E. injection E as E1 E2. assert (r = 0) by (destruct r; auto; pose proof (Nat.div_lt (S r) w ltac:(lia) ltac:(lia)); lia).
    subst r. rewrite Nat.mod_0_l in E2 by lia. congruence.
  - intros E. injection E as -> ->. rewrite Nat.div_0_l, Nat.mod_0_l by lia. reflexivity.
Qed.

(** * Concrete cases *)
Example parse_demo : parse_grid Fare [Mk Start; Mk Wall; NL; Mk Dot; Mk Goal; NL] =
  Some ([[Start; Wall]; [Dot; Goal]], [(0, 0); (1, 0); (1, 1)]).
Proof. reflexivity. Qed.
Example read_demo : read_grid Fare [Mk Start; Mk Wall; NL; Mk Dot; NL] = None /\
  read_grid Fare [Mk Start; Mk Wall; NL; Mk Dot; Mk Goal; NL] = Some ([[Start; Wall]; [Dot; Goal]], [(0, 0); (1, 0); (1, 1)]).
Proof. split; reflexivity. Qed.
Example parse_no_newline : parse_grid Fare [Mk Start; Mk Wall; NL; Mk Dot; Mk Goal] =
  Some ([[Start; Wall]], [(0, 0); (1, 0); (1, 1)]).
Proof. reflexivity. Qed.
Example taxi_demo : taxi_target [[Fare; Start; Goal]] [(0, 0); (0, 1); (0, 2)] [(0, 0)] 1 (dir 2) = 3.
Proof. reflexivity. Qed.
Example grid_start_drawn_on_goal : drawn_start (2, 0) 3 = (0, 2).
Proof. reflexivity. Qed.

Print Assumptions chain_stochastic.
Print Assumptions chain_reward.
Print Assumptions parse_grid_cells_partial.
Print Assumptions parse_grid_last_row_refuted.
Print Assumptions grid_stochastic.
Print Assumptions grid_reward.
Print Assumptions grid_initial_distribution.
Print Assumptions taxi_moves.
Print Assumptions taxi_stochastic.
Print Assumptions taxi_no_waiting.
Print Assumptions taxi_reward.
Print Assumptions taxi_slip_reward_refuted.
Print Assumptions finite_mdp_step.
Print Assumptions finite_mdp_run.
Print Assumptions grid_world_wf.
Print Assumptions grid_world_step.
Print Assumptions grid_world_van_hasselt_step.
Print Assumptions grid_render_start_refuted.
Print Assumptions read_grid_start_goal.
Print Assumptions read_grid_rejects.

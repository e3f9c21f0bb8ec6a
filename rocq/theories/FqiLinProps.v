(** C121: FQI on a table or a tiling is value iteration on the empirical decision process; with other
    linear features it can diverge. *)
From Coq Require Import List Arith Lia Reals Lra Bool.
From Verif Require Import Common TdModel DqnModel DqnSpec DqnProofs BatchModel BatchProps Mat EnacSpec EnacProofs EnacPinv EnacProps DpProofs FqiLinModel FqiLinSpec FqiLinProofs.
Import ListNotations.
Local Open Scope R_scope.

Lemma map_fst_combine : forall A B (l : list A) (k : list B), length l = length k -> map fst (combine l k) = l.
Proof. induction l as [|x l IH]; intros [|y k] H; try discriminate; [reflexivity|]. simpl. f_equal. apply IH. simpl in H. lia. Qed.
Lemma map_snd_combine : forall A B (l : list A) (k : list B), length l = length k -> map snd (combine l k) = k.
Proof. induction l as [|x l IH]; intros [|y k] H; try discriminate; [reflexivity|]. simpl. f_equal. apply IH. simpl in H. lia. Qed.

(** What one regression writes *)
Theorem fqi_table_fit : forall (X : Type) p cell (phi : X -> vec) pinv m st ac q c a,
  one_hot p cell phi -> (forall n m A, penrose n m A (pinv n m A)) -> (c < p)%nat ->
  length ac = length st -> length q = length st ->
  let w := reg_fit p phi pinv m st ac q in
  let ys := map snd (filter (fun t => andb (Nat.eqb (cell (fst (fst t))) c) (Nat.eqb (snd (fst t)) a)) (combine (combine st ac) q)) in
  (ys <> [] -> w a c = mean ys) /\
  (ys = [] -> In a ac -> w a c = 0) /\
  (~ In a ac -> w a = m a).
Proof.
  intros X p cell phi pinv m st ac q c a OH HP Hc LA LQ. cbv zeta.
  set (mk := fun t : X * nat * R => {| b_s := fst (fst t); b_a := snd (fst t); b_r := snd t; b_s' := fst (fst t); b_abs := false |}).
  set (D := map mk (combine (combine st ac) q)).
  assert (L : length (combine st ac) = length st) by (rewrite combine_length; lia).
  assert (E3 : map b_r D = q).
  { unfold D. rewrite map_map. change (fun x => b_r (mk x)) with (fun x : X * nat * R => snd x). apply map_snd_combine. lia. }
  assert (E12 : map b_s D = st /\ map b_a D = ac).
  { unfold D. rewrite !map_map. change (fun x => b_s (mk x)) with (fun x : X * nat * R => fst (fst x)). change (fun x => b_a (mk x)) with (fun x : X * nat * R => snd (fst x)).
    rewrite <- (map_map fst fst), <- (map_map fst snd). rewrite map_fst_combine by lia. split; [apply map_fst_combine|apply map_snd_combine]; lia. }
  destruct E12 as [E1 E2].
  pose proof (reg_fit_table p cell phi pinv OH HP D m b_r c a Hc) as T. rewrite E1, E2, E3 in T.
  assert (HE : here cell D c a = map mk (filter (fun t => andb (Nat.eqb (cell (fst (fst t))) c) (Nat.eqb (snd (fst t)) a)) (combine (combine st ac) q))).
  { unfold here, D. generalize (combine (combine st ac) q). intros l. induction l as [|t l IH]; [reflexivity|]. cbn [map filter]. unfold mk at 1 2. cbn [b_s b_a].
    destruct (andb _ _); cbn [map]; [f_equal|]; exact IH. }
  set (h := filter (fun t => andb (Nat.eqb (cell (fst (fst t))) c) (Nat.eqb (snd (fst t)) a)) (combine (combine st ac) q)) in *.
  unfold table in T. split; [|split].
  - intros N. rewrite T, HE. destruct h as [|t h']; [cbn in N; congruence|]. cbn [map]. f_equal. f_equal. rewrite map_map. reflexivity.
  - intros N I. rewrite T, HE. destruct h; [|discriminate]. cbn [map].
    assert (F : existsb (fun x => Nat.eqb (b_a x) a) D = true); [|rewrite F; reflexivity]. apply seen_true.
    rewrite <- E2 in I. apply in_map_iff in I as (x & Ex & I). eauto.
  - intros N. unfold reg_fit. rewrite <- E1, <- E2, <- E3, of_action_map.
    destruct (filter (fun x => Nat.eqb (b_a x) a) D) as [|x l] eqn:F; [reflexivity|]. exfalso. apply N. rewrite <- E2.
    assert (I : In x (filter (fun x => Nat.eqb (b_a x) a) D)) by (rewrite F; left; reflexivity). apply filter_In in I as [I G].
    apply Nat.eqb_eq in G. rewrite <- G. apply in_map. exact I.
Qed.

(** The empirical optimality equation has one solution, and every call of FQI.fit approaches it
    geometrically, whatever the dataset, the weights and self._target it starts from *)
Theorem fqi_table_value_iteration : forall (X : Type) p nA cell (phi : X -> vec) pinv gamma D w target K,
  one_hot p cell phi -> (forall n m A, penrose n m A (pinv n m A)) -> (0 < nA)%nat -> 0 <= gamma < 1 ->
  0 <= K -> (forall x, In x D -> Rabs (b_r x) + gamma * K <= K) ->
  (forall c a, (c < p)%nat -> (a < nA)%nat -> Rabs (w a c) <= K) ->
  exists Q, empirical p nA cell gamma D w Q /\
    (forall Q', empirical p nA cell gamma D w Q' -> forall c a, (c < p)%nat -> (a < nA)%nat -> Q' c a = Q c a) /\
    (forall c a, (c < p)%nat -> (a < nA)%nat -> Rabs (Q c a) <= K) /\
    forall n x a, (a < nA)%nat ->
      let q := nth a (reg_pred p nA phi (fst (fqi_lin p nA phi pinv gamma (S n) D (w, target))) x) 0 in
      Rabs (q - Q (cell x) a) <= gamma ^ S n * (2 * K).
Proof.
  intros X p nA cell phi pinv gamma D w target K OH HP HA HG HK Hr Hw.
  assert (HC : forall x, (cell x < p)%nat) by (intros x; apply (OH x)).
  destruct (emp_exists p nA cell gamma D w HA HG HC) as (Q & EQ). exists Q.
  assert (BQ := emp_bound p nA cell gamma D w HA HG HC K HK Hr Hw Q EQ).
  split; [exact EQ|]. split; [|split; [exact BQ|]].
  - intros Q' E' c a Hc Ha. eapply (emp_unique p nA cell gamma D w HA HG HC); eassumption.
  - intros n x a Ha. cbv zeta. rewrite (pred_ext p nA cell phi OH).
    rewrite (nth_indep _ 0 ((fun b => fst (fqi_lin p nA phi pinv gamma (S n) D (w, target)) b (cell x)) 0%nat)) by (rewrite map_length, seq_length; assumption).
    rewrite (map_nth (fun b => fst (fqi_lin p nA phi pinv gamma (S n) D (w, target)) b (cell x))). rewrite seq_nth, Nat.add_0_l by assumption.
    unfold fqi_lin. apply (loop_close p nA cell phi pinv gamma D OH HP HA HG w Q EQ); auto; [lra|].
    intros c b Hc Hb. unfold start. cbn [fst snd]. pose proof (BQ c b Hc Hb). pose proof (Hw c b Hc Hb).
    destruct target; unfold Rminus; eapply Rle_trans; try apply Rabs_triang; rewrite ?Rabs_Ropp, ?Rabs_R0; lra.
Qed.

(** If the dataset represents the decision process up to [e], so does the result, up to [e / (1 - gamma)];
    greedy actions lose at most twice that *)
Theorem fqi_table_near_optimal : forall (X : Type) p nA cell (phi : X -> vec) pinv gamma D w target K Qs e n x,
  one_hot p cell phi -> (forall n m A, penrose n m A (pinv n m A)) -> (0 < nA)%nat -> 0 <= gamma < 1 ->
  0 <= K -> (forall x, In x D -> Rabs (b_r x) + gamma * K <= K) ->
  (forall c a, (c < p)%nat -> (a < nA)%nat -> Rabs (w a c) <= K) ->
  0 <= e ->
  (forall c a, (c < p)%nat -> (a < nA)%nat -> here cell D c a <> [] /\
     exists ys, Forall2 (backup nA cell gamma Qs) (here cell D c a) ys /\ Rabs (mean ys - Qs c a) <= e) ->
  let q := reg_pred p nA phi (fst (fqi_lin p nA phi pinv gamma (S n) D (w, target))) x in
  let loss := e / (1 - gamma) + gamma ^ S n * (2 * K) in
  (forall a, (a < nA)%nat -> Rabs (nth a q 0 - Qs (cell x) a) <= loss) /\
  forall a, (a < nA)%nat -> is_max q (nth a q 0) -> forall b, (b < nA)%nat -> Qs (cell x) b - 2 * loss <= Qs (cell x) a.
Proof.
  intros X p nA cell phi pinv gamma D w target K Qs e n x OH HP HA HG HK Hr Hw He HD. cbv zeta.
  assert (HC : forall x, (cell x < p)%nat) by (intros y; apply (OH y)).
  destruct (fqi_table_value_iteration X p nA cell phi pinv gamma D w target K OH HP HA HG HK Hr Hw) as (Q & EQ & _ & _ & B).
  set (q := reg_pred p nA phi (fst (fqi_lin p nA phi pinv gamma (S n) D (w, target))) x).
  assert (R1 : forall a, (a < nA)%nat -> Rabs (nth a q 0 - Qs (cell x) a) <= e / (1 - gamma) + gamma ^ S n * (2 * K)).
  { intros a Ha. specialize (B n x a Ha). fold q in B. cbv zeta in B.
    assert (R2 : Rabs (Qs (cell x) a - Q (cell x) a) <= e / (1 - gamma)).
    { apply (emp_residual p nA cell gamma D w HA HG HC); auto. intros c b Hc Hb. destruct (HD c b Hc Hb) as (N & ys & F & L).
      apply (backups_bk nA cell gamma HA) in F. unfold step, table. destruct (here cell D c b); [congruence|]. rewrite <- F. exact L. }
    rewrite Rabs_minus_sym in R2.
    replace (nth a q 0 - Qs (cell x) a) with ((Q (cell x) a - Qs (cell x) a) + (nth a q 0 - Q (cell x) a)) by ring.
    eapply Rle_trans; [apply Rabs_triang|]. apply Rplus_le_compat; assumption. }
  split; [exact R1|]. intros a Ha [_ M] b Hb. pose proof (R1 a Ha) as A1. pose proof (R1 b Hb) as A2.
  apply BatchProps.Rabs_le_inv in A1. apply BatchProps.Rabs_le_inv in A2.
  assert (I : nth b q 0 <= nth a q 0); [|lra]. apply M. apply nth_In. unfold q, reg_pred. rewrite map_length, seq_length. exact Hb.
Qed.

(** ** Other linear features *)
(** Two states, described by the numbers 1 and 2; both actions earn 1 and lead to the second *)
Definition two_states : list (bsample R) :=
  map (fun t => {| b_s := fst t; b_a := snd t; b_r := 1; b_s' := 2; b_abs := false |}) [(1, 0%nat); (2, 0%nat); (1, 1%nat); (2, 1%nat)].
Definition number (x : R) : vec := fun _ => x.

Lemma two_fit : forall pinv m y a, (forall n m A, penrose n m A (pinv n m A)) -> (a < 2)%nat ->
  reg_fit 1 number pinv m (map b_s two_states) (map b_a two_states) (map (fun _ => y) two_states) a 0%nat = 3 / 5 * y.
Proof.
  intros pinv m y a HP Ha. unfold reg_fit.
  assert (E : of_action a (map b_s two_states) (map b_a two_states) (map (fun _ => y) two_states) = [(1, y); (2, y)]).
  { destruct a as [|[|]]; [reflexivity|reflexivity|lia]. }
  rewrite E. pose proof (ls_normal 2 1 (design number [(1, y); (2, y)]) (pinv 2%nat 1%nat (design number [(1, y); (2, y)])) (fun i => nth i (map snd [(1, y); (2, y)]) 0) (HP _ _ _) 0%nat ltac:(lia)) as N.
  set (v := lin_fit 1 number pinv [(1, y); (2, y)]). change (mv 2 (pinv 2%nat 1%nat (design number [(1, y); (2, y)])) (fun i => nth i (map snd [(1, y); (2, y)]) 0)) with v in N.
  unfold sm, mv, design, number in N. cbn [seq map rsum nth_error nth fst snd] in N. unfold sm in N. cbn [seq map rsum] in N. lra.
Qed.

Theorem fqi_linear_diverges_refuted : forall pinv gamma, (forall n m A, penrose n m A (pinv n m A)) -> 5 / 6 < gamma < 1 ->
  (** the optimal values are finite and the same everywhere ... *)
  (let V := 1 / (1 - gamma) in forall x, In x two_states -> b_abs x = false /\ b_r x + gamma * V = V) /\
  (** ... but the predictions exceed every bound *)
  forall B, exists N, forall n, (N <= n)%nat -> forall a, (a < 2)%nat ->
    B < nth a (reg_pred 1 2 number (fst (fqi_lin 1 2 number pinv gamma n two_states (fun _ _ => 0, None))) 1) 0.
Proof.
  intros pinv gamma HP HG. split.
  { cbv zeta. intros x I. unfold two_states in I. cbn [map fst snd] in I. destruct I as [<-|[<-|[<-|[<-|[]]]]]; cbn [b_abs b_r]; (split; [reflexivity|field; lra]). }
  assert (LOW : forall n m t th, 3 / 5 <= th -> (forall a, (a < 2)%nat -> m a 0%nat = th) ->
    forall a, (a < 2)%nat -> th * (6 / 5 * gamma) ^ n <= fst (fqi_lin 1 2 number pinv gamma n two_states (m, Some t)) a 0%nat).
  { induction n as [|n IH]; intros m t th Hth Hm a Ha.
    - unfold fqi_lin. cbn [fqi_fit fst pow]. rewrite Hm by assumption. lra.
    - unfold fqi_lin. cbn [fqi_fit].
      assert (T : add_targets gamma (map b_r two_states) (dqn_next_q (map (fun x => reg_pred 1 2 number m (b_s' x)) two_states) (map b_abs two_states))
        = map (fun _ => 1 + gamma * (2 * th)) two_states).
      { assert (P : reg_pred 1 2 number m 2 = [2 * th; 2 * th]).
        { unfold reg_pred, dot, sm, number. cbn [seq map rsum]. rewrite !Hm by lia. f_equal; [ring|f_equal; ring]. }
        unfold two_states. cbn [map b_s b_a b_r b_s' b_abs fst snd]. rewrite P. unfold dqn_next_q, add_targets. cbn [existsb orb map combine fst snd].
        assert (Q : rowmax [2 * th; 2 * th] = 2 * th) by (destruct (rowmax_spec [2 * th; 2 * th] ltac:(discriminate)) as [[<-|[<-|[]]] _]; reflexivity).
        rewrite ?Q. reflexivity. }
      unfold fqi_iter. rewrite T. set (th' := 3 / 5 * (1 + gamma * (2 * th))).
      eapply Rle_trans; [|apply (IH _ _ th'); [unfold th'; nra| |exact Ha]].
      + cbn [pow]. rewrite <- Rmult_assoc. apply Rmult_le_compat_r; [apply pow_le; lra|]. unfold th'. nra.
      + intros b Hb. apply two_fit; assumption. }
  intros B. destruct (Pow_x_infinity (6 / 5 * gamma) ltac:(rewrite Rabs_right; lra) (Rmax 0 (B * 5 / 3) + 1)) as (N & HN).
  exists (S N). intros n Hn a Ha. destruct n as [|n]; [lia|]. specialize (HN n ltac:(lia)).
  rewrite Rabs_right in HN by (apply Rle_ge, pow_le; lra).
  assert (E : nth a (reg_pred 1 2 number (fst (fqi_lin 1 2 number pinv gamma (S n) two_states (fun _ _ => 0, None))) 1) 0
    = fst (fqi_lin 1 2 number pinv gamma (S n) two_states (fun _ _ => 0, None)) a 0%nat).
  { unfold reg_pred, dot, sm, number. destruct a as [|[|]]; [| |lia]; cbn [seq map rsum nth]; ring. }
  rewrite E. unfold fqi_lin. cbn [fqi_fit]. unfold fqi_iter. change (map b_r two_states) with (map (fun _ : bsample R => 1) two_states).
  eapply Rlt_le_trans; [|apply (LOW n _ _ (3 / 5)); [lra| |exact Ha]].
  - pose proof (Rmax_r 0 (B * 5 / 3)). lra.
  - intros b Hb. rewrite two_fit by assumption. ring.
Qed.

(** ** A case *)
(** Numbers split at 5 into two parts, two actions.  In the low part action 0 earned 1 and 3 and ended
    the episode once; in the high part it ended the episode with 2; action 1 was seen in the low part
    only, and led to the high part. *)
Definition side (x : nat) : nat := if Nat.ltb x 5 then 0%nat else 1%nat.
Definition side_phi (x : nat) : vec := fun j => if Nat.eqb j (side x) then 1 else 0.
Definition few : list (bsample nat) :=
  [{| b_s := 1%nat; b_a := 0%nat; b_r := 1; b_s' := 7%nat; b_abs := false |};
   {| b_s := 3%nat; b_a := 0%nat; b_r := 3; b_s' := 9%nat; b_abs := true |};
   {| b_s := 8%nat; b_a := 0%nat; b_r := 2; b_s' := 1%nat; b_abs := true |};
   {| b_s := 2%nat; b_a := 1%nat; b_r := 0; b_s' := 6%nat; b_abs := false |}].
Definition few_Q (c a : nat) : R := match c, a with 0%nat, 0%nat => 5 / 2 | 1%nat, 0%nat => 2 | 0%nat, 1%nat => 1 | _, _ => 0 end.

Lemma side_hot : one_hot 2 side side_phi.
Proof.
  intros x. unfold side_phi. split; [unfold side; destruct (Nat.ltb x 5); lia|]. rewrite Nat.eqb_refl. split; [reflexivity|].
  intros j _ N. apply Nat.eqb_neq in N. rewrite N. reflexivity.
Qed.

Example fqi_table_ex : empirical 2 2 side (1 / 2) few (fun _ _ => 0) few_Q /\
  exists pinv, (forall n m A, penrose n m A (pinv n m A)) /\
  forall n x a, (a < 2)%nat ->
  Rabs (nth a (reg_pred 2 2 side_phi (fst (fqi_lin 2 2 side_phi pinv (1 / 2) (S n) few (fun _ _ => 0, None))) x) 0 - few_Q (side x) a) <= (1 / 2) ^ S n * 12.
Proof.
  assert (EQ : empirical 2 2 side (1 / 2) few (fun _ _ => 0) few_Q).
  { assert (M : is_max (map (few_Q 1) (seq 0 2)) 2) by (cbn [seq map few_Q]; split; [left; reflexivity|intros y [<-|[<-|[]]]; lra]).
    pose (z0 := {| b_s := 0%nat; b_a := 0%nat; b_r := 0; b_s' := 0%nat; b_abs := true |}).
    intros c a Hc Ha. unfold mean. destruct c as [|[|]]; [| |lia]; (destruct a as [|[|]]; [| |lia]); (split; [|split]).
    - intros _. exists [2; 3]. split; [|simpl; lra]. change (here side few 0 0) with [nth 0 few z0; nth 1 few z0]. apply Forall2_cons; [|apply Forall2_cons; [|apply Forall2_nil]].
      + split; [intros E; discriminate E|]. intros _. exists 2. split; [exact M|cbn [nth few b_r]; lra].
      + split; [intros _; reflexivity|intros E; discriminate E].
    - intros E. discriminate E.
    - intros N. exfalso. apply (N _ (or_introl eq_refl)). reflexivity.
    - intros _. exists [1]. split; [|simpl; lra]. change (here side few 0 1) with [nth 3 few z0]. apply Forall2_cons; [|apply Forall2_nil].
      split; [intros E; discriminate E|]. intros _. exists 2. split; [exact M|cbn [nth few b_r]; lra].
    - intros E. discriminate E.
    - intros N. exfalso. apply (N _ (or_intror (or_intror (or_intror (or_introl eq_refl))))). reflexivity.
    - intros _. exists [2]. split; [|simpl; lra]. change (here side few 1 0) with [nth 2 few z0]. apply Forall2_cons; [|apply Forall2_nil].
      split; [intros _; reflexivity|intros E; discriminate E].
    - intros E. discriminate E.
    - intros N. exfalso. apply (N _ (or_introl eq_refl)). reflexivity.
    - intros N. exfalso. apply N. reflexivity.
    - intros _ _. reflexivity.
    - intros N. exfalso. apply (N _ (or_intror (or_intror (or_intror (or_introl eq_refl))))). reflexivity. }
  split; [exact EQ|]. destruct pinv_exists as (pinv & HP). exists pinv. split; [exact HP|]. intros n x a Ha.
  destruct (fqi_table_value_iteration nat 2 2 side side_phi pinv (1 / 2) few (fun _ _ => 0) None 6 side_hot HP ltac:(lia) ltac:(lra) ltac:(lra)) as (Q & _ & U & _ & B).
  - intros y I. unfold few in I. destruct I as [<-|[<-|[<-|[<-|[]]]]]; cbn [b_r]; rewrite Rabs_right by lra; lra.
  - intros. rewrite Rabs_R0. lra.
  - rewrite (U few_Q EQ (side x) a); [|apply (side_hot x)|exact Ha]. replace 12 with (2 * 6) by ring. apply B. exact Ha.
Qed.

Print Assumptions fqi_table_fit.
Print Assumptions fqi_table_value_iteration.
Print Assumptions fqi_table_near_optimal.
Print Assumptions fqi_linear_diverges_refuted.

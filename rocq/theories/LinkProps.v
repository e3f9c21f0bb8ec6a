(** Theorems C94. *)
From Coq Require Import List Arith Lia Bool.
From Verif Require Import Common LinkModel.
Import ListNotations.

Section Link.
Context {W : Type}.
Implicit Types (w : world W).

(** The weights after all the updates of a history, ignoring saves, loads and copies. *)
Definition trained (v : W) (l : list (op W)) : W := fold_left (fun x o => match o with OFit f => f x | _ => x end) l v.

Lemma upd_spec : forall A (l l' : list A) i x, upd l i x = Some l' ->
  nth_error l' i = Some x /\ forall j, j <> i -> nth_error l' j = nth_error l j.
Proof.
  induction l as [|h t IH]; intros l' [|i] x H; simpl in H; try discriminate.
  - inversion H; subst. split; auto. intros [|j] Hj; [congruence|auto].
  - destruct (upd t i x) as [t'|] eqn:E; [|discriminate]. inversion H; subst.
    destruct (IH _ _ _ E) as [A1 A2]. split; auto. intros [|j] Hj; simpl; auto.
Qed.

Lemma upd_total : forall A (l : list A) i x y, nth_error l i = Some y -> exists l', upd l i x = Some l'.
Proof. intros A l i x y H. rewrite upd_Some by (apply nth_error_Some; congruence). eauto. Qed.

Lemma last3 : forall A (l : list A) a b c,
  nth_error (l ++ [a; b; c]) (length l) = Some a /\ nth_error (l ++ [a; b; c]) (length l + 1) = Some b /\
  nth_error (l ++ [a; b; c]) (length l + 2) = Some c.
Proof.
  intros. rewrite !nth_error_app2 by lia. replace (length l - length l) with 0 by lia.
  replace (length l + 1 - length l) with 1 by lia. replace (length l + 2 - length l) with 2 by lia. auto.
Qed.
Lemma last2 : forall A (l : list A) a b,
  nth_error (l ++ [a; b]) (length l) = Some a /\ nth_error (l ++ [a; b]) (length l + 1) = Some b.
Proof.
  intros. rewrite !nth_error_app2 by lia. replace (length l - length l) with 0 by lia.
  replace (length l + 1 - length l) with 1 by lia. auto.
Qed.

(** The link: the policy refers to the learned approximator, the temperature to some policy. *)
Definition linked w (g : agent) (v : W) : Prop :=
  nth_error (cells w) (learned g) = Some v /\ nth_error (pols w) (policy g) = Some (learned g) /\
  exists u, weights w (outer g) = Some u.

Lemma linked_step : forall k w g v l, k <> Copdac -> linked w g v ->
  exists w' g', run k w g l = Some (w', g') /\ linked w' g' (trained v l).
Proof.
  intros k w g v l K. revert w g v. induction l as [|o l IH]; intros w g v L.
  - exists w, g. auto.
  - destruct L as (A & B & u & C). destruct o as [f| |]; cbn [run trained fold_left].
    + unfold fit. rewrite A. cbn [obind]. destruct (upd_total _ (cells w) (learned g) (f v) v A) as [c Hc]. rewrite Hc.
      cbn [obind]. apply IH. destruct (upd_spec _ _ _ _ _ Hc) as [U1 U2]. split; [exact U1|]. split; [exact B|].
      unfold weights in *. cbn [pols cells]. destruct (nth_error (pols w) (outer g)) as [a|]; cbn [obind] in *; [|discriminate].
      destruct (Nat.eq_dec a (learned g)) as [->|N]; [exists (f v); auto|]. exists u. rewrite U2; auto.
    + unfold reload. rewrite A. cbn [obind]. unfold weights at 1. rewrite B. cbn [obind]. rewrite A. cbn [obind]. rewrite C. cbn [obind fst snd].
      apply IH. destruct (last3 _ (cells w) v v u) as (L1 & L2 & L3).
      destruct (last2 _ (pols w) (match k with Td => length (cells w) | _ => length (cells w) + 1 end) (length (cells w) + 2)) as (P1 & P2).
      unfold linked, weights. cbn [learned policy outer cells pols].
      destruct k; [| |congruence]; (split; [auto|]); (split; [auto|]); exists u; rewrite P2; cbn [obind]; auto.
    + unfold copy. rewrite A. cbn [obind]. rewrite B. cbn [obind]. rewrite A. cbn [obind].
      unfold weights in C. destruct (nth_error (pols w) (outer g)) as [b|] eqn:Eb; cbn [obind] in *; [|discriminate].
      rewrite C. cbn [obind fst snd]. rewrite Nat.eqb_refl. apply IH.
      destruct (last3 _ (cells w) v v u) as (L1 & L2 & L3).
      match goal with |- linked (mkW _ (_ ++ [?x; ?y])) _ _ => destruct (last2 _ (pols w) x y) as (P1 & P2) end.
      unfold linked, weights. cbn [learned policy outer cells pols]. split; auto. split; auto.
      destruct (outer g =? policy g).
      * exists v. rewrite P1. cbn [obind]. auto.
      * destruct (b =? learned g); [exists v|exists u]; rewrite P2; cbn [obind]; auto.
Qed.

(** ** C94 *)
(** TD, batch and DQN agents, DDPG and TD3: through any history of fits, saves, loads and
    copies the agent acts with the weights its fits produced, as if it had never been saved. *)
Theorem loaded_agent_acts_on_learned : forall k v l, k <> Copdac ->
  exists w g, run k (fst (build v)) (snd (build v)) l = Some (w, g) /\
    nth_error (cells w) (learned g) = Some (trained v l) /\ acting w g = Some (trained v l).
Proof.
  intros k v l K. destruct (linked_step k (fst (build v)) (snd (build v)) v l K) as (w & g & R & A & B & _).
  - split; [reflexivity|]. split; [reflexivity|]. exists v. reflexivity.
  - exists w, g. split; auto. split; auto. unfold acting, weights. rewrite B. auto.
Qed.

Definition fits (fs : list (W -> W)) : list (op W) := map (fun f => OFit f) fs.

Lemma run_app : forall k l1 l2 w g, run k w g (l1 ++ l2) = (r <- run k w g l1 ;; run k (fst r) (snd r) l2).
Proof.
  intros k. induction l1 as [|o l1 IH]; intros l2 w g; auto. destruct o; cbn [app run].
  - destruct (fit w g f); cbn [obind]; auto.
  - destruct (reload k w g); cbn [obind]; auto.
  - destruct (copy w g); cbn [obind]; auto.
Qed.

(** Fits write nothing but the learned cell. *)
Lemma run_fits : forall k fs w g v, nth_error (cells w) (learned g) = Some v ->
  exists w', run k w g (fits fs) = Some (w', g) /\ nth_error (cells w') (learned g) = Some (trained v (fits fs)) /\
    pols w' = pols w /\ forall a, a <> learned g -> nth_error (cells w') a = nth_error (cells w) a.
Proof.
  intros k. induction fs as [|f fs IH]; intros w g v A.
  - exists w. cbn. auto.
  - cbn [fits map run]. unfold fit. rewrite A. cbn [obind].
    destruct (upd_total _ (cells w) (learned g) (f v) v A) as [c Hc]. rewrite Hc. cbn [obind].
    destruct (upd_spec _ _ _ _ _ Hc) as [U1 U2].
    destruct (IH (mkW c (pols w)) g (f v) U1) as (w' & R & T & P & O). exists w'. split; [exact R|]. split; [exact T|].
    split; [exact P|]. intros a Ha. rewrite O by auto. apply U2. auto.
Qed.

(** COPDAC_Q, before its first load: acts with what it learned. *)
Theorem copdac_unsaved : forall v l, ~ In OReload l ->
  exists w g, run Copdac (fst (build v)) (snd (build v)) l = Some (w, g) /\ acting w g = Some (trained v l).
Proof.
  intros v l H. assert (E : forall w g, run Copdac w g l = run Td w g l).
  { clear v. induction l as [|o l IH]; intros w g; auto. destruct o; cbn [run].
    - destruct (fit w g f); cbn [obind]; auto. apply IH. intros I'. apply H. right. auto.
    - exfalso. apply H. left. auto.
    - destruct (copy w g); cbn [obind]; auto. apply IH. intros I'. apply H. right. auto. }
  rewrite E. destruct (loaded_agent_acts_on_learned Td v l) as (w & g & R & _ & A); [discriminate|]. eauto.
Qed.

(** COPDAC_Q, after a load: the policy keeps the weights of the moment of saving, whatever is
    learned afterwards; the mean that fit improves is a different object. *)
Theorem copdac_loaded_refuted : forall v before after, exists w g,
  run Copdac (fst (build v)) (snd (build v)) (fits before ++ OReload :: fits after) = Some (w, g) /\
  nth_error (cells w) (learned g) = Some (trained v (fits (before ++ after))) /\
  acting w g = Some (trained v (fits before)).
Proof.
  intros v before after. rewrite run_app.
  destruct (run_fits Copdac before (fst (build v)) (snd (build v)) v eq_refl) as (w1 & R1 & T1 & P1 & _). rewrite R1.
  cbn [obind fst snd run]. set (g1 := snd (build v)) in *. set (u := trained v (fits before)) in *.
  assert (E1 : nth_error (cells w1) 0 = Some u) by exact T1. assert (EP : pols w1 = [0]) by exact P1.
  assert (EW : weights w1 0 = Some u) by (unfold weights; rewrite EP; exact E1).
  unfold reload. change (learned g1) with 0. change (policy g1) with 0. change (outer g1) with 0. rewrite E1, EW.
  cbn [obind fst snd]. set (c := length (cells w1)).
  destruct (last3 _ (cells w1) u u u) as (L1 & L2 & L3). fold c in L1, L2, L3.
  match goal with |- context [run _ ?w ?g (fits after)] => destruct (run_fits Copdac after w g u L1) as (w2 & R2 & T2 & P2 & O2) end.
  eexists. eexists. split; [exact R2|]. split.
  - rewrite T2. unfold u, trained, fits. rewrite map_app, fold_left_app. reflexivity.
  - unfold acting, weights. rewrite P2. cbn [pols policy]. destruct (last2 _ (pols w1) (c + 1) (c + 2)) as [Q1 _]. rewrite Q1. cbn [obind].
    rewrite O2 by (cbn [learned]; lia). exact L2.
Qed.

(** Mellowmax: before a load the temperature follows the learned values. *)
Theorem mellowmax_unsaved : forall v fs, exists w g,
  run Td (fst (build v)) (snd (build v)) (fits fs) = Some (w, g) /\ tempering w g = Some (trained v (fits fs)).
Proof.
  intros v fs. destruct (run_fits Td fs (fst (build v)) (snd (build v)) v eq_refl) as (w & R & T & P & _).
  exists w, (snd (build v)). split; auto. unfold tempering, weights. rewrite P. exact T.
Qed.

(** After a load the temperature is computed from a copy of the values at the moment of
    saving, while the action probabilities use the values learned since. *)
Theorem mellowmax_loaded_refuted : forall v before after, exists w g,
  run Td (fst (build v)) (snd (build v)) (fits before ++ OReload :: fits after) = Some (w, g) /\
  acting w g = Some (trained v (fits (before ++ after))) /\
  tempering w g = Some (trained v (fits before)).
Proof.
  intros v before after. rewrite run_app.
  destruct (run_fits Td before (fst (build v)) (snd (build v)) v eq_refl) as (w1 & R1 & T1 & P1 & _). rewrite R1.
  cbn [obind fst snd run]. set (g1 := snd (build v)) in *. set (u := trained v (fits before)) in *.
  assert (E1 : nth_error (cells w1) 0 = Some u) by exact T1. assert (EP : pols w1 = [0]) by exact P1.
  assert (EW : weights w1 0 = Some u) by (unfold weights; rewrite EP; exact E1).
  unfold reload. change (learned g1) with 0. change (policy g1) with 0. change (outer g1) with 0. rewrite E1, EW.
  cbn [obind fst snd]. set (c := length (cells w1)).
  destruct (last3 _ (cells w1) u u u) as (L1 & L2 & L3). fold c in L1, L2, L3.
  match goal with |- context [run _ ?w ?g (fits after)] => destruct (run_fits Td after w g u L1) as (w2 & R2 & T2 & P2 & O2) end.
  destruct (last2 _ (pols w1) c (c + 2)) as [Q1 Q2].
  eexists. eexists. split; [exact R2|]. unfold acting, tempering, weights. rewrite P2. cbn [pols policy outer]. split.
  - rewrite Q1. cbn [obind]. cbn [learned] in T2. rewrite T2. unfold u, trained, fits. rewrite map_app, fold_left_app. reflexivity.
  - rewrite Q2. cbn [obind]. rewrite O2 by (cbn [learned]; lia). exact L3.
Qed.
End Link.

(** Two updates before and two after a load. *)
Example link_demo : option_map (fun r => acting (fst r) (snd r))
    (run Ddpg (fst (build 1)) (snd (build 1)) [OFit S; OReload; OFit S; OCopy; OReload; OFit S]) = Some (Some 4) /\
  option_map (fun r => acting (fst r) (snd r))
    (run Copdac (fst (build 1)) (snd (build 1)) [OFit S; OReload; OFit S; OFit S]) = Some (Some 2) /\
  option_map (fun r => (acting (fst r) (snd r), tempering (fst r) (snd r)))
    (run Td (fst (build 1)) (snd (build 1)) [OFit S; OReload; OFit S; OCopy; OFit S]) = Some (Some 4, Some 2).
Proof. repeat split. Qed.
Print Assumptions loaded_agent_acts_on_learned.
Print Assumptions copdac_unsaved.
Print Assumptions copdac_loaded_refuted.
Print Assumptions mellowmax_unsaved.
Print Assumptions mellowmax_loaded_refuted.

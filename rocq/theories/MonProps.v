(** C91: what callbacks, plots, recordings and the console show of a run. *)
From Coq Require Import List Arith Reals Lra Bool Lia ZArith Permutation.
From Verif Require Import Common MonModel.
Import ListNotations.
Local Open Scope nat_scope.

(** * Collected values *)
(** the value written last *)
Definition written {T} (t0 : T) (ev : list (event T)) : T := fold_left (fun t e => match e with Learn t' => t' | _ => t end) ev t0.
Definition calls {T} (ev : list (event T)) : nat := length (filter (fun e => match e with Call => true | _ => false end) ev).
Definition no_clean {T} (ev : list (event T)) : Prop := Forall (fun e => e <> Clean) ev.
Lemma coll_run_app {T E} (take : T -> E) t0 a b : coll_run take t0 (a ++ b) = fold_left (coll_event take) b (coll_run take t0 a).
Proof. unfold coll_run. apply fold_left_app. Qed.
Lemma coll_now {T E} (take : T -> E) t0 ev : c_now (coll_run take t0 ev) = written t0 ev.
Proof. induction ev as [|e ev IH] using rev_ind; [reflexivity|]. rewrite coll_run_app. unfold written. rewrite fold_left_app. simpl. destruct e; simpl; auto. Qed.
Lemma coll_grow {T E} (take : T -> E) ev : no_clean ev -> forall c, exists l,
  c_list (fold_left (coll_event take) ev c) = c_list c ++ l /\ length l = calls ev /\ c_old (fold_left (coll_event take) ev c) = c_old c.
Proof.
  induction ev as [|e ev IH]; intros N c; [exists []; rewrite app_nil_r; auto|]. inversion N as [|? ? H N']; subst.
  destruct (IH N' (coll_event take c e)) as (l & A & B & C). destruct e; cbn [coll_event fold_left c_list c_old] in *.
  - exists l. auto.
  - exists (take (c_now c) :: l). rewrite A, <- app_assoc. split; [reflexivity|]. split; [unfold calls in *; simpl; rewrite B; reflexivity|auto].
  - congruence.
Qed.
(** The j-th entry of the list since the last cleaning is the value taken from what was written at the time of the j-th call, and there are as many entries as
    calls. What was written later does not show. *)
Theorem collected_history {T V} (value : T -> V) t0 before pre post now :
  no_clean pre -> no_clean post ->
  let c := coll_run (fun t => Copied (value t)) t0 (before ++ Clean :: pre ++ Call :: post) in
  length (c_list c) = calls pre + 1 + calls post /\
  option_map (read now) (nth_error (c_list c) (calls pre)) = Some (value (written t0 (before ++ Clean :: pre))).
Proof.
  intros A B. cbn zeta. set (take := fun t => Copied (value t)).
  replace (before ++ Clean :: pre ++ Call :: post) with ((before ++ [Clean]) ++ pre ++ Call :: post) by (rewrite <- app_assoc; reflexivity).
  rewrite coll_run_app, fold_left_app. cbn [fold_left].
  set (c0 := coll_run take t0 (before ++ [Clean])).
  assert (Z : c_list c0 = []) by (unfold c0; rewrite coll_run_app; reflexivity).
  destruct (coll_grow take pre A c0) as (l & L1 & L2 & _). set (c1 := fold_left (coll_event take) pre c0) in *.
  destruct (coll_grow take post B (coll_event take c1 Call)) as (l' & M1 & M2 & _). rewrite M1. cbn [coll_event c_list]. rewrite L1, Z. cbn [app].
  split; [rewrite !app_length; simpl; lia|].
  rewrite <- app_assoc, nth_error_app2 by lia. rewrite L2, Nat.sub_diag. cbn [nth_error app option_map]. unfold take at 1. cbn [read].
  assert (W : c_now c1 = written t0 ((before ++ [Clean]) ++ pre)) by (unfold c1, c0; rewrite <- (coll_run_app take t0 _ pre); apply coll_now).
  rewrite W, <- app_assoc. reflexivity.
Qed.
(** The four callbacks, with what they record. *)
Theorem collect_q_history t0 before pre post now : no_clean pre -> no_clean post ->
  option_map (read now) (nth_error (c_list (coll_run collect_q t0 (before ++ Clean :: pre ++ Call :: post))) (calls pre)) = Some (written t0 (before ++ Clean :: pre)).
Proof. intros A B. apply (collected_history (fun t => t) t0 before pre post now A B). Qed.
Definition entry_at (q : table) (s a : nat) : R := nth a (nth s q []) 0%R.
Lemma vadd_nth a b i : length a = length b -> nth i (vadd a b) 0%R = (nth i a 0 + nth i b 0)%R.
Proof.
  revert b i. induction a as [|x a IH]; intros [|y b] i L; try discriminate; [destruct i; simpl; lra|]. destruct i; simpl; auto.
  apply IH. simpl in L. lia.
Qed.
Lemma vadd_length a b : length a = length b -> length (vadd a b) = length a.
Proof. intros. unfold vadd. rewrite map_length, combine_length. lia. Qed.
Definition shape (ns na : nat) (q : table) : Prop := length q = ns /\ forall s, s < ns -> length (nth s q []) = na.
Lemma nth_map_default {A B} (f : A -> B) l i d d' : i < length l -> nth i (map f l) d = f (nth i l d').
Proof. intros. rewrite (nth_indep _ d (f d')) by (rewrite map_length; auto). apply map_nth. Qed.
Lemma tadd_at ns na a b s i : shape ns na a -> shape ns na b -> s < ns -> entry_at (tadd a b) s i = (entry_at a s i + entry_at b s i)%R /\ shape ns na (tadd a b).
Proof.
  intros [A1 A2] [B1 B2] Hs.
  assert (N : forall s, s < ns -> nth s (tadd a b) [] = vadd (nth s a []) (nth s b [])).
  { intros s' Hs'. unfold tadd. rewrite nth_map_default with (d' := ([], [])) by (rewrite combine_length; lia). rewrite combine_nth by lia. reflexivity. }
  split.
  - unfold entry_at. rewrite N by auto. apply vadd_nth. rewrite A2, B2; auto.
  - split; [unfold tadd; rewrite map_length, combine_length; lia|]. intros s' Hs'. rewrite N by auto. rewrite vadd_length; [apply A2; auto|rewrite A2, B2; auto].
Qed.
(** For an ensemble the entry is the mean of the tables, entry by entry. *)
Theorem collect_q_ensemble_mean ns na qs s a now : qs <> [] -> Forall (shape ns na) qs -> s < ns -> a < na ->
  entry_at (read now (collect_q_ensemble qs)) s a = (rsum (map (fun q => entry_at q s a) qs) / INR (length qs))%R.
Proof.
  intros NE F Hs Ha. destruct qs as [|q r]; [congruence|]. clear NE. cbn [read collect_q_ensemble tables_mean].
  assert (G : forall r q, Forall (shape ns na) (q :: r) -> shape ns na (fold_left tadd r q) /\
              entry_at (fold_left tadd r q) s a = rsum (map (fun q => entry_at q s a) (q :: r))).
  { clear F q r. intros r. induction r as [|p r IH]; intros q F; [inversion F; subst; simpl; split; auto; lra|].
    inversion F as [|? ? Fq F']; subst. inversion F' as [|? ? Fp F'']; subst. cbn [fold_left].
    destruct (tadd_at ns na q p s a Fq Fp Hs) as [E Sh]. destruct (IH (tadd q p)) as [S1 E1]; [constructor; auto|]. split; auto.
    rewrite E1. cbn [map rsum]. rewrite E. lra. }
  destruct (G r q F) as [[S1 S2] E]. rewrite <- E. set (t := fold_left tadd r q) in *. set (n := INR (length (q :: r))).
  unfold entry_at. rewrite nth_map_default with (d' := []) by lia. rewrite nth_map_default with (d' := 0%R) by (rewrite S2; auto). reflexivity.
Qed.
Lemma fold_Rmax l x : (x <= fold_left Rmax l x)%R /\ (forall y, In y l -> (y <= fold_left Rmax l x)%R) /\ (fold_left Rmax l x = x \/ In (fold_left Rmax l x) l).
Proof.
  revert x. induction l as [|z l IH]; intros x; simpl; [split; [lra|]; split; [tauto|auto]|].
  destruct (IH (Rmax x z)) as (A & B & C). assert (M1 := Rmax_l x z). assert (M2 := Rmax_r x z). split; [lra|]. split.
  - intros y [->|I1]; [lra|auto].
  - destruct C as [C|C]; [|auto]. rewrite C. unfold Rmax in *. destruct (Rle_dec x z); auto.
Qed.
(** CollectMaxQ records the largest action value. *)
Theorem collect_max_q_value predict t now : predict t <> [] ->
  let m := read now (collect_max_q predict t) in In m (predict t) /\ forall y, In y (predict t) -> (y <= m)%R.
Proof.
  intros NE. cbn [read collect_max_q]. destruct (predict t) as [|x l]; [congruence|]. cbn [maxl]. destruct (fold_Rmax l x) as (A & B & C).
  split; [destruct C as [->|C]; simpl; auto|]. intros y [<-|I1]; auto.
Qed.
(** The list handed out by get is never emptied by clean: the cleaned lists keep their entries. *)
Theorem cleaned_lists_kept {T E} (take : T -> E) t0 ev ev' :
  exists more, c_old (coll_run take t0 (ev ++ Clean :: ev')) = c_old (coll_run take t0 ev) ++ c_list (coll_run take t0 ev) :: more.
Proof.
  rewrite coll_run_app. cbn [fold_left].
  assert (G : forall ev c, exists more, c_old (fold_left (coll_event take) ev c) = c_old c ++ more).
  { clear. induction ev as [|e ev IH]; intros c; [exists []; rewrite app_nil_r; auto|]. cbn [fold_left]. destruct (IH (coll_event take c e)) as [m E1].
    rewrite E1. destruct e; cbn [coll_event c_old]; eauto. rewrite <- app_assoc. eauto. }
  destruct (G ev' (coll_event take (coll_run take t0 ev) Clean)) as [m E1]. rewrite E1. cbn [coll_event c_old]. rewrite <- app_assoc. eexists. reflexivity.
Qed.
Example collect_demo : c_list (coll_run (fun n : nat => Copied n) 0 [Call; Learn 3; Clean; Call; Learn 5; Learn 6; Call]) = [Copied 3; Copied 6].
Proof. reflexivity. Qed.

(** * The plotted values *)
Lemma pd_run_app w tr d a b : pd_run w tr d (a ++ b) = pd_run w tr (pd_run w tr d a) b.
Proof. apply fold_left_app. Qed.
Lemma trim_lastn {A} w (b : list A) x : buf_update (Some w) true (lastn w b) x = lastn w (b ++ x).
Proof. unfold buf_update, trim. apply lastn_app. Qed.
(** A tracked window shows the last values in order: rewards, and each component of actions and observations. *)
Theorem plot_windows w na no ss : Forall (fun s => length (s_act s) = na /\ length (s_obs s) = no) ss ->
  let d := pd_run w (true, true, true) (pd_init na no) ss in
  d_instant d = lastn w (map s_rew ss) /\
  (forall i, i < na -> nth i (d_act d) [] = lastn w (map (fun s => nth i (s_act s) 0%R) ss)) /\
  (forall i, i < no -> nth i (d_obs d) [] = lastn w (map (fun s => nth i (s_obs s) 0%R) ss)).
Proof.
  assert (U : forall n bs v i, length bs = n -> length v = n -> i < n -> length (upd_all w true bs v) = n /\
              nth i (upd_all w true bs v) [] = buf_update (Some w) true (nth i bs []) [nth i v 0%R]).
  { intros n bs v i L1 L2 Hi. unfold upd_all. split; [rewrite map_length, combine_length; lia|].
    rewrite nth_map_default with (d' := ([], 0%R)) by (rewrite combine_length; lia). rewrite combine_nth by lia. reflexivity. }
  intros F. cbn zeta.
  assert (G : let d := pd_run w (true, true, true) (pd_init na no) ss in
    (length (d_act d) = na /\ length (d_obs d) = no) /\ d_instant d = lastn w (map s_rew ss) /\
    (forall i, i < na -> nth i (d_act d) [] = lastn w (map (fun s => nth i (s_act s) 0%R) ss)) /\
    (forall i, i < no -> nth i (d_obs d) [] = lastn w (map (fun s => nth i (s_obs s) 0%R) ss))); [|apply G].
  induction ss as [|s ss IH] using rev_ind.
  - cbn zeta. simpl. rewrite !repeat_length. split; [auto|]. split; [reflexivity|].
    split; intros i Hi; (rewrite nth_repeat || (rewrite (nth_indep _ [] []) by (rewrite repeat_length; auto))); unfold lastn; reflexivity.
  - apply Forall_app in F. destruct F as [F Fs]. apply Forall_inv in Fs. destruct Fs as [La Lo]. destruct (IH F) as ([A1 A2] & B & C & D). clear IH.
    cbn zeta. rewrite pd_run_app. set (d := pd_run w (true, true, true) _ ss) in *. cbn [pd_run fold_left pd_call d_act d_obs d_instant].
    rewrite !map_app. split; [split; unfold upd_all; rewrite map_length, combine_length; lia|].
    split; [rewrite B; apply trim_lastn|].
    split; intros i Hi; rewrite !map_app; [rewrite (proj2 (U _ _ _ i A1 La Hi)), C by auto|rewrite (proj2 (U _ _ _ i A2 Lo Hi)), D by auto]; apply trim_lastn.
Qed.
(** an episode: a last step after steps that are not last *)
Definition open_steps (ss : list psample) : Prop := Forall (fun s => s_last s = false) ss.
Definition episode (ss : list psample) : Prop := exists a s, ss = a ++ [s] /\ open_steps a /\ s_last s = true.
Definition total (ss : list psample) : R := rsum (map s_rew ss).
Lemma pd_open w tr ss : open_steps ss -> forall d, let d' := pd_run w tr d ss in
  d_rewards d' = d_rewards d /\ d_lens d' = d_lens d /\ d_rsum d' = (d_rsum d + total ss)%R /\ d_len d' = d_len d + length ss.
Proof.
  induction 1 as [|s ss E F IH]; intros d; cbn zeta; [simpl; unfold total; simpl; repeat split; try lra; lia|].
  destruct (IH (pd_call w tr d s)) as (A & B & C & D). destruct tr as [[t1 t2] t3]. cbn [pd_run fold_left] in *. unfold pd_run in *.
  rewrite A, B, C, D. cbn [pd_call d_rewards d_lens d_rsum d_len]. rewrite E. unfold total. cbn [map rsum length]. repeat split; try lra; lia.
Qed.
Lemma pd_episode w tr ep d : episode ep -> let d' := pd_run w tr d ep in
  d_rewards d' = d_rewards d ++ [d_rsum d + total ep]%R /\ d_lens d' = d_lens d ++ [d_len d + length ep] /\ d_rsum d' = 0%R /\ d_len d' = 0.
Proof.
  intros (a & s & -> & O & L). cbn zeta. rewrite pd_run_app. destruct (pd_open w tr a O d) as (A & B & C & D).
  set (d1 := pd_run w tr d a) in *. cbn [pd_run fold_left]. destruct tr as [[t1 t2] t3]. cbn [pd_call d_rewards d_lens d_rsum d_len]. rewrite L.
  unfold buf_update, trim. rewrite A, B, C, D. unfold total. rewrite map_app, rsum_app, app_length. cbn [map rsum length].
  repeat split; try (f_equal; f_equal; lra); f_equal; f_equal; lia.
Qed.
(** The episode plots: one return and one length per finished episode, in order, whatever is tracked in the other plots; steps of an unfinished episode are
    held back. *)
Theorem plot_episodes w tr na no eps tail : Forall episode eps -> open_steps tail ->
  let d := pd_run w tr (pd_init na no) (concat eps ++ tail) in
  d_rewards d = map total eps /\ d_lens d = map (@length psample) eps /\ d_rsum d = total tail /\ d_len d = length tail.
Proof.
  intros F O. cbn zeta. rewrite pd_run_app.
  assert (G : let d := pd_run w tr (pd_init na no) (concat eps) in d_rewards d = map total eps /\ d_lens d = map (@length psample) eps /\ d_rsum d = 0%R /\ d_len d = 0).
  { clear O. induction eps as [|ep eps IH] using rev_ind; [simpl; auto|]. apply Forall_app in F. destruct F as [F Fe]. inversion Fe; subst.
    destruct (IH F) as (A & B & C & D). cbn zeta. rewrite concat_app. cbn [concat]. rewrite app_nil_r, pd_run_app.
    destruct (pd_episode w tr ep (pd_run w tr (pd_init na no) (concat eps)) ltac:(auto)) as (A' & B' & C' & D'). rewrite A', B', A, B, C, D, !map_app.
    cbn [map]. repeat split; auto. f_equal. f_equal. lra. }
  destruct G as (A & B & C & D). destruct (pd_open w tr tail O (pd_run w tr (pd_init na no) (concat eps))) as (A' & B' & C' & D').
  rewrite A', B', C', D', A, B, C, D. repeat split; try lra; lia.
Qed.
(** When learning stops in the middle of an episode, the return and length of the first episode of the next run contain those of the abandoned one. *)
Theorem plot_cut_run w tr na no tail ep : open_steps tail -> episode ep ->
  let d := pd_run w tr (pd_run w tr (pd_init na no) tail) ep in d_rewards d = [total tail + total ep]%R /\ d_lens d = [length tail + length ep].
Proof.
  intros O E. cbn zeta. destruct (pd_open w tr tail O (pd_init na no)) as (A & B & C & D).
  destruct (pd_episode w tr ep (pd_run w tr (pd_init na no) tail) E) as (A' & B' & _). rewrite A', B', A, B, C, D. cbn [pd_init d_rewards d_lens d_rsum d_len app].
  split; [f_equal; lra|reflexivity].
Qed.
Lemma single_part {A} (x : A) a ep b : [x] = a ++ ep ++ b -> ep <> [] -> ep = [x].
Proof.
  intros E N. destruct a as [|y a].
  - destruct ep as [|z ep]; [congruence|]. simpl in E. injection E as <- E. symmetry in E. apply app_eq_nil in E. destruct E as [-> _]. reflexivity.
  - simpl in E. injection E as _ E. symmetry in E. apply app_eq_nil in E. destruct E as [_ E]. apply app_eq_nil in E. destruct E as [E _]. congruence.
Qed.
Definition ps (r : R) (l : bool) : psample := {| s_obs := []; s_act := []; s_rew := r; s_last := l |}.
Theorem plot_returns_refuted : ~ (forall w tr runs, Forall (fun run => exists eps tail, run = concat eps ++ tail /\ Forall episode eps /\ open_steps tail) runs ->
  forall x, In x (d_rewards (fold_left (pd_run w tr) runs (pd_init 0 0))) -> exists run ep a b, In run runs /\ run = a ++ ep ++ b /\ episode ep /\ x = total ep).
Proof.
  intros H. specialize (H 1 (true, true, true) [[ps 1 false]; [ps 2 true]]).
  assert (F : Forall (fun run => exists eps tail, run = concat eps ++ tail /\ Forall episode eps /\ open_steps tail) [[ps 1 false]; [ps 2 true]]).
  { constructor; [exists [], [ps 1 false]; repeat split; auto; constructor; [reflexivity|constructor]|]. constructor; [|constructor].
    exists [[ps 2 true]], []. repeat split; [constructor; [|constructor]; exists [], (ps 2 true); repeat split; constructor|constructor]. }
  destruct (H F (0 + 1 + 2)%R) as (run & ep & a & b & I1 & E & (a' & s & Ee & O & L) & T); [simpl; auto|].
  assert (K : (total ep = 1 \/ total ep = 2)%R).
  { assert (NE : ep <> []) by (rewrite Ee; destruct a'; discriminate).
    destruct I1 as [<-|[<-|[]]]; apply single_part in E; auto; rewrite E; unfold total; simpl; lra. }
  lra.
Qed.
Example plot_demo : let d := pd_run 2 (true, false, true) (pd_init 1 1)
    (map (fun k => {| s_obs := [INR k]; s_act := [INR k]; s_rew := INR k; s_last := Nat.eqb k 2 |}) [0; 1; 2; 3]) in
  d_obs d = [[INR 2; INR 3]] /\ d_act d = [[]] /\ d_lens d = [3] /\ d_len d = 1.
Proof. repeat split. Qed.

(** * The window *)
Definition consistent (p : plot) : Prop := p_curves p <> [] -> p_refresh p = p_green p /\ p_track p = (p_green p || p_keep p)%bool.
Lemma map_at_Forall {A} (P : A -> Prop) i f l : (forall x, P x -> P (f x)) -> Forall P l -> Forall P (map_at i f l).
Proof.
  intros H F. unfold map_at. apply Forall_map. rewrite Forall_forall in *. intros [k x] I1. apply in_combine_r in I1. cbn [fst snd].
  destruct (Nat.eqb k i); auto.
Qed.
Lemma activate_ok p : consistent p -> consistent (activate p).
Proof. unfold consistent, activate. destruct (p_green p) eqn:E; cbn [p_green p_curves p_track p_refresh p_keep]; [intros H N; rewrite E; apply H, N|]. intros H N. destruct (p_curves p); [congruence|auto]. Qed.
Lemma deactivate_ok p : consistent p -> consistent (deactivate p).
Proof.
  unfold consistent, deactivate. destruct (p_green p) eqn:E; cbn [p_green p_curves p_track p_refresh p_keep]; [|intros H N; rewrite E; apply H, N].
  intros H N. assert (N' : p_curves p <> []) by (intros Z; rewrite Z in N; apply N; reflexivity). destruct (H N') as [_ T]. split; auto.
  destruct (p_keep p); [rewrite T; reflexivity|reflexivity].
Qed.
Lemma set_curves_ok b p : consistent p -> consistent (set_curves b p).
Proof.
  unfold consistent, set_curves. cbn [p_green p_curves p_track p_refresh p_keep]. intros H N. apply H. intros Z. rewrite Z in N. apply N. reflexivity.
Qed.
Lemma flip_ok j p : consistent p -> consistent (flip_curve j p).
Proof. unfold consistent, flip_curve. cbn [p_green p_curves p_track p_refresh p_keep]. intros H N. apply H. intros Z. rewrite Z in N. apply N. reflexivity. Qed.
(** After any clicks: a plot is refreshed exactly when it is active, and its data are tracked exactly when it is active or was to be tracked anyway. *)
Theorem window_tracking flags curves w clicks : window_init flags curves = Some w -> Forall consistent (w_plots (fold_left clicked clicks w)).
Proof.
  intros E.
  assert (H0 : Forall consistent (w_plots w)).
  { unfold window_init in E. destruct flags as [fs|].
    - destruct (Nat.leb _ _); [|discriminate]. injection E as <-. cbn [w_plots]. apply Forall_map. apply Forall_forall. intros [k n] _.
      unfold consistent, plot_init. cbn. auto.
    - destruct curves; [|discriminate]. injection E as <-. constructor. }
  clear E. revert w H0. induction clicks as [|c cs IH]; intros w H0; [exact H0|]. cbn [fold_left]. apply IH.
  destruct c as [|i|i j]; cbn [clicked].
  - destruct (w_all w); cbn [w_plots]; apply Forall_map; eapply Forall_impl; try exact H0; intros p Hp; apply set_curves_ok; [apply deactivate_ok|apply activate_ok]; auto.
  - cbn [w_plots]. apply map_at_Forall; auto. intros p Hp. destruct (p_green p); [apply deactivate_ok|apply activate_ok]; auto.
  - cbn [w_plots]. apply map_at_Forall; auto. intros p Hp. apply flip_ok; auto.
Qed.
(** ALL switches every plot and curve on, and a second click everything off. *)
Theorem window_all w : let on := clicked w ClickAll in
  (w_all w = false -> Forall (fun p => p_green p = true /\ Forall (fun c => c = true) (p_curves p)) (w_plots on) /\
     Forall (fun p => p_green p = false /\ Forall (fun c => c = false) (p_curves p)) (w_plots (clicked on ClickAll))).
Proof.
  cbn zeta. intros E. cbn [clicked]. rewrite E. cbn [w_all w_plots].
  assert (G : forall (b : bool) (l : list bool), Forall (fun c => c = b) (map (fun _ : bool => b) l)) by (intros b l; induction l; simpl; constructor; auto).
  split.
  - apply Forall_map, Forall_forall. intros p _. unfold set_curves, activate. destruct (p_green p) eqn:P; cbn [p_green p_curves]; auto.
  - rewrite map_map. apply Forall_map, Forall_forall. intros p _.
    unfold set_curves, activate, deactivate. destruct (p_green p) eqn:P; cbn [p_green p_curves]; rewrite ?P; cbn [p_green p_curves]; auto.
Qed.
(** The default flag makes the constructor raise for every window with a plot. *)
Theorem window_default_refuted : forall c curves, window_init None (c :: curves) = None.
Proof. reflexivity. Qed.
Example window_demo : exists w, window_init (Some [true; false]) [1; 2] = Some w /\
  map (fun p => (p_green p, p_track p)) (w_plots (fold_left clicked [ClickPlot 1; ClickPlot 0; ClickPlot 0] w)) = [(false, true); (true, true)].
Proof. eexists. split; reflexivity. Qed.

(** * Colours *)
Lemma side_spec d n : let s := side d n in s * s * s * n <= d * d * d /\ (1 <= n -> n <= d * d * d -> 1 <= s).
Proof.
  unfold side. destruct (find _ _) as [s|] eqn:E.
  - assert (E' := E). apply find_some in E. destruct E as [I1 L]. apply Nat.leb_le in L. split; auto. intros Hn Hd.
    destruct (Nat.eq_dec s 0) as [->|]; [|lia]. exfalso.
    assert (D1 : 1 <= d) by (destruct d; simpl in *; lia).
    (* 1 comes before 0 in the search *)
    rewrite <- cons_seq in E'. cbn [rev] in E'. 
    assert (W : In 1 (rev (seq 1 d))) by (apply -> in_rev; apply in_seq; lia).
    assert (FW : exists t, find (fun s => Nat.leb (s * s * s * n) (d * d * d)) (rev (seq 1 d)) = Some t).
    { destruct (find _ (rev (seq 1 d))) as [t|] eqn:F; [eauto|]. exfalso. eapply find_none in F; [|exact W]. cbv beta in F. apply Nat.leb_gt in F. simpl in F. lia. }
    destruct FW as [t Ft]. assert (A : forall l l' t, find (fun s => Nat.leb (s * s * s * n) (d * d * d)) l = Some t -> find (fun s => Nat.leb (s * s * s * n) (d * d * d)) (l ++ l') = Some t).
    { clear. induction l as [|x l IH]; intros l' t H; [discriminate|]. simpl in *. destruct (Nat.leb _ _); auto. }
    change (seq 1 d) with (seq 1 d) in E'. rewrite (A _ _ _ Ft) in E'. injection E' as ->.
    apply find_some in Ft. destruct Ft as [I2 _]. apply in_rev in I2. apply in_seq in I2. lia.
  - split; [simpl; lia|]. intros Hn Hd. exfalso. apply find_none with (x := 0) in E; [|apply -> in_rev; apply in_seq; lia]. cbv beta in E. simpl in E. discriminate.
Qed.
(** Up to the number of RGB points there are always enough grid points to choose distinct colours from. *)
Theorem colors_enough d n : 1 <= n -> n <= d * d * d -> exists k, grid_points d n = Some k /\ n <= k * k * k.
Proof.
  intros H1 H2. destruct (side_spec d n) as [A B]. specialize (B H1 H2). unfold grid_points. set (s := side d n) in *.
  destruct (Nat.eqb s 0) eqn:E; [apply Nat.eqb_eq in E; lia|]. eexists. split; [reflexivity|].
  set (k := (d + s - 1) / s). assert (K : d <= s * k).
  { unfold k. assert (X := Nat.div_mod (d + s - 1) s ltac:(lia)). assert (Y := Nat.mod_upper_bound (d + s - 1) s ltac:(lia)). lia. }
  assert (Q : s * s * s * n <= s * s * s * (k * k * k)).
  { apply Nat.le_trans with (d * d * d); auto. replace (s * s * s * (k * k * k)) with ((s * k) * (s * k) * (s * k)) by lia.
    apply Nat.mul_le_mono; [apply Nat.mul_le_mono|]; auto. }
  apply Nat.mul_le_mono_pos_l in Q; auto. assert (0 < s * s) by (apply Nat.mul_pos_pos; lia). apply Nat.mul_pos_pos; lia.
Qed.
Example colors_demo : side 6 8 = 3 /\ grid_points 6 8 = Some 2 /\ grid_points 6 9 = Some 3 /\ grid_points 2 9 = None.
Proof. repeat split. Qed.
(** The curves of one plot are not told apart: each takes its colour from a sample of its own. *)
Theorem curve_colors_refuted : exists samples : nat -> list nat, (forall k, NoDup (samples k) /\ length (samples k) = 2) /\ ~ NoDup (curve_colors 0 samples 2).
Proof.
  exists (fun k => if Nat.eqb k 0 then [5; 6] else [6; 5]). split.
  - intros k. destruct (Nat.eqb k 0); (split; [|reflexivity]); repeat constructor; simpl; intuition discriminate.
  - intros H. inversion H as [|? ? N _]. apply N. simpl. auto.
Qed.

(** * Mean and confidence *)
Lemma mean_shift c l : l <> [] -> mean (map (fun x => x + c)%R l) = (mean l + c)%R.
Proof.
  intros N. unfold mean. rewrite map_length, rsum_map_plus, rsum_map_const, map_id. field. apply not_0_INR. destruct l; [congruence|discriminate].
Qed.
Lemma mean_scale c l : mean (map (fun x => c * x)%R l) = (c * mean l)%R.
Proof. unfold mean. rewrite map_length, (rsum_map_scal R (fun x => x)), map_id. unfold Rdiv. ring. Qed.
(** The half width: shifting the data keeps it, scaling scales it, the order of the runs does not matter. *)
Theorem confidence_equivariant q c l l' : 2 <= length l -> Permutation l l' -> (forall n, 0 <= q n)%R ->
  mean_conf q (map (fun x => x + c)%R l) = (fst (mean_conf q l) + c, snd (mean_conf q l))%R /\
  mean_conf q (map (fun x => c * x)%R l) = (c * fst (mean_conf q l), option_map (fun s => Rabs c * s) (snd (mean_conf q l)))%R /\
  mean_conf q l' = mean_conf q l.
Proof.
  intros L P Q. assert (N : l <> []) by (destruct l; [simpl in L; lia|discriminate]).
  assert (Lb : Nat.leb 2 (length l) = true) by (apply Nat.leb_le; auto).
  unfold mean_conf, sem. rewrite !map_length. cbn [fst snd]. rewrite Lb. cbn [option_map]. split; [|split].
  - rewrite mean_shift by auto. f_equal. f_equal. f_equal. f_equal. f_equal. f_equal. rewrite map_map. apply rsum_map_ext. intros x _. ring.
  - rewrite mean_scale. f_equal. f_equal. rewrite map_map.
    rewrite (rsum_map_ext _ _ (fun x => c ^ 2 * (x - mean l) ^ 2)%R) by (intros; ring). rewrite rsum_map_scal.
    assert (N1 : INR (length l - 1) <> 0%R) by (apply not_0_INR; lia). assert (N2 : INR (length l) <> 0%R) by (apply not_0_INR; lia).
    replace (c ^ 2 * rsum (map (fun x => (x - mean l) ^ 2)%R l) / INR (length l - 1) / INR (length l))%R
      with (c ^ 2 * (rsum (map (fun x => (x - mean l) ^ 2)%R l) / INR (length l - 1) / INR (length l)))%R by (field; auto).
    rewrite sqrt_mult_alt by nra. replace (c ^ 2)%R with (Rsqr c) by (unfold Rsqr; ring). rewrite sqrt_Rsqr_abs. ring.
  - assert (L2 : length l' = length l) by (apply Permutation_length, Permutation_sym; auto). rewrite L2, Lb.
    assert (M : mean l' = mean l) by (unfold mean; rewrite L2, (rsum_perm _ _ P); reflexivity). rewrite M. f_equal. cbn [option_map]. f_equal. f_equal. f_equal. f_equal. f_equal.
    apply rsum_perm. apply Permutation_map, Permutation_sym; auto.
Qed.
(** It is zero exactly when all the runs agree; with a single run there is no interval. *)
Theorem confidence_zero q l : (forall n, 0 < q n)%R ->
  (2 <= length l -> exists h, snd (mean_conf q l) = Some h /\ (0 <= h)%R /\ (h = 0%R <-> forall x y, In x l -> In y l -> x = y)) /\
  (length l < 2 -> snd (mean_conf q l) = None).
Proof.
  intros Q. unfold mean_conf, sem. cbn [snd]. split; intros L.
  2:{ replace (Nat.leb 2 (length l)) with false by (symmetry; apply Nat.leb_gt; auto). reflexivity. }
  replace (Nat.leb 2 (length l)) with true by (symmetry; apply Nat.leb_le; auto). cbn [option_map]. eexists. split; [reflexivity|].
  set (v := rsum (map (fun x => (x - mean l) ^ 2)%R l)). assert (V : (0 <= v)%R).
  { apply rsum_nonneg. intros x I1. apply in_map_iff in I1. destruct I1 as (y & <- & _). apply pow2_ge_0. }
  assert (P1 : (0 < INR (length l - 1))%R) by (apply lt_0_INR; lia). assert (P2 : (0 < INR (length l))%R) by (apply lt_0_INR; lia).
  specialize (Q (length l - 1)). split; [apply Rmult_le_pos; [lra|apply sqrt_pos]|]. 
  assert (D : (0 <= v / INR (length l - 1) / INR (length l))%R).
  { unfold Rdiv. repeat apply Rmult_le_pos; auto; left; apply Rinv_0_lt_compat; auto. }
  split.
  - intros Z. apply Rmult_integral in Z. destruct Z as [Z|Z]; [lra|]. apply sqrt_eq_0 in Z; auto.
    assert (v = 0)%R.
    { replace v with (v / INR (length l - 1) / INR (length l) * INR (length l) * INR (length l - 1))%R by (field; lra). rewrite Z. ring. }
    assert (E : forall x, In x l -> x = mean l).
    { intros x I1. assert (B := rsum_in_le (map (fun x => (x - mean l) ^ 2)%R l) ((x - mean l) ^ 2)%R).
      assert ((x - mean l) ^ 2 <= v)%R. { apply B; [|apply in_map_iff; eauto]. intros y I2. apply in_map_iff in I2. destruct I2 as (z & <- & _). apply pow2_ge_0. }
      nra. }
    intros x y Ix Iy. rewrite (E x Ix), (E y Iy). reflexivity.
  - intros E. assert (Z : v = 0%R).
    { assert (M : forall x, In x l -> x = mean l).
      { intros x Ix. unfold mean. assert (S : rsum l = (INR (length l) * x)%R).
        { rewrite <- (map_id l) at 1. rewrite (rsum_map_ext _ (fun z => z) (fun _ => x)) by (intros; auto). apply rsum_map_const. }
        rewrite S. field. lra. }
      unfold v. rewrite (rsum_map_ext _ _ (fun _ => 0%R)) by (intros x Ix; rewrite <- (M x Ix); ring). rewrite rsum_map_const. ring. }
    rewrite Z. replace (0 / INR (length l - 1) / INR (length l))%R with 0%R by (field; lra). rewrite sqrt_0. ring.
Qed.
Example confidence_demo : mean_conf (fun _ => 2%R) [1; 3]%R = (2, Some (2 * sqrt (2 / 1 / 2)))%R.
Proof. unfold mean_conf, sem, mean. simpl. f_equal; [lra|]. f_equal. f_equal. f_equal. field. Qed.

(** * Recordings *)
Lemma rec_frames {F} (fs : list F) : forall r, fs <> [] -> fold_left rec_frame fs r =
  mkRec (r_files r) (r_counter r) (Some (match r_writer r with None => fs | Some w => w ++ fs end)).
Proof.
  induction fs as [|f fs IH] using rev_ind; intros r N; [congruence|]. rewrite fold_left_app. cbn [fold_left].
  destruct fs as [|g fs]; [simpl; unfold rec_frame; destruct (r_writer r); reflexivity|]. rewrite IH by discriminate. unfold rec_frame. cbn [r_files r_counter r_writer].
  destruct (r_writer r) as [w|]; [rewrite app_assoc|]; reflexivity.
Qed.
Fixpoint record_runs {F} (r : recorder F) (runs : list (list F)) : option (recorder F) :=
  match runs with [] => Some r | fs :: rest => obind (record_run r fs) (fun r' => record_runs r' rest) end.
(** Every recorded run gives one file of its own, with all its frames in order. *)
Theorem recordings {F} (runs : list (list F)) : Forall (fun fs => fs <> []) runs ->
  exists r, record_runs rec_init runs = Some r /\ r_files r = combine (seq 0 (length runs)) runs /\ r_writer r = None.
Proof.
  intros H.
  assert (G : forall (runs : list (list F)) (r : recorder F), Forall (fun fs => fs <> []) runs -> r_writer r = None ->
    exists r', record_runs r runs = Some r' /\ r_files r' = r_files r ++ combine (seq (r_counter r) (length runs)) runs /\ r_writer r' = None).
  { clear. induction runs as [|fs runs IH]; intros r H W; [exists r; rewrite app_nil_r; auto|]. inversion H as [|? ? N H']; subst.
    cbn [record_runs]. unfold record_run, rec_stop. rewrite rec_frames by auto. rewrite W. cbn [r_writer r_files r_counter obind].
    destruct (IH (mkRec (r_files r ++ [(r_counter r, fs)]) (S (r_counter r)) None) H' eq_refl) as (r' & A & B & C). exists r'. split; auto. split; auto.
    rewrite B. cbn [r_files r_counter length seq combine]. rewrite <- app_assoc. reflexivity. }
  destruct (G runs rec_init H eq_refl) as (r & A & B & C). exists r. auto.
Qed.
(** A recorded run without a step raises. *)
Theorem recording_empty_refuted : @record_run nat rec_init [] = None.
Proof. reflexivity. Qed.
Example recordings_demo : option_map r_files (record_runs rec_init [[1; 2]; [3]]) = Some [(0, [1; 2]); (1, [3])].
Proof. reflexivity. Qed.

(** * Viewer *)
Definition dist2 (p q : R * R) : R := ((fst p - fst q) ^ 2 + (snd p - snd q) ^ 2)%R.
(** Drawn polygons keep their size: distances between corners, and from the centre, are those of the given points. *)
Theorem polygon_rigid center angle p q : forall cp cq, corners center angle [p; q] = [cp; cq] ->
  dist2 cp cq = dist2 p q /\ dist2 cp center = dist2 p (0, 0)%R.
Proof.
  intros cp cq E. unfold corners, rotate in E. cbn [map fst snd] in E. injection E as <- <-. unfold dist2. cbn [fst snd].
  assert (T := sin2_cos2 angle). unfold Rsqr in T. set (s := sin angle) in *. set (c := cos angle) in *. destruct p as [x y], q as [u v]. cbn [fst snd].
  assert (C : (c * c = 1 - s * s)%R) by lra. split; ring_simplify; replace (c ^ 2)%R with (1 - s * s)%R by (rewrite <- C; ring); ring.
Qed.
Lemma to_int_range x b : (0 <= x <= IZR b)%R -> (0 <= to_int x <= b)%Z.
Proof.
  intros [A B]. unfold to_int. destruct (Rle_dec 0 x); [|lra]. destruct (base_Int_part x) as [C D]. split.
  - apply Z.lt_succ_r. apply lt_IZR. rewrite succ_IZR. lra.
  - apply le_IZR. lra.
Qed.
Lemma unit_scale a w : (0 <= a <= 1 -> 0 <= w -> 0 <= a * w <= w)%R.
Proof. intros [A B] W. split; [apply Rmult_le_pos; auto|]. rewrite <- (Rmult_1_l w) at 2. apply Rmult_le_compat_r; auto. Qed.
(** Points of the environment land on the screen, the origin at its lower left corner. *)
Theorem viewer_on_screen ew eh w h x y : (0 < ew -> 0 < eh -> 0 <= x <= ew -> 0 <= y <= eh -> (0 <= IZR w) -> (0 <= IZR h) ->
  let p := transform (IZR w / ew, IZR h / eh) (IZR h) (x, y) in (0 <= fst p <= w)%Z /\ (0 <= snd p <= h)%Z)%R /\
  transform (IZR w / ew, IZR h / eh)%R (IZR h) (0, 0)%R = (0%Z, to_int (IZR h)).
Proof.
  split.
  - intros H H0 H1 H2 H3 H4. cbv zeta. unfold transform. cbn [fst snd]. split; apply to_int_range.
    + replace (x * (IZR w / ew))%R with (x / ew * IZR w)%R by (field; lra).
      assert (0 <= x / ew <= 1)%R. { split; [apply Rmult_le_pos; [lra|left; apply Rinv_0_lt_compat; auto]|apply (Rmult_le_reg_r ew); auto; field_simplify; lra]. }
      apply unit_scale; auto.
    + replace (y * (IZR h / eh))%R with (y / eh * IZR h)%R by (field; lra).
      assert (0 <= y / eh <= 1)%R. { split; [apply Rmult_le_pos; [lra|left; apply Rinv_0_lt_compat; auto]|apply (Rmult_le_reg_r eh); auto; field_simplify; lra]. }
      assert (X := unit_scale _ _ H5 H4). lra.
  - unfold transform. cbn [fst snd]. rewrite !Rmult_0_l, Rminus_0_r. f_equal.
    assert (X := to_int_range 0 0 ltac:(lra)). lia.
Qed.
(** Drawing a torque moves the point given by the caller. *)
Theorem torque_center_refuted : exists c t, torque_center c t 1 1 1 <> c.
Proof.
  exists (0, 0)%R, 1%R. unfold torque_center. cbn [fst snd]. replace (Rabs 1 / 1 * 1 * 1)%R with 1%R by (rewrite Rabs_R1; field).
  assert (E : to_int 1 = 1%Z). { unfold to_int. destruct (Rle_dec 0 1); [|lra]. unfold Int_part. replace (up 1) with 2%Z; [reflexivity|]. apply tech_up; simpl; lra. }
  rewrite E. cbn [Z.eqb]. destruct (Rlt_dec 0 1); [|lra]. intros H. injection H as H. rewrite Rabs_R1 in H. lra.
Qed.

(** * Console logger *)
Definition empty_registry : registry := fun _ => mkNamed 0 [].
(** A logger whose name nobody else uses writes a message once to the console and once to its file, by level. *)
Theorem logger_writes r id file lc lf level : n_handlers (r id) = [] ->
  emitted (logger_new r id file lc lf) id level =
  (if Nat.leb lc level then [None] else []) ++ match file with Some f => if Nat.leb lf level then [Some f] else [] | None => [] end.
Proof.
  intros E. unfold emitted, logger_new, regset. rewrite Nat.eqb_refl. cbn [n_level n_handlers]. rewrite E. cbn [app].
  destruct (Nat.leb (Nat.min lc lf) level) eqn:M.
  - destruct file; simpl; destruct (Nat.leb lc level); simpl; try destruct (Nat.leb lf level); reflexivity.
  - apply Nat.leb_gt in M. replace (Nat.leb lc level) with false by (symmetry; apply Nat.leb_gt; lia).
    destruct file; [|reflexivity]. replace (Nat.leb lf level) with false by (symmetry; apply Nat.leb_gt; lia). reflexivity.
Qed.
(** Loggers of other names do not interfere. *)
Theorem logger_independent r id id' file lc lf level : id <> id' ->
  emitted (logger_new r id file lc lf) id' level = emitted r id' level /\ emitted (logger_del r id) id' level = emitted r id' level.
Proof. intros N. unfold emitted, logger_new, logger_del, regset. replace (Nat.eqb id' id) with false by (symmetry; apply Nat.eqb_neq; auto). auto. Qed.
(** Two loggers of the same name: messages appear twice while both exist, and the second one is silent when the first is deleted, as in
    logger = Logger(name) executed twice. *)
Theorem logger_same_name_refuted r id lc level : n_handlers (r id) = [] -> lc <= level ->
  emitted (logger_new (logger_new r id None lc lc) id None lc lc) id level = [None; None] /\
  emitted (logger_del (logger_new (logger_new r id None lc lc) id None lc lc) id) id level = [].
Proof.
  intros E L. unfold emitted, logger_del, logger_new, regset. rewrite !Nat.eqb_refl. cbn [n_level n_handlers]. rewrite E. cbn [app].
  rewrite Nat.min_id. replace (Nat.leb lc level) with true by (symmetry; apply Nat.leb_le; auto). simpl.
  replace (Nat.leb lc level) with true by (symmetry; apply Nat.leb_le; auto). auto.
Qed.
Example logger_demo : emitted (logger_new empty_registry 4 (Some 9) 20 10) 4 10 = [Some 9] /\ emitted (logger_new empty_registry 4 (Some 9) 20 10) 4 30 = [None; Some 9].
Proof. split; reflexivity. Qed.

Print Assumptions collected_history.
Print Assumptions collect_q_history.
Print Assumptions collect_q_ensemble_mean.
Print Assumptions collect_max_q_value.
Print Assumptions cleaned_lists_kept.
Print Assumptions plot_windows.
Print Assumptions plot_episodes.
Print Assumptions plot_cut_run.
Print Assumptions plot_returns_refuted.
Print Assumptions window_tracking.
Print Assumptions window_all.
Print Assumptions window_default_refuted.
Print Assumptions colors_enough.
Print Assumptions curve_colors_refuted.
Print Assumptions confidence_equivariant.
Print Assumptions confidence_zero.
Print Assumptions recordings.
Print Assumptions recording_empty_refuted.
Print Assumptions polygon_rigid.
Print Assumptions viewer_on_screen.
Print Assumptions torque_center_refuted.
Print Assumptions logger_writes.
Print Assumptions logger_independent.
Print Assumptions logger_same_name_refuted.

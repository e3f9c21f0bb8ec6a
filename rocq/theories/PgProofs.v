(** Lemmas for C40. *)
From Coq Require Import List Arith Lia Reals Bool Lra FunctionalExtensionality.
From Verif Require Import Common EpisodeSpec PgModel PgSpec UtilProofs.
Import ListNotations.
Local Open Scope R_scope.

Lemma return_cons : forall g x e, return_ g (x :: e) = rew x + g * return_ g e.
Proof.
  intros g x e. unfold return_. cbn [length]. rewrite <- cons_seq, <- seq_shift, map_cons, map_map. cbn [rsum].
  rewrite <- rsum_map_scal. f_equal; [simpl; ring|]. apply rsum_map_ext. intros t _. cbn [map nth pow]. ring.
Qed.
Lemma discounted_score_cons : forall g x e i, discounted_score g (x :: e) i = score x i + g * discounted_score g e i.
Proof.
  intros g x e i. unfold discounted_score. cbn [length]. rewrite <- cons_seq, <- seq_shift, map_cons, map_map. cbn [rsum].
  rewrite <- rsum_map_scal. f_equal; [simpl; ring|]. apply rsum_map_ext. intros t _. cbn [map nth pow]. ring.
Qed.

Section Generic.
Context {S G : Type} (gamma : R) (al : algo S G).

Fixpoint steps (df : R) (e : list sample) (s : S) : S :=
  match e with [] => s | x :: e' => steps (df * gamma) e' (a_step al df x s) end.

Lemma run_open : forall b J df Je s, Forall (fun x => lst x = false) b ->
  fold_left (pg_body gamma al) b (J, df, Je, s) = (J, df * gamma ^ length b, Je + df * return_ gamma b, steps df b s).
Proof.
  induction b as [|x b IH]; intros J df Je s F.
  - unfold return_. simpl. f_equal. f_equal; [f_equal|]; ring.
  - inversion F as [|? ? E F']; subst. cbn [fold_left steps length]. unfold pg_body at 2. rewrite E, IH by auto. rewrite return_cons.
    f_equal. f_equal; [f_equal|]; simpl; ring.
Qed.

Lemma steps_app : forall a b df s, steps df (a ++ b) s = steps (df * gamma ^ length a) b (steps df a s).
Proof.
  induction a as [|x a IH]; intros b df s; cbn [app steps length].
  - f_equal. simpl. ring.
  - rewrite IH. f_equal. simpl. ring.
Qed.

Lemma return_snoc : forall b x, return_ gamma (b ++ [x]) = return_ gamma b + gamma ^ length b * rew x.
Proof. induction b as [|y b IH]; intros x; [unfold return_; simpl; ring|]. cbn [app length]. rewrite !return_cons, IH. simpl. ring. Qed.

Lemma run_episode : forall e J s, is_episode lst e ->
  fold_left (pg_body gamma al) e (J, 1, 0, s) = (J ++ [return_ gamma e], 1, 0, a_init al (a_end al (return_ gamma e) (steps 1 e s))).
Proof.
  intros e J s (b & x & -> & L & F). rewrite fold_left_app, run_open by auto. cbn [fold_left]. unfold pg_body. rewrite L.
  rewrite return_snoc, steps_app. cbn [steps].
  replace (0 + 1 * return_ gamma b + 1 * gamma ^ length b * rew x) with (return_ gamma b + gamma ^ length b * rew x) by ring. reflexivity.
Qed.

Definition after_episode (s : S) (e : list sample) : S := a_init al (a_end al (return_ gamma e) (steps 1 e s)).

Lemma run_episodes : forall eps J s, Forall (is_episode lst) eps ->
  fold_left (pg_body gamma al) (concat eps) (J, 1, 0, s) = (J ++ map (return_ gamma) eps, 1, 0, fold_left after_episode eps s).
Proof.
  induction eps as [|e eps IH]; intros J s F; cbn [concat map fold_left].
  - rewrite app_nil_r. reflexivity.
  - inversion F; subst. rewrite fold_left_app, run_episode by auto. rewrite IH by auto. rewrite <- app_assoc. reflexivity.
Qed.

(** The whole fit in terms of the episodes of the dataset. *)
Lemma fit_episodes : forall s ds,
  pg_fit gamma al s ds =
    let s' := steps 1 (unfinished lst ds) (fold_left after_episode (complete lst ds) (a_init al s)) in
    if (1 <? length (complete lst ds))%nat then a_grad al (map (return_ gamma) (complete lst ds)) s' else (s', None).
Proof.
  intros s ds. unfold pg_fit. rewrite <- (split_concat lst ds) at 1. rewrite fold_left_app, run_episodes by apply split_complete.
  rewrite run_open by apply split_unfinished. cbn [app]. rewrite map_length. reflexivity.
Qed.
End Generic.

Lemma quotient_means : forall a b n, (0 < n)%nat -> ratio (a / INR n) (b / INR n) = quotient a b.
Proof.
  intros a b n Hn. assert (0 < INR n) by (apply lt_0_INR; auto). unfold ratio, quotient.
  destruct (Req_EM_T b 0) as [->|N].
  - destruct (Req_EM_T (0 / INR n) 0) as [|C]; auto. exfalso. apply C. field. lra.
  - destruct (Req_EM_T (b / INR n) 0) as [C|]; [exfalso; apply N|field; split; lra].
    replace b with (b / INR n * INR n) by (field; lra). rewrite C. ring.
Qed.

(** ** REINFORCE *)
Lemma rf_steps : forall g e df s, steps g reinforce df e s =
  {| rf_sum := fun i => rf_sum s i + score_of e i; rf_list := rf_list s; rf_num := rf_num s; rf_den := rf_den s |}.
Proof.
  intros g. induction e as [|x e IH]; intros df s; cbn [steps].
  - destruct s as [a b c d]. cbn [rf_sum rf_list rf_num rf_den]. f_equal. extensionality i. unfold score_of. simpl. ring.
  - rewrite IH. cbn [a_step reinforce rf_step rf_sum rf_list rf_num rf_den]. f_equal. extensionality i. unfold vadd, score_of. simpl. ring.
Qed.

Lemma rf_episodes : forall g eps s, rf_sum s = vzero ->
  fold_left (after_episode g reinforce) eps s =
  {| rf_sum := vzero; rf_list := rf_list s ++ map score_of eps;
     rf_num := rf_num s ++ map (fun e => vscale (return_ g e) (vsquare (score_of e))) eps;
     rf_den := rf_den s ++ map (fun e => vsquare (score_of e)) eps |}.
Proof.
  intros g. induction eps as [|e eps IH]; intros s H; cbn [fold_left map].
  - rewrite !app_nil_r. destruct s. cbn in *. subst. reflexivity.
  - assert (E : after_episode g reinforce s e = {| rf_sum := vzero; rf_list := rf_list s ++ [score_of e];
      rf_num := rf_num s ++ [vscale (return_ g e) (vsquare (score_of e))]; rf_den := rf_den s ++ [vsquare (score_of e)] |}).
    { unfold after_episode. rewrite rf_steps, H. cbn [a_init a_end reinforce rf_init rf_end rf_sum rf_list rf_num rf_den].
      replace (fun i => vzero i + score_of e i) with (score_of e); [reflexivity|]. extensionality i. unfold vzero. ring. }
    rewrite IH by (rewrite E; reflexivity). rewrite E. cbn [rf_list rf_num rf_den]. rewrite <- !app_assoc. reflexivity.
Qed.

(** The loop of [_compute_gradient] over a list whose scores start at position [i]. *)
Lemma rf_loop_spec : forall g ls bl eps pre, ls = map score_of (pre ++ eps) ->
  rf_loop ls bl (length pre) (map (return_ g) eps) = Some (map (fun e c => score_of e c * (return_ g e - bl c)) eps).
Proof.
  intros g ls bl. induction eps as [|e eps IH]; intros pre H; cbn [map rf_loop]; auto.
  rewrite H at 1. rewrite map_app, nth_error_app2 by (rewrite map_length; lia). rewrite map_length, Nat.sub_diag. cbn [map nth_error obind].
  specialize (IH (pre ++ [e])). rewrite app_length in IH. cbn [length] in IH. rewrite Nat.add_1_r in IH. change (Nat.succ (length pre)) with (Datatypes.S (length pre)). rewrite IH; auto.
  rewrite H, <- app_assoc. reflexivity.
Qed.

Definition rf_clean (s : rf) : Prop := rf_list s = [] /\ rf_num s = [] /\ rf_den s = [].

Lemma rf_fit : forall g s ds, rf_clean s -> (1 < length (complete lst ds))%nat ->
  exists s' gr, pg_fit g reinforce s ds = (s', Some gr) /\ rf_clean s' /\ forall i, gr i = reinforce_gradient g (complete lst ds) i.
Proof.
  intros g s ds (C1 & C2 & C3) L. rewrite fit_episodes. cbv zeta. rewrite (proj2 (Nat.ltb_lt _ _) L). set (eps := complete lst ds) in *.
  rewrite rf_steps, rf_episodes by reflexivity. cbn [a_init reinforce rf_init rf_list rf_num rf_den a_grad]. rewrite C1, C2, C3. cbn [app].
  unfold rf_grad. cbn [rf_list rf_num rf_den rf_sum].
  set (baseline := fun i => ratio _ _).
  rewrite (rf_loop_spec g _ _ eps [] eq_refl). eexists _, _. split; [reflexivity|]. split; [repeat split|]. intros i.
  unfold vmean, reinforce_gradient. rewrite map_length. f_equal. rewrite map_map. apply rsum_map_ext. intros e _. f_equal. f_equal.
  unfold baseline, reinforce_baseline, vmean. rewrite !map_length, !map_map. rewrite quotient_means by lia.
  f_equal; apply rsum_map_ext; intros e' _; unfold vscale, vsquare; ring.
Qed.

(** ** eNAC *)
Lemma en_steps : forall g e df s, e <> [] -> steps g enac df e s =
  {| en_sum := fun i => en_sum s i + df * discounted_score g e i;
     en_ext := match en_ext s with None => Some (phi_c (hd {| score := vzero; rew := 0; phi_c := []; lst := false |} e)) | x => x end; en_list := en_list s |}.
Proof.
  intros g. induction e as [|x e IH]; intros df s NE; [congruence|]. cbn [steps]. destruct e as [|y e].
  - cbn [steps a_step enac en_step hd]. unfold en_step. f_equal. extensionality i. rewrite discounted_score_cons. unfold vadd, vscale, discounted_score. simpl. ring.
  - rewrite IH by discriminate. cbn [a_step enac en_step en_sum en_ext en_list hd]. f_equal.
    + extensionality i. rewrite (discounted_score_cons g x). unfold vadd, vscale. ring.
    + destruct (en_ext s); reflexivity.
Qed.

Lemma en_episodes : forall g eps s, en_sum s = vzero -> en_ext s = None -> Forall (fun e => e <> []) eps ->
  fold_left (after_episode g enac) eps s =
  {| en_sum := vzero; en_ext := None;
     en_list := en_list s ++ map (fun e => (discounted_score g e : vec, phi_c (hd {| score := vzero; rew := 0; phi_c := []; lst := false |} e))) eps |}.
Proof.
  intros g. induction eps as [|e eps IH]; intros s H H' F; cbn [fold_left map].
  - rewrite app_nil_r. destruct s. cbn in *. subst. reflexivity.
  - inversion F; subst.
    assert (E : after_episode g enac s e = {| en_sum := vzero; en_ext := None;
      en_list := en_list s ++ [(discounted_score g e : vec, phi_c (hd {| score := vzero; rew := 0; phi_c := []; lst := false |} e))] |}).
    { unfold after_episode. rewrite en_steps, H, H' by auto. cbn [a_init a_end enac en_init en_end en_sum en_list en_ext].
      unfold en_init, en_end. cbn [en_sum en_list en_ext].
      replace (fun i => vzero i + 1 * discounted_score g e i) with (discounted_score g e) by (extensionality i; unfold vzero; ring). reflexivity. }
    rewrite IH by (try (rewrite E; reflexivity); auto). rewrite E. cbn [en_list]. rewrite <- app_assoc. reflexivity.
Qed.

(** ** GPOMDP *)
Definition num_entry (g : R) (t : nat) (e : list sample) : vec := vscale (reward_at g e t) (vsquare (score_upto e t)).
Definition den_entry (t : nat) (e : list sample) : vec := vsquare (score_upto e t).
Definition maxlen (l : list (list sample)) : nat := fold_right (fun e m => Nat.max (length e) m) 0%nat l.
Lemma maxlen_app : forall a b, maxlen (a ++ b) = Nat.max (maxlen a) (maxlen b).
Proof. induction a as [|x a IH]; intros b; simpl; auto. fold (maxlen (a ++ b)). fold (maxlen a). rewrite IH. lia. Qed.
Lemma maxlen_in : forall l e, In e l -> (length e <= maxlen l)%nat.
Proof. induction l as [|x l IH]; intros e H; simpl in *; [tauto|]. fold (maxlen l). destruct H as [->|H]; [lia|]. specialize (IH e H). lia. Qed.

(** The table of baseline terms for the trajectories seen. *)
Definition table {A} (tb : list (list A)) (entry : nat -> list sample -> A) (trajs : list (list sample)) : Prop :=
  length tb = maxlen trajs /\ forall t, nth t tb [] = map (entry t) (filter (fun e => t <? length e)%nat trajs).

Lemma table_step : forall A (tb : list (list A)) entry trajs b x v,
  table tb entry (trajs ++ [b]) -> (forall t, (t < length b)%nat -> entry t (b ++ [x]) = entry t b) -> v = entry (length b) (b ++ [x]) ->
  table (append_at (if (length tb <=? length b)%nat then tb ++ [[]] else tb) (length b) v) entry (trajs ++ [b ++ [x]]).
Proof.
  intros A tb entry trajs b x v (L & T) HE ->. rewrite maxlen_app in L. cbn [maxlen fold_right] in L.
  assert (NT : forall t, nth t (if (length tb <=? length b)%nat then tb ++ [[]] else tb) [] = nth t tb []).
  { intros t. destruct (length tb <=? length b)%nat; auto. destruct (Nat.lt_ge_cases t (length tb)).
    - rewrite app_nth1; auto.
    - rewrite app_nth2, (nth_overflow tb) by lia. destruct (t - length tb)%nat as [|[|]]; reflexivity. }
  set (tb' := if (length tb <=? length b)%nat then tb ++ [[]] else tb) in *.
  assert (L' : length tb' = Nat.max (maxlen trajs) (length b + 1)).
  { unfold tb'. destruct (Nat.leb_spec (length tb) (length b)); [rewrite app_length; cbn [length]|]; lia. }
  unfold append_at. split.
  - rewrite setnth_length, L', maxlen_app. cbn [maxlen fold_right]. rewrite app_length. cbn [length]. lia.
  - intros t. rewrite filter_app, map_app. cbn [filter]. rewrite app_length. cbn [length].
    pose proof (T t) as Tt. rewrite filter_app, map_app in Tt. cbn [filter] in Tt.
    destruct (Nat.eq_dec t (length b)) as [->|N].
    + rewrite nth_setnth_eq by lia. rewrite NT, Tt. rewrite Nat.ltb_irrefl. rewrite (proj2 (Nat.ltb_lt (length b) (length b + 1))) by lia.
      cbn [map]. rewrite app_nil_r. reflexivity.
    + rewrite nth_setnth_neq by auto. rewrite NT, Tt. f_equal.
      destruct (Nat.ltb_spec t (length b)); destruct (Nat.ltb_spec t (length b + 1)); try lia; auto. cbn [map]. rewrite HE; auto.
Qed.

Lemma score_upto_snoc : forall b x t, (t < length b)%nat -> score_upto (b ++ [x]) t = score_upto b t.
Proof. intros. unfold score_upto. rewrite firstn_app. replace (Datatypes.S t - length b)%nat with 0%nat by lia. cbn [firstn]. rewrite app_nil_r. reflexivity. Qed.
Lemma score_upto_last : forall b x, score_upto (b ++ [x]) (length b) = score_of (b ++ [x]).
Proof. intros. unfold score_upto. rewrite firstn_all2; auto. rewrite app_length. simpl. lia. Qed.
Lemma reward_at_snoc : forall g b x t, (t < length b)%nat -> reward_at g (b ++ [x]) t = reward_at g b t.
Proof. intros. unfold reward_at. rewrite map_app, app_nth1 by (rewrite map_length; auto). reflexivity. Qed.
Lemma reward_at_last : forall g b x, reward_at g (b ++ [x]) (length b) = g ^ length b * rew x.
Proof. intros. unfold reward_at. rewrite map_app, app_nth2 by (rewrite map_length; auto). rewrite map_length, Nat.sub_diag. reflexivity. Qed.

Definition gp_view (g : R) (s : gp) (trajs : list (list sample)) (b : list sample) : Prop :=
  gp_sum s = score_of b /\ gp_list s = map (score_upto b) (seq 0 (length b)) /\ gp_rew s = map (reward_at g b) (seq 0 (length b)) /\
  gp_count s = length b /\ table (gp_num s) (num_entry g) (trajs ++ [b]) /\ table (gp_den s) den_entry (trajs ++ [b]) /\
  gp_list_ep s = map (fun e => map (score_upto e) (seq 0 (length e))) trajs /\ gp_rew_ep s = map (fun e => map (reward_at g e) (seq 0 (length e))) trajs.

Lemma gp_view_step : forall g s trajs b x, gp_view g s trajs b -> gp_view g (gp_step (g ^ length b) x s) trajs (b ++ [x]).
Proof.
  intros g s trajs b x (A & B & C & D & N & M & E & F). unfold gp_step.
  assert (SUM : vadd (gp_sum s) (score x) = score_of (b ++ [x])).
  { rewrite A. extensionality i. unfold vadd, score_of. rewrite map_app, rsum_app. simpl. ring. }
  rewrite SUM, D. replace (length (gp_num s)) with (length (gp_den s)) at 2 by (destruct N as [-> _], M as [-> _]; reflexivity).
  unfold gp_view. cbn [gp_sum gp_list gp_rew gp_count gp_num gp_den gp_list_ep gp_rew_ep].
  split; [reflexivity|]. split; [|split; [|split; [rewrite app_length; reflexivity|split; [|split; [|split; auto]]]]].
  - rewrite B, app_length. cbn [length]. rewrite seq_app, map_app. cbn [seq map Nat.add]. rewrite score_upto_last. f_equal.
    apply map_ext_in. intros t Ht. apply in_seq in Ht. rewrite score_upto_snoc by lia. reflexivity.
  - rewrite C, app_length. cbn [length]. rewrite seq_app, map_app. cbn [seq map Nat.add]. rewrite reward_at_last. f_equal.
    apply map_ext_in. intros t Ht. apply in_seq in Ht. rewrite reward_at_snoc by lia. reflexivity.
  - apply table_step; auto.
    + intros t Ht. unfold num_entry. rewrite score_upto_snoc, reward_at_snoc by auto. reflexivity.
    + unfold num_entry. rewrite score_upto_last, reward_at_last. reflexivity.
  - apply table_step; auto.
    + intros t Ht. unfold den_entry. rewrite score_upto_snoc by auto. reflexivity.
    + unfold den_entry. rewrite score_upto_last. reflexivity.
Qed.

Lemma gp_view_steps : forall g s trajs e, gp_view g s trajs [] -> gp_view g (steps g gpomdp 1 e s) trajs e.
Proof.
  intros g s trajs e H. induction e as [|x e IH] using rev_ind; auto.
  rewrite steps_app. cbn [steps a_step gpomdp]. rewrite Rmult_1_l. apply gp_view_step. auto.
Qed.

Lemma table_nil : forall A (tb : list (list A)) entry trajs, table tb entry trajs -> table tb entry (trajs ++ [[]]).
Proof.
  intros A tb entry trajs (L & T). split.
  - rewrite maxlen_app, L. cbn. lia.
  - intros t. rewrite filter_app, T. cbn [filter length]. rewrite app_nil_r. reflexivity.
Qed.

Lemma gp_view_end : forall g s trajs e J, gp_view g s trajs e -> gp_view g (gp_init (gp_end J s)) (trajs ++ [e]) [].
Proof.
  intros g s trajs e J (A & B & C & D & N & M & E & F). unfold gp_view, gp_init, gp_end. cbn [gp_sum gp_list gp_rew gp_count gp_num gp_den gp_list_ep gp_rew_ep].
  split; [reflexivity|]. split; [reflexivity|]. split; [reflexivity|]. split; [reflexivity|].
  split; [apply table_nil; auto|]. split; [apply table_nil; auto|]. split; rewrite map_app; cbn [map]; [rewrite E, B|rewrite F, C]; reflexivity.
Qed.

Lemma gp_view_episodes : forall g eps s trajs, gp_view g s trajs [] ->
  gp_view g (fold_left (after_episode g gpomdp) eps s) (trajs ++ eps) [].
Proof.
  intros g. induction eps as [|e eps IH]; intros s trajs H; cbn [fold_left].
  - rewrite app_nil_r. auto.
  - replace (trajs ++ e :: eps) with ((trajs ++ [e]) ++ eps) by (rewrite <- app_assoc; reflexivity). apply IH.
    unfold after_episode. cbn [a_init a_end gpomdp]. apply gp_view_end, gp_view_steps. auto.
Qed.

Lemma nth_error_map_seq : forall A (f : nat -> A) n t, (t < n)%nat -> nth_error (map f (seq 0 n)) t = Some (f t).
Proof.
  intros A f n t H. rewrite (List.nth_error_nth' (map f (seq 0 n)) (f 0%nat)) by (rewrite map_length, seq_length; auto).
  rewrite (map_nth_in _ _ _ _ _ _ 0%nat) by (rewrite seq_length; auto). rewrite seq_nth by auto. reflexivity.
Qed.

Definition gp_episode_gradient (g : R) (trajs : list (list sample)) (e : list sample) : vec := fun i =>
  rsum (map (fun t => score_upto e t i * (reward_at g e t - gpomdp_baseline g trajs t i)) (seq 0 (length e))).

Lemma gp_episode_spec : forall g num den trajs e, table num (num_entry g) trajs -> table den den_entry trajs -> In e trajs ->
  gp_episode num den (map (score_upto e) (seq 0 (length e))) (map (reward_at g e) (seq 0 (length e))) = Some (gp_episode_gradient g trajs e).
Proof.
  intros g num den trajs e (LN & TN) (LD & TD) I. unfold gp_episode. rewrite map_length, seq_length. pose proof (maxlen_in _ _ I) as ML.
  unfold gp_episode_gradient. set (term := fun i t => score_upto e t i * (reward_at g e t - gpomdp_baseline g trajs t i)).
  change (fun i => rsum (map (fun t => score_upto e t i * (reward_at g e t - gpomdp_baseline g trajs t i)) (seq 0 (length e)))) with (fun i => rsum (map (term i) (seq 0 (length e)))).
  assert (X : forall k, (k <= length e)%nat -> fold_left (fun acc t =>
    g0 <- acc;; sg <- nth_error (map (score_upto e) (seq 0 (length e))) t;; sr <- nth_error (map (reward_at g e) (seq 0 (length e))) t;; bn <- nth_error num t;; bd <- nth_error den t;;
    Some (fun i => g0 i + sg i * (sr - ratio (vmean bn i) (vmean bd i)))) (seq 0 k) (Some vzero) = Some (fun i => rsum (map (term i) (seq 0 k)))).
  { induction k as [|k IH]; intros Hk; [reflexivity|]. rewrite seq_S, fold_left_app, IH by lia. cbn [fold_left Nat.add obind].
    rewrite !nth_error_map_seq by lia. cbn [obind].
    rewrite (List.nth_error_nth' num []), (List.nth_error_nth' den []) by lia. cbn [obind]. rewrite TN, TD.
    f_equal. extensionality i. rewrite map_app, rsum_app. cbn [map rsum]. rewrite Rplus_0_r. f_equal. unfold term. f_equal. f_equal.
    unfold vmean, gpomdp_baseline. rewrite !map_length, !map_map.
    rewrite quotient_means.
    - f_equal; apply rsum_map_ext; intros e' _; unfold num_entry, den_entry, vscale, vsquare; ring.
    - assert (In e (filter (fun e0 => k <? length e0)%nat trajs)) by (apply filter_In; split; auto; apply Nat.ltb_lt; lia).
      destruct (filter _ trajs); [destruct H|cbn [length]; lia]. }
  apply X. auto.
Qed.

Lemma gp_loop_spec : forall g num den trajs eps pre, table num (num_entry g) trajs -> table den den_entry trajs -> incl eps trajs ->
  gp_loop num den (map (fun e => map (reward_at g e) (seq 0 (length e))) (pre ++ eps)) (length pre) (map (fun e => map (score_upto e) (seq 0 (length e))) eps)
  = Some (map (gp_episode_gradient g trajs) eps).
Proof.
  intros g num den trajs eps. induction eps as [|e eps IH]; intros pre N D I; cbn [map gp_loop]; auto.
  rewrite map_app at 1. rewrite nth_error_app2 by (rewrite map_length; lia). rewrite map_length, Nat.sub_diag. cbn [map nth_error obind].
  rewrite (gp_episode_spec g num den trajs e N D) by (apply I; simpl; auto). cbn [obind].
  specialize (IH (pre ++ [e]) N D). rewrite app_length in IH. cbn [length] in IH. rewrite Nat.add_1_r, <- app_assoc in IH. cbn [app] in IH.
  change (Nat.succ (length pre)) with (Datatypes.S (length pre)). rewrite IH; auto. intros y Hy. apply I. simpl; auto.
Qed.

(** Attributes after a successful fit whose dataset ended with an episode end. *)
Definition gp_clean (s : gp) : Prop := gp_list_ep s = [] /\ gp_rew s = [] /\ gp_rew_ep s = [] /\ gp_num s = [] /\ gp_den s = [].

Lemma gp_fit : forall g s ds, gp_clean s -> (1 < length (complete lst ds))%nat ->
  exists s' gr, pg_fit g gpomdp s ds = (s', Some gr) /\ (unfinished lst ds = [] -> gp_clean s') /\
    forall i, gr i = gpomdp_gradient g (complete lst ds) (complete lst ds ++ [unfinished lst ds]) i.
Proof.
  intros g s ds (C1 & C2 & C3 & C4 & C5) L. rewrite fit_episodes. cbv zeta. rewrite (proj2 (Nat.ltb_lt _ _) L).
  set (eps := complete lst ds) in *. set (tail := unfinished lst ds) in *.
  assert (V0 : gp_view g (a_init gpomdp s) [] []).
  { unfold gp_view. cbn [a_init gpomdp gp_init gp_sum gp_list gp_rew gp_count gp_num gp_den gp_list_ep gp_rew_ep app].
    unfold gp_init. cbn [gp_sum gp_list gp_rew gp_count gp_num gp_den gp_list_ep gp_rew_ep]. rewrite C1, C2, C3, C4, C5.
    split; [reflexivity|]. split; [reflexivity|]. split; [reflexivity|]. split; [reflexivity|].
    assert (T : forall A (e : nat -> list sample -> A), table [] e [[]]) by (intros; split; [reflexivity|intros [|t]; reflexivity]).
    repeat split; auto; intros; apply T. }
  apply (gp_view_episodes g eps) in V0. cbn [app] in V0. apply (gp_view_steps g _ _ tail) in V0.
  set (s' := steps g gpomdp 1 tail _) in *. destruct V0 as (A & B & C & D & N & M & E & F).
  cbn [a_grad gpomdp]. unfold gp_grad. rewrite E, F.
  pose proof (gp_loop_spec g _ _ (eps ++ [tail]) eps [] N M) as LS. cbn [app length] in LS. rewrite LS by (intros y Hy; apply in_or_app; auto).
  eexists _, _. split; [reflexivity|]. split.
  - intros HT. unfold gp_clean. cbn [gp_list_ep gp_rew gp_rew_ep gp_num gp_den]. rewrite C, HT. repeat split; reflexivity.
  - intros i. unfold vmean, gpomdp_gradient. rewrite map_length, map_map. reflexivity.
Qed.

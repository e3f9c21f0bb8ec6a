(** Proofs for C119: the expectation of what VectorCore returns. *)
From Coq Require Import List Arith Lia Bool Reals Permutation.
From Verif Require Import Common EpisodeSpec VecCoreModel VecCoreSpec VecCoreProofs VecLearnModel VecLearnSpec VecLearnProofs SampModel SampSpec SampProofs
  PgExpSpec PgExpProps VecSampModel VecSampSpec VecSampProofs VecSampSim VecSampRun.
From Verif Require CoreModel.
Import ListNotations.
Local Open Scope nat_scope.

Section Episode.
Context {A : Type}.
Variable lst : A -> bool.
Fixpoint is_ep (e : list A) : bool := match e with [] => false | x :: e' => match e' with [] => lst x | _ => (negb (lst x) && is_ep e')%bool end end.
Lemma is_ep_iff : forall e, is_ep e = true <-> is_episode lst e.
Proof.
  induction e as [|x e IH]; cbn [is_ep].
  - split; [discriminate|]. intros (b & y & E & _). destruct b; discriminate.
  - destruct e as [|y e].
    + split; [intros L; exists [], x; repeat split; auto; constructor|]. intros (b & z & E & L & _). destruct b as [|? [|]]; [injection E as <-; exact L|discriminate|discriminate].
    + rewrite andb_true_iff, IH, negb_true_iff. split.
      * intros [N (b & z & E & L & B)]. exists (x :: b), z. rewrite E. repeat split; auto.
      * intros (b & z & E & L & B). destruct b as [|w b]; [discriminate|]. injection E as <- E. inversion B; subst. split; [assumption|]. exists b, z. repeat split; auto.
Qed.
Lemma forallb_perm : forall p (b b' : list A), Permutation b b' -> forallb p b = forallb p b'.
Proof. induction 1; cbn; try congruence. destruct (p x), (p y); reflexivity. Qed.
End Episode.

(** A quantity of lists of episodes, made zero elsewhere. *)
Definition only {A} (lst : A -> bool) (F : list (list A) -> R) (b : list (list A)) : R := if forallb (is_ep lst) b then F b else 0%R.
Lemma only_eq : forall A (lst : A -> bool) F b, Forall (is_episode lst) b -> only lst F b = F b.
Proof.
  intros A lst F b H. unfold only. assert (E : forallb (is_ep lst) b = true); [|rewrite E; reflexivity].
  apply forallb_forall. intros e I. apply is_ep_iff. rewrite Forall_forall in H. apply H, I.
Qed.
Lemma only_sym : forall A (lst : A -> bool) F, (forall b b', Forall (is_episode lst) b -> Permutation b b' -> F b = F b') -> symmetric (only lst F).
Proof.
  intros A lst F H b b' P. unfold only. assert (Q : forallb (is_ep lst) b = forallb (is_ep lst) b').
  { induction P; cbn; try congruence. destruct (is_ep lst x), (is_ep lst y); reflexivity. }
  rewrite <- Q. destruct (forallb (is_ep lst) b) eqn:E; [|reflexivity]. apply H; [|exact P].
  apply Forall_forall. intros e I. apply is_ep_iff. rewrite forallb_forall in E. apply E, I.
Qed.

Section Exp.
Context {St Ac A0 Oe Oa : Type}.
Variables (de : Oe) (da : Oa).
Variable init : Oe -> St.
Variable out : St -> Ac -> Oe -> St * R * bool.
Variable pol : A0 -> St -> Oa -> Ac.
Notation row := (CoreModel.sample St Ac R unit).
Variable fit0 : A0 -> list row -> A0.
Variable h : nat.
Variable n : nat.
Hypothesis Hn : 2 <= n.
Variable garb : nat -> nat -> nat -> bool.
Notation hor := (Some (S h)).
Notation ER := (n_reset de init).
Notation ES := (n_step de out).
Notation DR := (n_draw da pol).
Notation FT := (n_fit (Oa := Oa) fit0).
Notation W0 := (W_of n hor garb []).
Notation slot := (@slot St Ac).
Notation pass' := (pass de da init out pol h).
Notation idle := (fun sl : slot => snd sl = None).

(** * The world as probabilities *)
Variable acts : list Ac.
Variable kern : St -> Ac -> list (R * St * R * bool).
Variable starts : list (R * St).
Variable pi : A0 -> St -> Ac -> R.
Variables (mue : list (R * Oe)) (mua : list (R * Oa)).
Hypothesis Me : mean mue (fun _ => 1%R) = 1%R.
Hypothesis Ma : mean mua (fun _ => 1%R) = 1%R.
Hypothesis Hpol : forall g s f, mean mua (fun w => f (pol g s w)) = rsum (map (fun a => (pi g s a * f a)%R) acts).
Hypothesis Hout : forall s a f, mean mue (fun w => f (out s a w)) = rsum (map (fun k => let '(p, s', r, ab) := k in (p * f (s', r, ab))%R) (kern s a)).
Hypothesis Hinit : forall f, mean mue (fun w => f (init w)) = mean starts f.
Notation Ev := (fun lens na f => vtapes lens na mue mua f).
Notation VV := (V h acts kern starts pi).
Notation epis := (epis acts kern starts pi).

Lemma V_start : forall g k K F, VV g (repeat ([], None) k) K F = mean (batches K (epis g h)) F.
Proof. intros g. induction k as [|k IH]; intros K F; [reflexivity|]. cbn [repeat V]. rewrite mean_fin, IH. reflexivity. Qed.
Lemma V_const : forall g sls K c, VV g sls K (fun _ => c) = c.
Proof.
  intros g. induction sls as [|[d [[[pre s] k]|]] sls IH]; intros K c; cbn [V].
  - apply mean_const. apply batches_mass. apply (epis_mass init out pol acts kern starts pi mue mua Me Ma Hpol Hout Hinit).
  - rewrite mean_fin. rewrite (mean_ext _ _ _ (fun _ => c)) by (intros; apply IH). apply mean_const. apply (paths_mass out pol acts kern pi mue mua Me Ma Hpol Hout).
  - rewrite mean_fin. apply IH.
Qed.

Section Loop.
Variable cap : nat.
Notation Rep := (Rep de da init out pol fit0 h n garb cap).
Notation WG := (Wg n hor garb ER ES DR FT cap).
Notation ar := (arun de da init out pol fit0 h n garb cap).

(** One iteration, as a whole. *)
Lemma step_exp : forall sc b f r g sls lens na (G : A0 * list slot -> R) K F,
  (match sc with VSteps _ => False | _ => True end) -> vpos sc -> (forall s0, clean (WG s0) sc b cap) ->
  (forall tes ta, length tes = n -> exists s, Rep sc b r g sls s tes ta) ->
  CoreModel.move_required (vl (v_log r)) = Some true ->
  length lens = n -> Forall (fun l => 2 * S f <= l) lens -> n * S f <= na -> symmetric F ->
  (forall r1, vreset W0 r = Some r1 -> Forall2 fits (acts_of n r r1) sls -> fresh (acts_of n r r1) <= K) ->
  (forall r1 o r', vreset W0 r = Some r1 -> reach init out pol h g (acts_of n r r1) sls o -> Forall2 fits (acts_of n r r1) sls ->
    viterate (W_of n hor garb (map snd o)) cap r = Some r' -> CoreModel.tot_st (vl (v_log r)) < CoreModel.tot_st (vl (v_log r')) ->
    forall lens' na', length lens' = n -> Forall (fun l => 2 * f <= l) lens' -> n * f <= na' ->
    if fitted r' then
      Forall idle (map fst o) -> (forall k, sc = VEps k -> made (map fst o) = k) -> Forall (is_episode (@CoreModel.last St Ac R unit)) (concat (map fst (map fst o))) ->
      (forall ts ta, length ts = n -> exists s, Rep sc b r' (fit0 g (concat (concat (map fst (map fst o))))) (repeat ([], None) n) s ts ta) ->
      Ev lens' na' (fun ts ta => G (ar f r' (fit0 g (concat (concat (map fst (map fst o))))) (repeat ([], None) n) ts ta)) = VV g (map fst o) (K - fresh (acts_of n r r1)) F
    else
      (forall ts ta, length ts = n -> exists s, Rep sc b r' g (map fst o) s ts ta) ->
      Ev lens' na' (fun ts ta => G (ar f r' g (map fst o) ts ta)) = VV g (map fst o) (K - fresh (acts_of n r r1)) F) ->
  Ev lens na (fun tes ta => G (ar (S f) r g sls tes ta)) = VV g sls K F.
Proof.
  intros sc b f r g sls lens na G K F NS Hp Hc AOK Hm Ll Hl Hna HF FR ST.
  destruct (AOK (repeat [] n) [] (repeat_length _ _)) as (s0 & RP0).
  destruct (sim de da init out pol fit0 h n Hn garb cap sc b r g sls s0 _ _ NS Hp Hc RP0 Hm) as (r1 & R1 & FT0 & _).
  pose proof (p_l1 _ _ _ _ _ _ _ _ _ _ _ _ _ _ _ _ _ _ RP0) as L1. clear s0 RP0.
  rewrite (Ev_ext mue mua lens na _ (fun tes ta => let '(o, ts, ta') := pass' g (acts_of n r r1) sls tes ta in
    (fun o ts ta' => G match viterate (W_of n hor garb (map snd o)) cap r with
       | None => (g, sls)
       | Some r' => if fitted r' then ar f r' (fit0 g (concat (concat (map fst (map fst o))))) (repeat ([], None) n) ts ta' else ar f r' g (map fst o) ts ta'
       end) o ts ta')).
  2: { intros tes ta L. cbn [arun]. rewrite Hm, R1. destruct (pass' g (acts_of n r r1) sls tes ta) as [[o ts] ta']. reflexivity. }
  assert (LA : length (acts_of n r r1) = length sls) by (unfold acts_of; rewrite map_length, seq_length; symmetry; exact L1).
  apply (pass_exp de da init out pol h acts kern starts pi mue mua Ma Hpol Hout Hinit g (acts_of n r r1) sls lens na (2 * f)); auto.
  - rewrite L1. exact Ll.
  - eapply Forall_impl; [|exact Hl]. cbn beta. intros; lia.
  - rewrite L1. lia.
  - intros o lens' na' RE Ll' Hl' Hna'. rewrite L1 in Ll', Hna'.
    assert (AT : forall ts ta, length ts = n -> exists r' s', viterate (W_of n hor garb (map snd o)) cap r = Some r' /\ CoreModel.tot_st (vl (v_log r)) < CoreModel.tot_st (vl (v_log r')) /\
      if fitted r' then Forall idle (map fst o) /\ (forall k, sc = VEps k -> length (concat (map fst (map fst o))) = k) /\
        Forall (is_episode (@CoreModel.last St Ac R unit)) (concat (map fst (map fst o))) /\
        Rep sc b r' (fit0 g (concat (concat (map fst (map fst o))))) (repeat ([], None) n) s' ts ta
      else Rep sc b r' g (map fst o) s' ts ta).
    { intros ts ta Lt. destruct (reach_pass de da init out pol h g (acts_of n r r1) sls o RE ts ta ltac:(rewrite L1; exact Lt)) as (tes & ta0 & Lt0 & PQ). rewrite L1 in Lt0.
      destruct (AOK tes ta0 Lt0) as (s & RP). destruct (sim de da init out pol fit0 h n Hn garb cap sc b r g sls s tes ta0 NS Hp Hc RP Hm) as (r1' & R1' & _ & SM).
      rewrite R1 in R1'. injection R1' as <-. rewrite PQ in SM. destruct SM as (r' & s' & _ & VI & TS & SM). exists r', s'. repeat split; assumption. }
    destruct (AT (repeat [] n) [] (repeat_length _ _)) as (r' & s' & VI & TS & Q).
    assert (AT2 : forall ts ta, length ts = n -> exists s', if fitted r' then Rep sc b r' (fit0 g (concat (concat (map fst (map fst o))))) (repeat ([], None) n) s' ts ta
      else Rep sc b r' g (map fst o) s' ts ta).
    { intros ts ta Lt. destruct (AT ts ta Lt) as (r'' & s'' & VI'' & _ & Q''). rewrite VI in VI''. injection VI'' as <-. exists s''. destruct (fitted r'); [apply Q''|exact Q'']. }
    cbv beta. match goal with |- context[viterate ?w ?c ?x] => replace (viterate w c x) with (Some r') by (symmetry; exact VI) end. specialize (ST r1 o r' R1 RE FT0 VI TS lens' na' Ll' Hl' ltac:(lia)). destruct (fitted r').
    + destruct Q as (Q1 & Q2 & Q3 & _). exact (ST Q1 Q2 Q3 AT2).
    + exact (ST AT2).
Qed.

(** ** evaluate *)
Variable N : nat.
Hypothesis Hc : forall s0, clean (WG s0) VNever (VBEps N) cap.
Notation b := (VBEps N).

Lemma never_fitted : forall r g sls s tes ta, Rep VNever b r g sls s tes ta -> fitted r = false /\ CoreModel.tot_ep (vl (v_log r)) = made sls.
Proof.
  intros r g sls s tes ta RP. pose proof (rep_cur Hn RP) as CU. destruct (rep_head RP) as (s0 & HH & HD).
  pose proof (h_cnt _ _ _ _ HH) as CC. destruct (never_since _ _ _ CC) as [NS NB]. pose proof (d_fits _ _ _ _ _ HD) as DF. rewrite NB in DF.
  split.
  - unfold fitted. destruct (rev (v_events r)) as [|[t m l|d'] rest] eqn:RV; try reflexivity. exfalso.
    assert (QF : In (VFit d') (v_events r)) by (apply in_rev; rewrite RV; left; reflexivity).
    assert (IN : In d' (vfits_of (v_events r))) by (unfold vfits_of; apply in_flat_map; eexists; split; [exact QF|left; reflexivity]).
    assert (Z : vfits_of (v_events r) = []) by (destruct (vfits_of (v_events r)); [reflexivity|inversion DF]). rewrite Z in IN. destruct IN.
  - rewrite <- CU, (c_tot_ep _ _ _ _ CC), (c_cur_ep _ _ _ _ CC), NS. reflexivity.
Qed.

Theorem eval_loop_exp : forall F, symmetric F -> forall fuel r g sls lens na,
  (forall tes ta, length tes = n -> exists s, Rep VNever b r g sls s tes ta) ->
  S h * N <= fuel + CoreModel.tot_st (vl (v_log r)) -> length lens = n -> Forall (fun l => 2 * fuel <= l) lens -> n * fuel <= na ->
  Ev lens na (fun tes ta => F (concat (map fst (snd (ar fuel r g sls tes ta))))) = VV g sls (N - made sls - live sls) F.
Proof.
  intros F HF. assert (Z : forall fuel r g sls lens na, (forall tes ta, length tes = n -> exists s, Rep VNever b r g sls s tes ta) ->
     CoreModel.move_required (vl (v_log r)) = Some false ->
     Ev lens na (fun tes ta => F (concat (map fst (snd (ar fuel r g sls tes ta))))) = VV g sls (N - made sls - live sls) F).
  { intros fuel r g sls lens na AOK Hm. destruct (AOK (repeat [] n) [] (repeat_length _ _)) as (s0 & RP0).
    destruct (rep_idle Hn RP0 Hm) as [ID EN].
    rewrite (Ev_ext mue mua lens na _ (fun _ _ => F (concat (map fst sls)))) by (intros; destruct fuel; cbn [arun]; rewrite Hm; reflexivity).
    rewrite Ev_const by assumption. destruct (never_fitted _ _ _ _ _ _ RP0) as [_ TE]. rewrite <- TE, EN, Nat.sub_diag. cbn [Nat.sub].
    rewrite V_idle by exact ID. reflexivity. }
  induction fuel as [|f IH]; intros r g sls lens na AOK HN Ll Hl Hna; destruct (AOK (repeat [] n) [] (repeat_length _ _)) as (s0 & RP0).
  - apply Z; [exact AOK|]. apply (rep_end de da init out pol fit0 h n Hn garb cap VNever N I Hc _ _ _ _ _ _ RP0). exact HN.
  - destruct (rep_move RP0) as ([] & Hm); [|apply Z; assumption].
    destruct (never_fitted _ _ _ _ _ _ RP0) as [_ TE].
    apply (step_exp VNever b f r g sls lens na (fun p => F (concat (map fst (snd p)))) _ F I I Hc AOK Hm Ll Hl Hna HF).
    + intros r1 R1 FT0. pose proof (proj1 (rep_bound Hn RP0 I Hm R1 FT0) N eq_refl). lia.
    + intros r1 o r' R1 RE FT0 VI TS lens' na' Ll' Hl' Hna'. pose proof (reach_count RE FT0) as RC.
      destruct (fitted r') eqn:FQ.
      * intros _ _ _ AOK'. destruct (AOK' (repeat [] n) [] (repeat_length _ _)) as (s1 & RP1). destruct (never_fitted _ _ _ _ _ _ RP1) as [X _]. congruence.
      * intros AOK'. rewrite (IH r' g (map fst o) lens' na' AOK') by (auto; lia). f_equal. lia.
Qed.

(** What the returned dataset holds. *)
Lemma never_data : forall r g sls s tes ta, Rep VNever b r g sls s tes ta -> CoreModel.move_required (vl (v_log r)) = Some false ->
  read_all (x_tab s) (fst (flatten W0 (v_ds (x_r s)) None)) = Some (concat (concat (map fst sls))) /\
  Forall (is_episode (@CoreModel.last St Ac R unit)) (concat (map fst sls)) /\ made sls = N.
Proof.
  intros r g sls s tes ta RP Hm. destruct (rep_idle Hn RP Hm) as [ID EN].
  pose proof (proj2 (never_fitted _ _ _ _ _ _ RP)) as TE. rewrite EN in TE.
  destruct RP as [(s0 & c0 & I) PR PA L1 L2 (u0 & w & EU & AP & NF & SL)].
  pose proof (i_head _ _ _ _ _ _ _ _ _ _ _ _ _ I) as HH. pose proof (i_data _ _ _ _ _ _ _ _ _ _ _ _ _ I) as HD.
  pose proof (i_steps _ _ _ _ _ _ _ _ _ _ _ _ _ I) as IS. pose proof (i_rows _ _ _ _ _ _ _ _ _ _ _ _ _ I) as RO.
  destruct (never_since _ _ _ (h_cnt _ _ _ _ HH)) as [NSI _].
  assert (WR : rows_of w = x_tab s).
  { destruct (i_cur _ _ _ _ _ _ _ _ _ _ _ _ _ I) as (u1 & w1 & EU1 & AP1 & NF1 & SF & _).
    destruct (apart_unique u1 w1 u0 w) as [-> ->]; [congruence|auto|auto|auto|auto|]. rewrite NSI, IS in SF. apply (f_equal (@length _)) in SF. rewrite skipn_length, !pst_from_len in SF.
    rewrite EU, rows_of_app in RO. rewrite <- RO, app_length in SF. destruct (rows_of u0) as [|x l]; [cbn in RO; exact RO|cbn in SF; lia]. }
  assert (OE : forall j (sl : slot), nth_error sls j = Some sl -> col j (x_tab s) = concat (fst sl) /\ Forall (is_episode (@CoreModel.last St Ac R unit)) (fst sl)).
  { intros j sl EJ. assert (J : j < n) by (rewrite <- L1; apply nth_error_Some; congruence).
    destruct (nth_error tes j) as [te|] eqn:ET; [|apply nth_error_None in ET; lia]. destruct (SL j sl te EJ ET) as [FD SO].
    rewrite Forall_forall in ID. rewrite (ID sl) in SO by (eapply nth_error_In; exact EJ). destruct SO as (_ & _ & SO). rewrite <- WR. split; [exact SO|exact FD]. }
  split; [|split; [|symmetry; exact TE]].
  - change (fst (flatten W0 (v_ds (x_r s)) None)) with (fst (flatten (WG s0) (v_ds (x_r s)) None)).
    rewrite (data_out (WG s0) ltac:(cbn; lia) cap _ _ _ HD), NSI.
    assert (CT : transitions n (cut (st_of (x_r s))) = transitions n (st_of (x_r s))).
    { pose proof (c_ws _ _ _ _ (h_cnt _ _ _ _ HH)) as WS. rewrite <- PR in Hm. destruct (head_done_eps (WG s0) ltac:(cbn; lia) _ _ _ HH Hm) as [_ EA]. cbn [n_envs Wg] in EA.
      destruct (st_of (x_r s)) as [|[[t m] l0] st _] using rev_ind; [reflexivity|].
      apply (transitions_cut_id (WG s0) ltac:(cbn; lia)).
      - apply (WS st t m l0 []). reflexivity.
      - apply (ws_last_ended (WG s0) ltac:(cbn; lia) st t m l0 WS EA). }
    cbn [n_envs Wg]. rewrite CT, IS. unfold transitions.
    rewrite (read_all_flat (x_tab s) _ (fun j => col j (x_tab s))) by (intros j _; apply read_env; reflexivity). f_equal. rewrite <- L1.
    clear -OE. revert OE. generalize (x_tab s). intros rs OE.
    assert (G : forall k (l : list slot), (forall j sl, nth_error l j = Some sl -> col (k + j) rs = concat (fst sl)) ->
         flat_map (fun j => col j rs) (seq k (length l)) = concat (concat (map fst l))).
    { intros k l'. revert k. induction l' as [|sl l' IH]; intros k K'; [reflexivity|]. cbn [length seq flat_map map concat]. rewrite concat_app. f_equal.
      - rewrite <- (K' 0 sl eq_refl). rewrite Nat.add_0_r. reflexivity.
      - apply IH. intros j sl' EJ. rewrite <- (K' (S j) sl' EJ). f_equal. lia. }
    apply G. intros j sl EJ. apply (OE j sl EJ).
  - apply Forall_concat. apply Forall_map. apply Forall_forall. intros sl HI. apply In_nth_error in HI as (j & EJ). apply (OE j sl EJ).
Qed.
End Loop.

(** ** learn *)
Section Learn.
Variable cap : nat.
Notation Rep := (Rep de da init out pol fit0 h n garb cap).
Notation WG := (Wg n hor garb ER ES DR FT cap).
Notation ar := (arun de da init out pol fit0 h n garb cap).
Variables k M q : nat.
Hypothesis Hk : 1 <= k.
Hypothesis Hq : q < k.
Notation N := (M * k + q).
Hypothesis Hc : forall s0, clean (WG s0) (VEps k) (VBEps N) cap.
Notation b := (VBEps N).
Hypothesis Hsym : forall g d d', Forall (is_episode (@CoreModel.last St Ac R unit)) d -> Permutation d d' -> fit0 g (concat d) = fit0 g (concat d').
Variable F : A0 -> R.
Notation op := (on_policy acts kern starts pi fit0 k h).

Definition Fm (m : nat) (g : A0) : list (list row) -> R :=
  match m with
  | O => fun _ => F g
  | S m' => only (@CoreModel.last St Ac R unit) (fun d => op m' F (fit0 g (concat d)))
  end.
Lemma Fm_sym : forall m g, symmetric (Fm m g).
Proof.
  intros [|m] g; cbn [Fm]; [intros d d' _; reflexivity|]. apply only_sym. intros d d' FE P. rewrite (Hsym g d d' FE P). reflexivity.
Qed.
Lemma Fm_start : forall m g, mean (batches k (epis g h)) (Fm m g) = op m F g.
Proof.
  intros [|m] g; cbn [Fm on_policy].
  - apply mean_const. apply batches_mass. apply (epis_mass init out pol acts kern starts pi mue mua Me Ma Hpol Hout Hinit).
  - apply mean_ext. intros w d I. apply only_eq. destruct (batches_in _ _ _ _ _ I) as [_ Q]. apply Forall_forall. intros e Ie.
    destruct (Q e Ie) as (v & Iv). apply (epis_episode _ _ _ _ _ _ _ _ Iv).
Qed.

Definition nfits (r : vrun) : nat := length (fit_batches (v_events r)).

Lemma rep_total : forall r g sls s tes ta, Rep (VEps k) b r g sls s tes ta ->
  CoreModel.tot_ep (vl (v_log r)) = k * nfits r + made sls /\ made sls < k /\ CoreModel.tot_ep (vl (v_log r)) <= N.
Proof.
  intros r g sls s tes ta RP. rewrite <- (rep_cur Hn RP). destruct (rep_head RP) as (s0 & HH & _).
  pose proof (h_cnt _ _ _ _ HH) as CC. split; [|split].
  - rewrite (c_tot_ep _ _ _ _ CC), (c_cur_ep _ _ _ _ CC). unfold st_of. rewrite <- batches_concat. pose proof (c_batches _ _ _ _ CC) as CB. cbn beta iota in CB. unfold nfits.
    revert CB. generalize (fit_batches (v_events r)), (since_fit (v_events r)). intros fb sf CB. clear -CB. induction CB as [|bt bs E CB IH]; [cbn [concat app length]; rewrite Nat.mul_0_r; reflexivity|]. cbn [concat length]. rewrite <- app_assoc.
    assert (NA : forall x y, n_eps_done (x ++ y) = n_eps_done x + n_eps_done y) by (intros x y; unfold n_eps_done; rewrite map_app, list_sum_app; reflexivity).
    rewrite NA, IH, E. lia.
  - pose proof (c_notdue _ _ _ _ CC) as ND. exact ND.
  - pose proof (h_N _ _ _ _ HH) as X. cbn beta iota in X. lia.
Qed.

Lemma fitted_count : forall W r r', viterate W cap r = Some r' -> (forall r1, vreset W r = Some r1 -> v_events r1 = v_events r) ->
  nfits r' = (if fitted r' then 1 else 0) + nfits r.
Proof.
  intros W r r' H E. destruct (viterate_shape cap W r r' H) as (r1 & R1 & _ & [V|(d & V & _)]); cbv zeta in V; rewrite (E _ R1) in V; unfold nfits, fitted; rewrite V.
  - rewrite rev_app_distr, fitb_snoc_step. reflexivity.
  - rewrite rev_app_distr, fitb_snoc_fit, fitb_snoc_step, app_length. cbn. lia.
Qed.

Theorem learn_loop_exp : forall fuel r g sls lens na,
  (forall tes ta, length tes = n -> exists s, Rep (VEps k) b r g sls s tes ta) ->
  S h * N <= fuel + CoreModel.tot_st (vl (v_log r)) -> length lens = n -> Forall (fun l => 2 * fuel <= l) lens -> n * fuel <= na ->
  Ev lens na (fun tes ta => F (fst (ar fuel r g sls tes ta))) = VV g sls (k - made sls - live sls) (Fm (M - nfits r) g).
Proof.
  assert (Z : forall fuel r g sls lens na, (forall tes ta, length tes = n -> exists s, Rep (VEps k) b r g sls s tes ta) ->
     CoreModel.move_required (vl (v_log r)) = Some false ->
     Ev lens na (fun tes ta => F (fst (ar fuel r g sls tes ta))) = VV g sls (k - made sls - live sls) (Fm (M - nfits r) g)).
  { intros fuel r g sls lens na AOK Hm. destruct (AOK (repeat [] n) [] (repeat_length _ _)) as (s0 & RP0).
    destruct (rep_idle Hn RP0 Hm) as [ID EN]. destruct (rep_total _ _ _ _ _ _ RP0) as (T1 & T2 & T3).
    rewrite (Ev_ext mue mua lens na _ (fun _ _ => F g)) by (intros; destruct fuel; cbn [arun]; rewrite Hm; reflexivity).
    rewrite Ev_const by assumption. assert (ME : nfits r = M) by nia. rewrite ME, Nat.sub_diag. cbn [Fm]. rewrite V_const. reflexivity. }
  induction fuel as [|f IH]; intros r g sls lens na AOK HN Ll Hl Hna; destruct (AOK (repeat [] n) [] (repeat_length _ _)) as (s0 & RP0).
  - apply Z; [exact AOK|]. apply (rep_end de da init out pol fit0 h n Hn garb cap (VEps k) N Hk Hc _ _ _ _ _ _ RP0). exact HN.
  - destruct (rep_move RP0) as ([] & Hm); [|apply Z; assumption].
    destruct (rep_total _ _ _ _ _ _ RP0) as (T1 & T2 & T3). pose proof (rep_cur Hn RP0) as CU.
    apply (step_exp cap (VEps k) b f r g sls lens na (fun p => F (fst p)) _ (Fm (M - nfits r) g) I Hk Hc AOK Hm Ll Hl Hna (Fm_sym _ _)).
    + intros r1 R1 FT0. pose proof (proj2 (rep_bound Hn RP0 Hk Hm R1 FT0) k eq_refl). lia.
    + intros r1 o r' R1 RE FT0 VI TS lens' na' Ll' Hl' Hna'. pose proof (reach_count RE FT0) as RC.
      assert (FC : nfits r' = (if fitted r' then 1 else 0) + nfits r).
      { apply (fitted_count _ _ _ VI). intros r1' R1'. change (vreset (W_of n hor garb (map snd o)) r) with (vreset W0 r) in R1'. rewrite R1 in R1'. injection R1' as <-.
        destruct (rep_head RP0) as (s1 & HH & _).
        destruct (viterate_cases (WG s1) ltac:(cbn; lia) ltac:(discriminate) cap _ _ r HH Hk Hm) as (r2 & R2 & _ & _ & Ee & _).
        change (vreset (WG s1) r) with (vreset W0 r) in R2. rewrite R1 in R2. injection R2 as <-. exact Ee. }
      destruct (fitted r') eqn:FQ.
      * intros ID MK FE AOK'. specialize (MK k eq_refl). destruct (AOK' (repeat [] n) [] (repeat_length _ _)) as (s1 & RP1). destruct (rep_total _ _ _ _ _ _ RP1) as (U1 & U2 & U3).
        rewrite (IH r' _ _ lens' na' AOK') by (auto; lia). rewrite (idle_live _ ID) in RC.
        assert (X : nfits r' <= M) by (rewrite made_repeat in U1; nia).
        assert (Y : M - nfits r = S (M - nfits r')) by lia. rewrite Y.
        replace (k - made sls - live sls - fresh (acts_of n r r1)) with 0 by lia. rewrite V_idle by exact ID. cbn [Fm]. rewrite only_eq by exact FE.
        rewrite made_repeat, (idle_live _ (idle_repeat n)), !Nat.sub_0_r, V_start. apply Fm_start.
      * intros AOK'. rewrite (IH r' g (map fst o) lens' na' AOK') by (auto; lia). rewrite FC. cbn [Nat.add]. f_equal. lia.
Qed.
End Learn.

(** * The start *)
Lemma rep_start : forall cap sc N l2 ss g tes ta, vpos sc -> vhas l2 sc -> vhasb l2 (VBEps N) ->
  CoreModel.tot_ep l2 = 0 -> CoreModel.tot_st l2 = 0 -> CoreModel.cur_ep l2 = 0 -> CoreModel.cur_st l2 = 0 ->
  length ss = n -> length tes = n ->
  Rep de da init out pol fit0 h n garb cap sc (VBEps N) (vstart W0 cap l2) g (repeat ([], None) n)
    (mkX (vstart W0 cap l2) (envs_of ss tes) (g, ta) [] []) tes ta.
Proof.
  intros cap sc N l2 ss g tes ta Hp Hs Hb T1 T2 C1 C2 L1 L2.
  set (s0 := mkX (vstart W0 cap l2) (envs_of ss tes) (g, ta) [] []).
  set (W := Wg n hor garb ER ES DR FT cap s0).
  assert (LE : length (envs_of ss tes) = n) by (unfold envs_of; rewrite map_length, combine_length; lia).
  assert (HD : Head W sc (VBEps N) (vstart W cap l2)) by (apply (vstart_head W ltac:(cbn; lia)); auto; discriminate).
  assert (DD : Data W cap sc (VBEps N) (vstart W cap l2)) by apply vstart_data.
  constructor.
  - exists s0, (envs_of ss tes, (g, ta)). constructor; cbn [x_r x_env x_ag x_tab x_ev s0]; try assumption; try reflexivity.
    + constructor.
    + constructor.
    + exists [], []. repeat split; auto. left. reflexivity. destruct sc; auto. intros j J. reflexivity.
    + intros u d v EQ. destruct u; discriminate.
    + destruct sc; constructor.
    + destruct sc; auto. intros u d v EQ. destruct u; discriminate.
    + destruct sc; constructor.
  - reflexivity.
  - reflexivity.
  - apply repeat_length.
  - exact L2.
  - exists [], []. split; [reflexivity|]. split; [left; reflexivity|]. split; [reflexivity|]. intros j sl te E1 E2.
    assert (J : j < n) by (rewrite <- L2; apply nth_error_Some; congruence). rewrite nth_error_repeat in E1 by exact J. injection E1 as <-.
    split; [constructor|]. cbn [snd fst]. split; [|split; reflexivity]. cbn [x_env s0]. unfold envs_of. rewrite nth_error_map.
    destruct (nth_error ss j) as [p|] eqn:E3; [|apply nth_error_None in E3; lia].
    assert (Q : nth_error (combine ss tes) j = Some (p, te)).
    { clear -E2 E3. revert tes j E2 E3. induction ss as [|x ss IH]; intros [|y tes] [|j] E2 E3; try discriminate; cbn in *; [congruence|]. apply IH; assumption. }
    rewrite Q. cbn [option_map fst snd]. eauto.
Qed.
End Exp.

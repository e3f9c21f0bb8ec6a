(** Proofs for C119: the whole run of VectorCore. *)
From Coq Require Import List Arith Lia Bool Reals.
From Verif Require Import Common EpisodeSpec VecCoreModel VecCoreSpec VecCoreProofs VecLearnModel VecLearnSpec VecLearnProofs SampModel VecSampModel VecSampProofs VecSampSim.
From Verif Require CoreModel.
Import ListNotations.
Local Open Scope nat_scope.

Section Count.
Context {St Ac A0 Oe Oa : Type}.
Variable init : Oe -> St.
Variable out : St -> Ac -> Oe -> St * R * bool.
Variable pol : A0 -> St -> Oa -> Ac.
Variable h : nat.
Notation slot := (@slot St Ac).

(** Episodes finished and in progress. *)
Definition made (sls : list slot) : nat := length (concat (map fst sls)).
Definition live (sls : list slot) : nat := length (filter (fun sl : slot => match snd sl with Some _ => true | None => false end) sls).

Lemma made_cons : forall sl sls, made (sl :: sls) = length (fst sl) + made sls.
Proof. intros. unfold made. cbn [map concat]. apply app_length. Qed.
Lemma live_cons : forall (sl : slot) sls, live (sl :: sls) = (match snd sl with Some _ => 1 | None => 0 end) + live sls.
Proof. intros [d [c|]] sls; reflexivity. Qed.
Lemma fresh_cons : forall a ws, fresh (a :: ws) = (match a with Fresh => 1 | _ => 0 end) + fresh ws.
Proof. intros [] ws; reflexivity. Qed.
Lemma goes_count : forall g d pre s k wa we, let sl := fst (goes (St := St) (Ac := Ac) out pol g d pre s k wa we) in
  length (fst sl) + match snd sl with Some _ => 1 | None => 0 end = S (length d).
Proof.
  intros. unfold sl, goes. clear sl. destruct (out s (pol g s wa) we) as [[s' r] ab]. destruct ((match k with O => true | _ => false end) || ab)%bool; cbn [fst snd]; [rewrite app_length; cbn; lia|lia].
Qed.
Lemma reach_count : forall g ws sls o, reach init out pol h g ws sls o -> Forall2 fits ws sls ->
  made (map fst o) + live (map fst o) = made sls + live sls + fresh ws.
Proof.
  intros g ws sls o H. induction H as [|a sl ws sls o wa w1 w2 H IH]; intros FT; [reflexivity|]. inversion FT as [|? ? ? ? F1 F2]; subst. specialize (IH F2).
  cbn [map]. rewrite !made_cons, !live_cons, fresh_cons. unfold fits in F1. destruct sl as [d [[[pre s] k]|]], a; cbn [snd] in F1; try contradiction; cbn [env1 snd fst].
  - pose proof (goes_count g d pre s k wa w1) as Q. cbv zeta in Q. lia.
  - lia.
  - pose proof (goes_count g d [] (init w1) h wa w2) as Q. cbv zeta in Q. lia.
Qed.
Lemma idle_live : forall sls : list slot, Forall (fun sl => snd sl = None) sls -> live sls = 0.
Proof. induction 1 as [|sl sls H _ IH]; [reflexivity|]. rewrite live_cons, H. exact IH. Qed.
Lemma idle_repeat : forall k, Forall (fun sl : slot => snd sl = None) (repeat ([], None) k).
Proof. induction k; cbn; constructor; auto. Qed.
Lemma made_repeat : forall k, made (repeat ([], None) k) = 0.
Proof. induction k; [reflexivity|]. cbn [repeat]. rewrite made_cons. exact IHk. Qed.
End Count.

Section Run.
Context {St Ac A0 Oe Oa : Type}.
Variables (de : Oe) (da : Oa).
Variable init : Oe -> St.
Variable out : St -> Ac -> Oe -> St * R * bool.
Variable pol : A0 -> St -> Oa -> Ac.
Notation row := (CoreModel.sample St Ac R unit).
Variable fit0 : A0 -> list row -> A0.
Variable h : nat.
Variable n : nat.
Hypothesis Hn : 2 <= n.
Variable garb : nat -> nat -> nat -> bool.
Variable cap : nat.
Notation hor := (Some (S h)).
Notation ER := (n_reset de init).
Notation ES := (n_step de out).
Notation DR := (n_draw da pol).
Notation FT := (n_fit (Oa := Oa) fit0).
Notation xit := (xiterate n hor garb ER ES DR FT cap).
Notation W0 := (W_of n hor garb []).
Notation slot := (@slot St Ac).
Notation pass' := (pass de da init out pol h).
Notation xst' := (xst (St * list Oe) St Ac (A0 * list Oa)).
Notation Rep := (Rep de da init out pol fit0 h n garb cap).
Notation WG := (Wg n hor garb ER ES DR FT cap).

(** As many episodes have been finished since the last fit as the environments have to show. *)
Lemma rep_cur : forall sc b r g sls s tes ta, Rep sc b r g sls s tes ta -> CoreModel.cur_ep (vl (v_log r)) = made sls.
Proof.
  intros sc b r g sls s tes ta [(s0 & c0 & I) PR PA L1 L2 (u0 & w & EU & AP & NF & SL)].
  pose proof (c_cur_ep _ _ _ _ (h_cnt _ _ _ _ (i_head _ _ _ _ _ _ _ _ _ _ _ _ _ I))) as CE. rewrite PR in CE. rewrite CE.
  destruct (i_cur _ _ _ _ _ _ _ _ _ _ _ _ _ I) as (u1 & w1 & EU1 & AP1 & NF1 & SF & _).
  destruct (apart_unique u1 w1 u0 w) as [-> ->]; [congruence|auto|auto|auto|auto|]. rewrite PR in SF. rewrite SF, pst_from_skip, Nat.add_0_l.
  pose proof (i_rows _ _ _ _ _ _ _ _ _ _ _ _ _ I) as RO. rewrite EU, rows_of_app in RO.
  assert (RW : skipn (length (rows_of u0)) (x_tab s) = rows_of w) by (rewrite <- RO, skipn_app, skipn_all, Nat.sub_diag; reflexivity).
  rewrite RW. pose proof (i_len _ _ _ _ _ _ _ _ _ _ _ _ _ I) as LN. rewrite <- RO in LN. apply Forall_app in LN as [_ LN].
  rewrite <- (count_ends n _ _ LN), filter_flat.
  assert (K : forall j sl, nth_error sls j = Some sl -> length (filter (@CoreModel.last St Ac R unit) (col j (rows_of w))) = length (fst sl)).
  { intros j sl E. assert (J : j < n) by (rewrite <- L1; apply nth_error_Some; congruence).
    destruct (nth_error tes j) as [te|] eqn:ET; [|apply nth_error_None in ET; lia]. destruct (SL j sl te E ET) as [FE SO].
    change (col j (rows_of w)) with (of_env j w). destruct (snd sl) as [[[pre st] k]|].
    - destruct SO as (_ & _ & _ & -> & NL). rewrite filter_app, app_length, count_concat by exact FE.
      assert (Z : filter (@CoreModel.last St Ac R unit) pre = []); [|rewrite Z; cbn; lia]. clear -NL. induction NL as [|y p Hy NL IH]; [reflexivity|]. cbn [filter]. rewrite Hy. exact IH.
    - destruct SO as (_ & _ & ->). apply count_concat. exact FE. }
  rewrite <- L1. clear -K. revert K. generalize (rows_of w). intros rs K.
  assert (G : forall k (l : list slot), (forall j sl, nth_error l j = Some sl -> length (filter (@CoreModel.last St Ac R unit) (col (k + j) rs)) = length (fst sl)) ->
     list_sum (map (fun j => length (filter (@CoreModel.last St Ac R unit) (col j rs))) (seq k (length l))) = made l).
  { intros k l. revert k. induction l as [|sl l IH]; intros k H; [reflexivity|]. cbn [length seq map list_sum fold_right]. rewrite made_cons. f_equal.
    - specialize (H 0 sl eq_refl). rewrite Nat.add_0_r in H. exact H.
    - apply IH. intros j sl' E. specialize (H (S j) sl' E). rewrite Nat.add_succ_r in H. exact H. }
  apply G. exact K.
Qed.

Lemma cnt_acts : forall (f : nat -> what) (m : list bool) k, (forall j, j < length m -> (nth j m false = true <-> f (k + j) <> Stay)) ->
  forall sls : list slot, Forall2 fits (map f (seq k (length m))) sls -> cnt m = fresh (map f (seq k (length m))) + live sls.
Proof.
  intros f m. induction m as [|b m IH]; intros k H sls F; inversion F as [|a sl ws sls' F1 F2]; subst; [reflexivity|]. cbn [length seq map] in *.
  rewrite fresh_cons, live_cons. specialize (IH (S k)).
  assert (Q : cnt (b :: m) = (if b then 1 else 0) + cnt m) by (destruct b; reflexivity).
  rewrite Q, (IH ltac:(intros j J; specialize (H (S j) ltac:(cbn; lia)); rewrite Nat.add_succ_r in H; exact H) _ F2).
  pose proof (H 0 ltac:(cbn; lia)) as H0. cbn [nth] in H0. rewrite Nat.add_0_r in H0. unfold fits in F1.
  destruct (f k), (snd sl), b; try contradiction; try lia; exfalso; destruct H0 as [A1 A2]; try (apply A1; reflexivity); try (discriminate A2; discriminate); assert (false = true) by (apply A2; discriminate); discriminate.
Qed.

(** No environment starts an episode beyond the budget. *)
Lemma rep_bound : forall sc b r g sls s tes ta r1, Rep sc b r g sls s tes ta -> vpos sc -> CoreModel.move_required (vl (v_log r)) = Some true ->
  vreset W0 r = Some r1 -> Forall2 fits (acts_of n r r1) sls ->
  (forall N, b = VBEps N -> CoreModel.tot_ep (vl (v_log r)) + live sls + fresh (acts_of n r r1) <= N) /\
  (forall k, sc = VEps k -> CoreModel.cur_ep (vl (v_log r)) + live sls + fresh (acts_of n r r1) <= k).
Proof.
  intros sc b r g sls s tes ta r1 [(s0 & c0 & I) PR PA L1 L2 _] Hp Hm R1 FT.
  pose proof (i_head _ _ _ _ _ _ _ _ _ _ _ _ _ I) as HH. rewrite PR in HH.
  destruct (viterate_cases (WG s0) ltac:(cbn; lia) ltac:(discriminate) cap sc b r HH Hp Hm) as (r2 & R2 & M & _ & _ & _ & El & _).
  change (vreset (WG s0) r) with (vreset W0 r) in R2. rewrite R1 in R2. injection R2 as <-.
  pose proof (c_lm _ _ _ _ (m_cnt _ _ _ _ M)) as LM. pose proof (c_ll _ _ _ _ (h_cnt _ _ _ _ HH)) as LL. cbn [n_envs Wg] in LM, LL.
  assert (C : cnt (v_mask r1) = fresh (acts_of n r r1) + live sls).
  { unfold acts_of. rewrite <- LM. apply cnt_acts; [|rewrite LM; exact FT]. intros j J. cbn [Nat.add]. unfold act_of.
    rewrite nth_vand by congruence. destruct (nth j (v_mask r1) false); [|rewrite andb_false_r, andb_false_r; split; [discriminate|congruence]].
    destruct (vany (v_last r) && (nth j (v_last r) false && true))%bool; split; auto; discriminate. }
  pose proof (m_N _ _ _ _ M) as MN. pose proof (m_k _ _ _ _ M) as MK. rewrite El in MN, MK. split.
  - intros N ->. cbn beta iota in MN. lia.
  - intros k ->. cbn beta iota in MK. lia.
Qed.

(** * The run *)
Fixpoint arun (fuel : nat) (r : vrun) (g : A0) (sls : list slot) (tes : list (list Oe)) (ta : list Oa) : A0 * list slot :=
  match CoreModel.move_required (vl (v_log r)), fuel with
  | Some true, S f =>
      match vreset W0 r with
      | None => (g, sls)
      | Some r1 =>
          let '(o, ts, ta') := pass' g (acts_of n r r1) sls tes ta in
          match viterate (W_of n hor garb (map snd o)) cap r with
          | None => (g, sls)
          | Some r' => if fitted r' then arun f r' (fit0 g (concat (concat (map fst (map fst o))))) (repeat ([], None) n) ts ta'
                       else arun f r' g (map fst o) ts ta'
          end
      end
  | _, _ => (g, sls)
  end.

Variable sc : vsched.
Variable N : nat.
Hypothesis NS : match sc with VSteps _ => False | _ => True end.
Hypothesis Hp : vpos sc.
Hypothesis Hc : forall s0, clean (WG s0) sc (VBEps N) cap.
Notation b := (VBEps N).

Lemma rep_head : forall r g sls s tes ta, Rep sc b r g sls s tes ta -> exists s0, Head (WG s0) sc b r /\ Data (WG s0) cap sc b r.
Proof.
  intros r g sls s tes ta [(s0 & c0 & I) PR _ _ _ _]. exists s0. rewrite <- PR.
  split; [exact (i_head _ _ _ _ _ _ _ _ _ _ _ _ _ I)|exact (i_data _ _ _ _ _ _ _ _ _ _ _ _ _ I)].
Qed.

Lemma rep_end : forall r g sls s tes ta, Rep sc b r g sls s tes ta -> S h * N <= CoreModel.tot_st (vl (v_log r)) ->
  CoreModel.move_required (vl (v_log r)) = Some false.
Proof.
  intros r g sls s tes ta RP HN. destruct (rep_head _ _ _ _ _ _ RP) as (s0 & HH & HD).
  destruct (vloop_clean (WG s0) ltac:(cbn; lia) ltac:(discriminate) ltac:(cbn; lia) 0 cap sc b r HH HD Hp (Hc s0)) as (_ & _ & T).
  destruct T as (r' & ou & T); [exists (S h); split; [reflexivity|lia]|]. cbn [vloop] in T.
  destruct (CoreModel.move_required (vl (v_log r))) as [[]|]; try discriminate. reflexivity.
Qed.

Lemma rep_move : forall r g sls s tes ta, Rep sc b r g sls s tes ta -> exists q, CoreModel.move_required (vl (v_log r)) = Some q.
Proof.
  intros r g sls s tes ta RP. destruct (rep_head _ _ _ _ _ _ RP) as (s0 & HH & HD). pose proof (c_b _ _ _ _ (h_cnt _ _ _ _ HH)) as (A1 & B1).
  unfold CoreModel.move_required. rewrite A1, B1. eauto.
Qed.

Lemma rep_idle : forall r g sls s tes ta, Rep sc b r g sls s tes ta -> CoreModel.move_required (vl (v_log r)) = Some false ->
  Forall (fun sl => snd sl = None) sls /\ CoreModel.tot_ep (vl (v_log r)) = N.
Proof.
  intros r g sls s tes ta RP Hm. destruct (rep_head _ _ _ _ _ _ RP) as (s0 & HH & HD).
  destruct (head_done_eps (WG s0) ltac:(cbn; lia) _ _ _ HH Hm) as [EN EA]. split; [|rewrite (c_tot_ep _ _ _ _ (h_cnt _ _ _ _ HH)); exact EN].
  destruct RP as [_ PR PA L1 L2 (u0 & w & EU & AP & NF & SL)].
  assert (JN : forall j (sl : slot), nth_error sls j = Some sl -> j < n) by (intros j sl EJ; rewrite <- L1; apply nth_error_Some; congruence).
  apply Forall_forall. intros sl HI. apply In_nth_error in HI as (j & EJ). pose proof (JN j sl EJ) as J. destruct (nth_error tes j) as [te|] eqn:ET; [|apply nth_error_None in ET; lia].
  destruct (SL j sl te EJ ET) as [_ SO]. destruct (snd sl) as [[[pre st] k]|]; [|reflexivity]. destruct SO as (_ & A1 & _). specialize (EA j J). cbn in EA. lia.
Qed.

Theorem sim_loop : forall fuel r g sls s tes ta, Rep sc b r g sls s tes ta -> S h * N <= fuel + CoreModel.tot_st (vl (v_log r)) ->
  exists s', xloop n hor garb ER ES DR FT fuel cap s = XDone s' /\
  exists r' tes' ta', CoreModel.move_required (vl (v_log r')) = Some false /\
    Rep sc b r' (fst (arun fuel r g sls tes ta)) (snd (arun fuel r g sls tes ta)) s' tes' ta'.
Proof.
  assert (Z : forall fuel r g sls s tes ta, Rep sc b r g sls s tes ta -> CoreModel.move_required (vl (v_log r)) = Some false ->
    exists s', xloop n hor garb ER ES DR FT fuel cap s = XDone s' /\
    exists r' tes' ta', CoreModel.move_required (vl (v_log r')) = Some false /\
    Rep sc b r' (fst (arun fuel r g sls tes ta)) (snd (arun fuel r g sls tes ta)) s' tes' ta').
  { intros fuel r g sls s tes ta RP Hm. exists s. split; [destruct fuel; cbn [xloop]; rewrite (p_r _ _ _ _ _ _ _ _ _ _ _ _ _ _ _ _ _ _ RP), Hm; reflexivity|].
    exists r, tes, ta. split; [exact Hm|]. destruct fuel; cbn [arun]; rewrite Hm; exact RP. }
  induction fuel as [|f IH]; intros r g sls s tes ta RP HN.
  - apply Z; [exact RP|]. apply (rep_end _ _ _ _ _ _ RP). exact HN.
  - destruct (rep_move _ _ _ _ _ _ RP) as ([] & Hm); [|apply Z; assumption].
    destruct (sim de da init out pol fit0 h n Hn garb cap sc b r g sls s tes ta NS Hp Hc RP Hm) as (r1 & R1 & FT & SM).
    cbn [xloop arun]. rewrite Hm, R1. rewrite (p_r _ _ _ _ _ _ _ _ _ _ _ _ _ _ _ _ _ _ RP), Hm.
    destruct (pass' g (acts_of n r r1) sls tes ta) as [[o ts] ta']. destruct SM as (r' & s' & EX & VI & TS & SM). rewrite EX, VI.
    destruct (fitted r').
    + destruct SM as (_ & _ & _ & RP'). apply IH; [exact RP'|lia].
    + apply IH; [exact SM|lia].
Qed.
End Run.
Arguments rep_cur {St Ac A0 Oe Oa de da init out pol fit0 h n} Hn {garb cap sc b r g sls s tes ta} _.
Arguments rep_head {St Ac A0 Oe Oa de da init out pol fit0 h n garb cap sc N r g sls s tes ta} _.
Arguments rep_idle {St Ac A0 Oe Oa de da init out pol fit0 h n} Hn {garb cap sc N r g sls s tes ta} _ _.
Arguments rep_move {St Ac A0 Oe Oa de da init out pol fit0 h n garb cap sc N r g sls s tes ta} _.
Arguments rep_bound {St Ac A0 Oe Oa de da init out pol fit0 h n} Hn {garb cap sc b r g sls s tes ta r1} _ _ _ _ _.
Arguments reach_count {St Ac A0 Oe Oa init out pol h g ws sls o} _ _.

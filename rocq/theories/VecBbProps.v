(** C126: black-box optimisation trained by [VectorCore]. *)
From Coq Require Import List Arith Lia Bool Reals Lra.
From Verif Require Import Common EpisodeSpec VecCoreModel VecLearnModel VecLearnSpec VecLearnProofs VecLearnProps VecBbModel.
From Verif Require CoreModel.
Import ListNotations.
Local Open Scope list_scope.
Local Open Scope nat_scope.

(** ** Masks *)
Lemma put_length : forall Y (m : list bool) (new base : list Y), length (put m new base) = length base.
Proof.
  induction m as [|b m IH]; intros new base; [reflexivity|]. destruct base as [|y base]; [destruct b; reflexivity|].
  destruct b; cbn; [destruct new; cbn; rewrite IH; reflexivity|rewrite IH; reflexivity].
Qed.

Lemma put_at : forall (Th C : Type) (f : nat -> C -> Th) flags ctxs base k, length flags = length base -> length ctxs = length base ->
  forall j t, nth_error base j = Some t ->
  exists t', nth_error (put flags (map (fun p => f (fst p) (snd p)) (combine (seq k (length (masked flags ctxs))) (masked flags ctxs))) base) j = Some t' /\
    if nth j flags false then exists i cx, nth_error ctxs j = Some cx /\ t' = f i cx else t' = t.
Proof.
  intros Th C f. induction flags as [|b flags IH]; intros ctxs base k L1 L2 j t H; destruct base as [|t0 base]; try discriminate; [destruct j; discriminate|].
  destruct ctxs as [|cx ctxs]; [discriminate|]. cbn in L1, L2. destruct b.
  - change (masked (true :: flags) (cx :: ctxs)) with (cx :: masked flags ctxs). cbn [length seq combine map put].
    destruct j as [|j]; cbn [nth_error nth]; [eauto 6|]. apply IH; [lia|lia|exact H].
  - change (masked (false :: flags) (cx :: ctxs)) with (masked flags ctxs). cbn [put].
    destruct j as [|j]; cbn [nth_error nth]; [cbn in H; eauto|]. apply IH; [lia|lia|exact H].
Qed.

Lemma masked_length : forall (C : Type) flags (l : list C), length l = length flags -> length (masked flags l) = length (filter (fun b => b) flags).
Proof.
  intros C. induction flags as [|b flags IH]; intros l L; destruct l as [|x l]; try discriminate; [reflexivity|].
  destruct b; [change (masked (true :: flags) (x :: l)) with (x :: masked flags l)|change (masked (false :: flags) (x :: l)) with (masked flags l)]; cbn [filter length]; rewrite IH; auto.
Qed.

Lemma filter_short : forall flags : list bool, In false flags -> length (filter (fun b => b) flags) < length flags.
Proof.
  induction flags as [|b flags IH]; intros H; [destruct H|]. destruct H as [->|H].
  - cbn. clear. induction flags as [|b flags IH]; [cbn; lia|]. destruct b; cbn; lia.
  - specialize (IH H). destruct b; cbn; lia.
Qed.

Lemma combine_at : forall (A B : Type) (l : list A) (m : list B) j x y, nth_error l j = Some x -> nth_error m j = Some y -> nth_error (combine l m) j = Some (x, y).
Proof. induction l as [|a l IH]; intros m j x y H1 H2; destruct m, j; try discriminate; cbn in *; [congruence|]; auto. Qed.

Lemma nth_of : forall (A : Type) (l : list A) j d x, nth_error l j = Some x -> nth j l d = x.
Proof. intros. apply List.nth_error_nth. assumption. Qed.

Lemma at_some : forall (A : Type) (l : list A) n j, length l = n -> j < n -> exists x, nth_error l j = Some x.
Proof. intros A l n j L J. destruct (nth_error l j) eqn:Q; [eauto|]. apply nth_error_None in Q. lia. Qed.

Section Bb.
Context {E X A D Th C : Type}.
Notation vsample := (CoreModel.sample (bool * X) A R unit).
Notation bag := (bagent D Th).
Variable n : nat.
Variable hor : option nat.
Variable garb : nat -> nat -> nat -> bool.
Variable e_reset : E -> E * X.
Variable e_step : E -> A -> E * X * R * bool.
Variable sample : D -> nat -> C -> Th.
Variable mean : D -> list C -> list Th.
Variable pol : Th -> nat -> X -> A.
Variable w0 : Th.
Variable upd : D -> list vsample -> list Th -> D.
Hypothesis Hn : 2 <= n.
Hypothesis Hhor : hor <> Some 0.
Notation dr mp bld det := (bb_draw mp bld det sample mean pol w0).
Notation ft := (bb_fit n upd).
Notation hist mp bld det := (history n (t_reset e_reset) (t_step e_step) (dr mp bld det) ft).
Notation lrn mp bld det := (vbb_learn n hor garb e_reset e_step mp bld det sample mean pol w0 upd).

(** ** Specification *)
(** A whole episode. *)
Definition whole (ep : list vsample) : Prop :=
  exists u z, ep = u ++ [z] /\ Forall (fun x => CoreModel.last x = false) u /\ CoreModel.last z = true.

(** The parameters [t] were drawn, with the distribution [D], in the context of the first state of
    the episode, and every action of the episode was drawn by the policy with the parameters [t]
    in the state of its step. *)
Definition made_by (c : X -> C) (dist : D) (t : Th) (ep : list vsample) : Prop :=
  exists first rest i, ep = first :: rest /\ t = sample dist i (c (snd (CoreModel.state first))) /\
    Forall (fun x => exists m, CoreModel.action x = pol t m (snd (CoreModel.state x))) ep.

(** ** Marks *)
Lemma bb_draw_len : forall mp bld det (a : bag) xs, length (snd (dr mp bld det a xs)) = length xs.
Proof. intros. cbn. rewrite map_length, combine_length, seq_length, map_length. lia. Qed.

Definition mark (j : nat) (q : option nat) (es : list (E * (bool * X))) : Prop :=
  exists e f o, nth_error es j = Some (e, (f, o)) /\ (f = true <-> q = Some 0).

Lemma marks : forall (Ag : Type) (draw : Ag -> list (bool * X) -> Ag * list A) fitf j es0 a0 l c, j < n ->
  history n (t_reset e_reset) (t_step e_step) draw fitf (es0, a0) l c -> length es0 = n -> mark j None es0 ->
  length (fst c) = n /\ forall q, lives hor j None l q -> mark j q (fst c).
Proof.
  intros Ag draw fitf j es0 a0 l c J H L0 M0. remember (es0, a0) as c0 eqn:EC. induction H as [c|c l c1 ev c2 H IH HS]; subst c.
  - split; [exact L0|]. intros q Q. cbn in Q. subst q. exact M0.
  - destruct (IH eq_refl) as [L IQ]. clear IH. inversion HS; subst; cbn [fst] in *.
    + split; [assumption|]. intros q Q. apply lives_app in Q. destruct Q as (p & Q1 & Q2). destruct (IQ p Q1) as (e & f & o & N & F). cbn [lives] in Q2.
      match goal with Z : forall j e o, nth_error es j = Some (e, o) -> _ |- _ => specialize (Z j e (f, o) N); rename Z into NZ end.
      destruct (nth j m false).
      * destruct Q2 as [-> <-]. unfold t_reset in NZ. destruct (e_reset e) as [e' o']. exists e', true, o'. split; [exact NZ|]. tauto.
      * subst q. exists e, f, o. auto.
    + split; [assumption|]. intros q Q. apply lives_app in Q. destruct Q as (p & Q1 & Q2). destruct (IQ p Q1) as (e & f & o & N & F). cbn [lives] in Q2.
      match goal with Z : forall j e o, nth_error es j = Some (e, o) -> _ |- _ => specialize (Z j e (f, o) N); rename Z into NZ end.
      destruct (nth j row None) as [x|].
      * destruct NZ as (_ & _ & e' & ST & NZ). destruct Q2 as (b & -> & _ & <-). unfold t_step in ST. destruct (e_step e (CoreModel.action x)) as [[[e1 o1] r1] ab1].
        apply pair_equal_spec in ST as [ST _]. apply pair_equal_spec in ST as [ST _]. apply pair_equal_spec in ST as [_ ST].
        rewrite <- ST in NZ. exists e', false, o1. split; [exact NZ|]. split; [discriminate|]. destruct (CoreModel.last x); [discriminate|]. intros Q. exfalso. injection Q. lia.
      * destruct Q2 as [-> <-]. exists e, f, o. auto.
    + split; [assumption|]. intros q Q. apply lives_app in Q. destruct Q as (p & Q1 & Q2). cbn [lives] in Q2. subst q. apply IQ. exact Q1.
Qed.

Lemma tag_marks : forall es : list (E * X), length es = n -> length (tag es) = n /\ forall j, j < n -> mark j None (tag es).
Proof.
  intros es L. unfold tag. split; [rewrite map_length; exact L|]. intros j J. destruct (at_some _ es n j L J) as ([e o] & Q).
  exists e, false, o. split; [rewrite (map_nth_error _ _ _ Q); reflexivity|split; discriminate].
Qed.

(** ** One start of episodes *)
Lemma start_at : forall (c : X -> C) (a : bag) flags (obs : list X), length flags = n -> length obs = n -> length (b_w a) = n -> length (b_th a) = n ->
  let a' := bb_start true (Some c) false sample mean a flags obs in
  b_dist a' = b_dist a /\ b_ok a' = b_ok a /\ length (b_w a') = n /\ length (b_th a') = n /\
  forall j, j < n -> exists t, nth_error (b_w a') j = Some t /\
    if nth j flags false then (exists i o, nth_error obs j = Some o /\ t = sample (b_dist a) i (c o)) /\ nth j (b_th a') [] = nth j (b_th a) [] ++ [t]
    else nth_error (b_w a) j = Some t /\ nth j (b_th a') [] = nth j (b_th a) [].
Proof.
  intros c a flags obs LF LO LW LT.
  assert (Z : exists th, bb_theta true (Some c) false sample mean a flags obs = Some th /\ length th = n /\
    forall j, j < n -> exists t, nth_error th j = Some t /\ if nth j flags false then exists i o, nth_error obs j = Some o /\ t = sample (b_dist a) i (c o) else nth_error (b_w a) j = Some t).
  { unfold bb_theta. destruct (existsb (fun b => b) flags) eqn:EX.
    - eexists. split; [reflexivity|]. split; [rewrite put_length; exact LW|]. intros j J. destruct (at_some _ _ n j LW J) as (t0 & T0).
      destruct (put_at Th C (sample (b_dist a)) flags (map c obs) (b_w a) (b_draws a) ltac:(congruence) ltac:(rewrite map_length; congruence) j t0 T0) as (t & N & Q).
      exists t. split; [exact N|]. destruct (nth j flags false); [|subst t; exact T0]. destruct Q as (i & cx & Q & ->). rewrite nth_error_map in Q. destruct (nth_error obs j) as [o|] eqn:EO; [|discriminate].
      cbn in Q. injection Q as <-. eauto.
    - exists (b_w a). split; [reflexivity|]. split; [exact LW|]. intros j J. destruct (at_some _ _ n j LW J) as (t0 & T0). exists t0. split; [exact T0|].
      destruct (nth j flags false) eqn:F; [|exact T0]. exfalso. assert (existsb (fun b => b) flags = true); [|congruence]. apply existsb_exists. exists true. split; [|reflexivity]. rewrite <- F. apply nth_In. lia. }
  destruct Z as (th & ET & LTH & Z). unfold bb_start. rewrite ET. cbn zeta. cbn [b_dist b_ok b_w b_th]. split; [reflexivity|]. split; [reflexivity|]. split; [exact LTH|].
  split. { rewrite map_length, !combine_length. lia. }
  intros j J. destruct (Z j J) as (t & T & Q). exists t. split; [exact T|].
  destruct (at_some _ _ n j LF J) as (f & F). destruct (at_some _ _ n j LT J) as (tl & TL).
  rewrite (nth_of _ flags j false f F) in *. rewrite (nth_of _ _ j [] tl TL).
  assert (NT : nth j (map (fun p : bool * (Th * list Th) => if fst p then snd (snd p) ++ [fst (snd p)] else snd (snd p)) (combine flags (combine th (b_th a)))) [] = if f then tl ++ [t] else tl).
  { apply nth_of. rewrite (map_nth_error _ _ _ (combine_at _ _ _ _ _ _ _ F (combine_at _ _ _ _ _ _ _ T TL))). reflexivity. }
  rewrite NT. destruct f; auto.
Qed.

(** ** Between two fits *)
Definition seg (c : X -> C) (dist : D) (j : nat) (xs : list vsample) (q : option nat) (a : bag) : Prop :=
  exists eps cur, xs = concat eps ++ cur /\ Forall whole eps /\ Forall (fun x => CoreModel.last x = false) cur /\
  match q with
  | Some (S _) => exists ths t, nth j (b_th a) [] = ths ++ [t] /\ Forall2 (made_by c dist) ths eps /\ nth_error (b_w a) j = Some t /\ made_by c dist t cur
  | _ => cur = [] /\ Forall2 (made_by c dist) (nth j (b_th a) []) eps
  end.

Definition sized (a : bag) : Prop := length (b_w a) = n /\ length (b_th a) = n.

Lemma run_sized : forall c es0 a0 l cf, hist true (Some c) false (es0, a0) l cf -> sized a0 -> sized (snd cf) /\ b_ok (snd cf) = b_ok a0.
Proof.
  intros c es0 a0 l cf H S0. remember (es0, a0) as c0 eqn:EC. induction H as [cc|cc l c1 ev c2 H IH HS]; subst cc; [split; [exact S0|reflexivity]|].
  destruct (IH eq_refl) as [[S1 S2] OK]. inversion HS; subst; cbn [snd] in *.
  - split; [split|]; assumption.
  - match goal with Q : bb_draw _ _ _ _ _ _ _ _ _ = _ |- _ => rename Q into DQ end. unfold bb_draw in DQ. apply pair_equal_spec in DQ as [<- _].
    destruct (start_at c a (map fst (map snd es)) (map snd (map snd es)) ltac:(rewrite !map_length; assumption) ltac:(rewrite !map_length; assumption) S1 S2) as (_ & Q1 & Q2 & Q3 & _).
    unfold sized. cbn [b_w b_th b_ok]. rewrite Q1. auto.
  - unfold sized, bb_fit. cbn [b_w b_th b_ok]. rewrite repeat_length. auto.
Qed.

Lemma of_env_snoc : forall j (l : list (xevent (bool * X) A)) ev, of_env j (l ++ [ev]) = of_env j l ++ of_env j [ev].
Proof. intros. unfold of_env. rewrite rows_of_app, flat_map_app. reflexivity. Qed.

Lemma run_seg : forall c es0 a0 j l cf, hist true (Some c) false (es0, a0) l cf -> j < n -> sized a0 -> length es0 = n -> mark j None es0 -> nth j (b_th a0) [] = [] -> xfits_of l = [] ->
  b_dist (snd cf) = b_dist a0 /\ forall q, lives hor j None l q -> seg c (b_dist a0) j (of_env j l) q (snd cf).
Proof.
  intros c es0 a0 j l cf H J S0 L0 M0 T0. remember (es0, a0) as c0 eqn:EC. induction H as [cc|cc l c1 ev c2 H IH HS]; subst cc; intros NF.
  - split; [reflexivity|]. intros q Q. cbn in Q. subst q. exists [], []. cbn. rewrite T0. repeat split; constructor.
  - assert (NF1 : xfits_of l = [] /\ xfits_of [ev] = []). { unfold xfits_of in *. rewrite flat_map_app in NF. apply app_eq_nil in NF. exact NF. }
    destruct NF1 as [NF1 NF2]. destruct (IH eq_refl NF1) as [ID IQ]. clear IH.
    destruct (run_sized c es0 a0 l c1 H S0) as [[S1 S2] _]. destruct (marks _ _ _ j es0 a0 l c1 J H L0 M0) as [L1 MK].
    inversion HS; subst; cbn [fst snd] in *.
    + split; [exact ID|]. intros q Q. apply lives_app in Q. destruct Q as (p & Q1 & Q2). specialize (IQ p Q1). cbn [lives] in Q2.
      rewrite of_env_snoc. change (of_env j [XReset m]) with (@nil vsample). rewrite app_nil_r. destruct (nth j m false); [destruct Q2 as [-> <-]; exact IQ|subst q; exact IQ].
    + match goal with Q : bb_draw _ _ _ _ _ _ _ _ _ = _ |- _ => rename Q into DQ end. unfold bb_draw in DQ. apply pair_equal_spec in DQ as [<- <-].
      destruct (start_at c a (map fst (map snd es)) (map snd (map snd es)) ltac:(rewrite !map_length; assumption) ltac:(rewrite !map_length; assumption) S1 S2) as (B1 & _ & _ & _ & B).
      set (a1 := bb_start true (Some c) false sample mean a (map fst (map snd es)) (map snd (map snd es))) in *.
      cbn [b_dist b_w b_th]. split; [congruence|]. intros q Q. apply lives_app in Q. destruct Q as (p & Q1 & Q2). specialize (IQ p Q1). destruct (MK p Q1) as (e & f & o & N & F).
      match goal with Z : forall j e o, nth_error es j = Some (e, o) -> _ |- _ => specialize (Z j e (f, o) N); rename Z into NZ end.
      destruct (B j J) as (t & T & BJ).
      assert (NFL : nth j (map fst (map snd es)) false = f). { apply nth_of. rewrite map_map. rewrite (map_nth_error _ _ _ N). reflexivity. }
      assert (NOB : nth_error (map snd (map snd es)) j = Some o). { rewrite map_map. rewrite (map_nth_error _ _ _ N). reflexivity. }
      rewrite NFL in BJ. rewrite of_env_snoc. unfold of_env at 2. cbn [rows_of flat_map app]. cbn [lives] in Q2. rewrite !app_nil_r.
      destruct IQ as (eps & cur & XS & WH & CU & IQ). destruct (nth j row None) as [x|].
      * destruct NZ as (ST & AC & _). destruct Q2 as (b & -> & LX & <-).
        assert (ACT : CoreModel.action x = pol t (b_acts a1 + j) o).
        { rewrite nth_error_map in AC. rewrite (combine_at _ _ _ _ j j o) in AC; [|rewrite nth_error_nth' with (d := 0) by (rewrite seq_length, map_length; lia); rewrite seq_nth by (rewrite map_length; lia); reflexivity|exact NOB].
          cbn in AC. rewrite (nth_of _ _ _ _ _ T) in AC. congruence. }
        assert (KEY : exists ths t', nth j (b_th a1) [] = ths ++ [t'] /\ Forall2 (made_by c (b_dist a0)) ths eps /\ nth_error (b_w a1) j = Some t' /\ made_by c (b_dist a0) t' (cur ++ [x])).
        { destruct b as [|b].
          - destruct IQ as [-> IQ]. rewrite (proj2 F eq_refl) in BJ. destruct BJ as [(i & o' & NO & TS) TH]. rewrite NOB in NO. injection NO as <-.
            exists (nth j (b_th a) []), t. split; [exact TH|]. split; [exact IQ|]. split; [exact T|]. exists x, [], i. split; [reflexivity|]. rewrite ST. cbn [snd]. split; [rewrite <- ID; exact TS|].
            constructor; [|constructor]. exists (b_acts a1 + j). rewrite ST. exact ACT.
          - assert (FF : f = false) by (destruct f; [pose proof (proj1 F eq_refl); discriminate|reflexivity]). rewrite FF in BJ. destruct BJ as [WJ TH]. destruct IQ as (ths & t' & TT & F2 & WT & MB).
            rewrite WT in WJ. injection WJ as ->. exists ths, t. rewrite TH. split; [exact TT|]. split; [exact F2|]. split; [exact T|].
            destruct MB as (fi & re & i & -> & TS & FA). exists fi, (re ++ [x]), i. split; [reflexivity|]. split; [exact TS|]. apply (proj2 (Forall_app _ (fi :: re) [x])). split; [exact FA|]. constructor; [|constructor].
            exists (b_acts a1 + j). rewrite ST. exact ACT. }
        destruct KEY as (ths & t' & K1 & K2 & K3 & K4). destruct (CoreModel.last x) eqn:EL.
        -- exists (eps ++ [cur ++ [x]]), []. rewrite XS, concat_app. cbn [concat]. rewrite !app_nil_r, app_assoc. split; [reflexivity|].
           split. { apply Forall_app. split; [exact WH|]. constructor; [|constructor]. exists cur, x. auto. }
           split; [constructor|]. split; [reflexivity|]. cbn [b_th]. rewrite K1. apply Forall2_app; [exact K2|]. constructor; [exact K4|constructor].
        -- exists eps, (cur ++ [x]). rewrite XS, app_assoc. split; [reflexivity|]. split; [exact WH|].
           split. { apply Forall_app. split; [exact CU|]. constructor; [exact EL|constructor]. }
           rewrite Nat.add_1_r. exists ths, t'. auto.
      * destruct Q2 as [-> <-]. assert (FF : f = false) by (destruct f; [pose proof (proj1 F eq_refl); discriminate|reflexivity]). rewrite FF in BJ. destruct BJ as [WJ TH]. destruct IQ as [-> IQ].
        rewrite app_nil_r. exists eps, []. split; [exact XS|]. split; [exact WH|]. split; [constructor|]. split; [reflexivity|]. cbn [b_th]. rewrite TH. exact IQ.
    + exfalso. cbn in NF2. discriminate.
Qed.

(** ** Fits *)
Lemma history_app_bb : forall (Ag : Type) (draw : Ag -> list (bool * X) -> Ag * list A) fitf c a b c2,
  history n (t_reset e_reset) (t_step e_step) draw fitf c (a ++ b) c2 -> exists c1, history n (t_reset e_reset) (t_step e_step) draw fitf c a c1 /\ history n (t_reset e_reset) (t_step e_step) draw fitf c1 b c2.
Proof.
  intros Ag draw fitf c a b. induction b as [|y b IH] using rev_ind; intros c2 H.
  - rewrite app_nil_r in H. exists c2. split; [exact H|constructor].
  - rewrite app_assoc in H. inversion H as [c' E1 E2 E3|c' l c1 ev c2' H1 H2 E1 E2 E3].
    + exfalso. destruct (a ++ b); discriminate.
    + apply app_inj_tail in E2. destruct E2 as [-> ->]. destruct (IH c1 H1) as (c3 & A1 & A2). exists c3. split; [exact A1|]. econstructor; eauto.
Qed.

Lemma history_last : forall (Ag : Type) (draw : Ag -> list (bool * X) -> Ag * list A) fitf c u ev c2,
  history n (t_reset e_reset) (t_step e_step) draw fitf c (u ++ [ev]) c2 -> exists c1, history n (t_reset e_reset) (t_step e_step) draw fitf c u c1 /\ happens n (t_reset e_reset) (t_step e_step) draw fitf c1 ev c2.
Proof.
  intros Ag draw fitf c u ev c2 H. inversion H as [c' E1 E2 E3|c' l c1 ev' c2' H1 H2 E1 E2 E3]; [exfalso; destruct u; discriminate|].
  apply app_inj_tail in E2. destruct E2 as [-> ->]. eauto.
Qed.

Lemma count_whole : forall eps : list (list vsample), Forall whole eps -> count_last (@CoreModel.last (bool * X) A R unit) (concat eps) = length eps.
Proof.
  intros eps H. induction H as [|ep eps (u & z & -> & F & Z) H IH]; [reflexivity|]. cbn [concat length]. rewrite count_last_app, IH, count_last_app.
  unfold count_last. cbn [filter]. rewrite Z. cbn [length].
  assert (Q : filter (@CoreModel.last (bool * X) A R unit) u = []); [|rewrite Q; reflexivity]. clear - F. induction F as [|x u Q F IH]; [reflexivity|]. cbn. rewrite Q. exact IH.
Qed.

Lemma flat_nth : forall (l : list (list Th)), flat_map (fun j => nth j l []) (seq 0 (length l)) = concat l.
Proof.
  intros l. enough (G : forall s, flat_map (fun j => nth (j - s) l []) (seq s (length l)) = concat l).
  { rewrite <- (G 0). apply flat_map_ext. intros j. rewrite Nat.sub_0_r. reflexivity. }
  induction l as [|x l IH]; intros s; [reflexivity|]. cbn [length seq flat_map concat]. rewrite Nat.sub_diag. cbn [nth]. f_equal.
  rewrite <- (IH (S s)). apply flat_map_ext_in. intros j Hj. apply in_seq in Hj. replace (j - s) with (S (j - S s)) by lia. reflexivity.
Qed.

(** C126.  A contextual black-box agent trained by VectorCore with environments whose episode
    information is a mapping, and a fit every k episodes: the
    call returns and raises nothing, and every fit gets k whole episodes with k parameters, in the
    same order: the parameters of an episode were drawn with the current distribution in the
    context of the first state of that episode, and all actions of the episode are the policy's
    with these parameters. *)
Theorem vec_bb_fits : forall c fuel l es a ns ne k, 1 <= k -> length es = n -> length (b_w a) = n -> covered n hor k ns ne None (Some k) ->
  lrn true (Some c) false fuel l es a ns ne None (Some k) <> XCrash /\
  (enough hor fuel ns ne -> exists s, lrn true (Some c) false fuel l es a ns ne None (Some k) = XDone s) /\
  forall s, lrn true (Some c) false fuel l es a ns ne None (Some k) = XDone s ->
    b_ok (x_ag s) = b_ok a /\
    forall u d v, x_ev s = u ++ XFit d :: v ->
    exists a0 es1 a1 eps, b_dist a0 = b_dist a /\ hist true (Some c) false (tag es, a0) u (es1, a1) /\
      hist true (Some c) false (tag es, a0) (u ++ [XFit d]) (es1, ft a1 d) /\
      hist true (Some c) false (es1, ft a1 d) v (x_env s, x_ag s) /\
      d = concat eps /\ length eps = k /\ Forall whole eps /\
      Forall2 (made_by c (b_dist a1)) (concat (b_th a1)) eps.
Proof.
  intros c fuel l es a ns ne k Hk Hes HW HC. unfold vbb_learn. set (a0 := mkBA _ _ _ _ _ _).
  destruct (tag_marks es Hes) as [LT MT].
  destruct (vec_learn_history n hor garb (t_reset e_reset) (t_step e_step) (dr true (Some c) false) ft Hn Hhor (bb_draw_len true (Some c) false) fuel l (tag es) a0 ns ne None (Some k) k Hk LT HC) as (NC & EN & HS).
  split; [exact NC|]. split; [exact EN|]. intros s HD. destruct (HS s HD) as (HH & _ & HF & _ & HE). destruct (HE eq_refl) as [CK WL].
  assert (S0 : sized a0). { split; cbn; [exact HW|apply repeat_length]. }
  destruct (run_sized c _ _ _ _ HH S0) as [_ OK]. split; [exact OK|]. intros u d v EQ.
  destruct (HF u d v EQ) as (u0 & w & EU & U0 & NW & EDt).
  assert (HH' := HH). rewrite EQ in HH'. apply (history_app_bb _ _ _ _ u (XFit d :: v)) in HH'. destruct HH' as ([es1 a1] & H1 & H2).
  apply (history_app_bb _ _ _ _ [XFit d] v) in H2. destruct H2 as (c3 & H2 & H3).
  assert (C3 : c3 = (es1, ft a1 d)). { apply (history_last _ _ _ _ []) in H2. destruct H2 as (cc & Q1 & Q2). inversion Q1 as [z Z1 Z2|]; [|exfalso; destruct l0; discriminate]. subst. inversion Q2; subst. reflexivity. }
  subst c3. exists a0, es1, a1.
  assert (HP : exists es2 a2, hist true (Some c) false (tag es, a0) u0 (es2, a2) /\ hist true (Some c) false (es2, a2) w (es1, a1)).
  { rewrite EU in H1. apply (history_app_bb _ _ _ _ u0 w) in H1. destruct H1 as ([es2 a2] & Q1 & Q2). eauto. }
  destruct HP as (es2 & a2 & P1 & P2).
  assert (LV0 : forall j, j < n -> lives hor j None u0 None).
  { intros j J. destruct U0 as [->|(u1 & d1 & ->)]; [reflexivity|]. apply lives_app. exists None. split; [|reflexivity].
    apply (WL u1 d1 (w ++ XFit d :: v)); [|exact J]. rewrite EQ, EU, <- !app_assoc. reflexivity. }
  assert (T2 : forall j, nth j (b_th a2) [] = []).
  { intros j. destruct U0 as [->|(u1 & d1 & ->)].
    - inversion P1 as [z Z1 Z2|]; [|exfalso; destruct l0; discriminate]. subst. cbn [a0 b_th]. apply (nth_repeat (@nil Th)).
    - apply history_last in P1. destruct P1 as ([es3 a3] & Q1 & Q2). inversion Q2; subst. cbn [bb_fit b_th]. apply (nth_repeat (@nil Th)). }
  destruct (run_sized c _ _ _ _ P1 S0) as [S2 _]. cbn [snd] in S2. destruct (run_sized c _ _ _ _ P2 S2) as [[S3 S4] _]. cbn [snd] in S3, S4.
  assert (MK2 : length es2 = n /\ forall j, j < n -> mark j None es2).
  { split; [exact (proj1 (marks _ _ _ 0 _ _ _ _ ltac:(lia) P1 LT (MT 0 ltac:(lia))))|]. intros j J. exact (proj2 (marks _ _ _ j _ _ _ _ J P1 LT (MT j J)) None (LV0 j J)). }
  destruct MK2 as [L2 MK2].
  assert (LW : forall j, j < n -> lives hor j None w None).
  { intros j J. pose proof (WL u d v EQ j J) as Q. rewrite EU in Q. apply lives_app in Q. destruct Q as (m & Q1 & Q2). rewrite (lives_det hor j _ _ _ _ Q1 (LV0 j J)) in Q2. exact Q2. }
  assert (DD : b_dist a1 = b_dist a2). { exact (proj1 (run_seg c es2 a2 0 w (es1, a1) P2 ltac:(lia) S2 L2 (MK2 0 ltac:(lia)) (T2 0) NW)). }
  assert (COL : exists eps, d = concat eps /\ Forall whole eps /\ Forall2 (made_by c (b_dist a1)) (concat (b_th a1)) eps).
  { rewrite EDt. unfold by_env. rewrite <- (flat_nth (b_th a1)), S4.
    assert (B : forall j, In j (seq 0 n) -> j < n) by (intros j Q; apply in_seq in Q; lia). revert B. generalize (seq 0 n) as js. induction js as [|j js IH]; intros B; [exists []; repeat split; constructor|].
    destruct IH as (eps & EI & W1 & W2); [intros i Q; apply B; right; exact Q|]. assert (J : j < n) by (apply B; left; reflexivity).
    destruct (proj2 (run_seg c es2 a2 j w (es1, a1) P2 J S2 L2 (MK2 j J) (T2 j) NW) None (LW j J)) as (eps1 & cur & XS & W3 & _ & -> & W4). cbn [snd] in W4.
    exists (eps1 ++ eps). cbn [flat_map]. rewrite EI, (lives_closed hor j w None (LW j J)), XS, app_nil_r, concat_app. split; [reflexivity|]. split; [apply Forall_app; auto|].
    rewrite DD. apply Forall2_app; [exact W4|]. rewrite <- DD. exact W2. }
  destruct COL as (eps & E1 & E2 & E3). exists eps. split; [reflexivity|]. split; [exact H1|].
  split. { econstructor; [exact H1|constructor]. }
  split; [exact H3|]. split; [exact E1|]. split; [|split; [exact E2|exact E3]].
  rewrite <- (count_whole eps E2), <- E1. rewrite Forall_forall in CK. apply CK. rewrite EQ. unfold xfits_of. rewrite flat_map_app. apply in_or_app. right. left. reflexivity.
Qed.

(** ** Without contexts *)
Lemma start_raises : forall mp (bld : option (X -> C)) det (a : bag) flags (obs : list X), mp = false \/ bld = None -> In true flags -> b_ok (bb_start mp bld det sample mean a flags obs) = false.
Proof.
  intros mp bld det a flags obs B H. unfold bb_start, bb_theta. assert (Q : existsb (fun b => b) flags = true) by (apply existsb_exists; eauto). rewrite Q. destruct B as [->|B]; [reflexivity|]. rewrite B. destruct mp; reflexivity.
Qed.
Lemma start_sticks : forall mp bld det (a : bag) flags (obs : list X), b_ok a = false -> b_ok (bb_start (C := C) mp bld det sample mean a flags obs) = false.
Proof. intros mp bld det a flags obs H. unfold bb_start. destruct (bb_theta _ _ _ _ _ _ _ _); cbn; auto. Qed.

Lemma run_raises : forall mp (bld : option (X -> C)) det es0 a0 j l cf, mp = false \/ bld = None -> hist mp bld det (es0, a0) l cf -> j < n -> length es0 = n -> mark j None es0 ->
  forall q, lives hor j None l q -> (of_env j l <> [] \/ (exists b, q = Some (S b)) -> b_ok (snd cf) = false).
Proof.
  intros mp bld det es0 a0 j l cf B H J L0 M0. remember (es0, a0) as c0 eqn:EC. induction H as [cc|cc l c1 ev c2 H IH HS]; subst cc; intros q Q HQ.
  - cbn in Q. subst q. destruct HQ as [HQ|(b & HQ)]; [destruct HQ; reflexivity|discriminate].
  - specialize (IH eq_refl). destruct (marks _ _ _ j es0 a0 l c1 J H L0 M0) as [L1 MK]. apply lives_app in Q. destruct Q as (p & Q1 & Q2). specialize (IH p Q1).
    rewrite of_env_snoc in HQ. inversion HS; subst; cbn [fst snd] in *.
    + change (of_env j [XReset m]) with (@nil vsample) in HQ. rewrite app_nil_r in HQ. apply IH. destruct HQ as [HQ|(b & ->)]; [auto|]. cbn [lives] in Q2. destruct (nth j m false); [destruct Q2; discriminate|]. right. eauto.
    + match goal with Q : bb_draw _ _ _ _ _ _ _ _ _ = _ |- _ => rename Q into DQ end. unfold bb_draw in DQ. apply pair_equal_spec in DQ as [<- <-]. cbn [b_ok].
      destruct (MK p Q1) as (e & f & o & N & F). cbn [lives] in Q2. unfold of_env at 2 in HQ. cbn [rows_of flat_map app] in HQ. destruct (nth j row None) as [x|].
      * destruct Q2 as (b & -> & _). destruct b as [|b]; [|apply start_sticks, IH; right; eauto].
        apply start_raises; [exact B|]. rewrite (proj2 F eq_refl) in N. rewrite map_map. apply nth_error_In with (n := j). rewrite (map_nth_error _ _ _ N). reflexivity.
      * destruct Q2 as [-> <-]. destruct HQ as [HQ|(b & HQ)]; [|discriminate]. cbn in HQ. rewrite app_nil_r in HQ. apply start_sticks, IH. auto.
    + cbn [lives] in Q2. subst q. change (of_env j [XFit d]) with (@nil vsample) in HQ. rewrite app_nil_r in HQ. cbn. apply IH. exact HQ.
Qed.

(** With episode information in a list, as all environments of the library give it, or with the
    context builder that every algorithm has by default, no training is possible under VectorCore:
    whatever the environments, the policy and the schedule, the exception comes before the first
    transition is made. *)
Theorem vec_bb_never_starts_refuted : forall mp (bld : option (X -> C)) det fuel l es a ns ne spf epf k s, mp = false \/ bld = None -> 1 <= k -> length es = n -> covered n hor k ns ne spf epf ->
  lrn mp bld det fuel l es a ns ne spf epf = XDone s ->
  forall u row v x, x_ev s = u ++ XStep row :: v -> In (Some x) row ->
  exists a0 es1 a1, hist mp bld det (tag es, a0) (u ++ [XStep row]) (es1, a1) /\ b_ok a1 = false.
Proof.
  intros mp bld det fuel l es a ns ne spf epf k s BB Hk Hes HC HD u row v x EQ HI. unfold vbb_learn in HD. set (a0 := mkBA _ _ _ _ _ _) in HD. exists a0.
  destruct (tag_marks es Hes) as [LT MT].
  destruct (vec_learn_history n hor garb (t_reset e_reset) (t_step e_step) (dr mp bld det) ft Hn Hhor (bb_draw_len mp bld det) fuel l (tag es) a0 ns ne spf epf k Hk LT HC) as (_ & _ & HS).
  destruct (HS s HD) as (HH & LV & _). apply In_nth with (d := None) in HI. destruct HI as (j & J & HJ).
  replace (u ++ XStep row :: v) with ((u ++ [XStep row]) ++ v) in EQ by (rewrite <- app_assoc; reflexivity). rewrite EQ in HH.
  apply history_app_bb in HH. destruct HH as ([es1 a1] & H1 & _). exists es1, a1. split; [exact H1|].
  assert (LR : length row = n). { apply history_last in H1. destruct H1 as (cc & _ & Q). inversion Q; subst. assumption. }
  assert (J' : j < n) by lia. destruct (LV j J') as (q & Q). rewrite EQ in Q. apply lives_app in Q. destruct Q as (m & Q & _).
  apply (run_raises mp bld det (tag es) a0 j (u ++ [XStep row]) (es1, a1) BB H1 J' LT (MT j J') m Q). left. rewrite of_env_snoc. unfold of_env at 2. cbn [rows_of flat_map app]. rewrite HJ. destruct (of_env j u); discriminate.
Qed.

(** With contexts and the deterministic flag, used to evaluate, an exception comes whenever some
    environments but not all of them start an episode. *)
Theorem vec_bb_deterministic_refuted : forall mp (c : X -> C) (a : bag) flags obs, length obs = length flags -> In true flags -> In false flags ->
  bb_theta mp (Some c) true sample mean a flags obs = None.
Proof.
  intros mp c a flags obs L H1 H2. unfold bb_theta. assert (Q : existsb (fun b => b) flags = true) by (apply existsb_exists; eauto). rewrite Q.
  destruct mp; [|reflexivity]. cbn [negb]. rewrite masked_length by (rewrite map_length; exact L). rewrite (proj2 (Nat.eqb_neq _ _)); [reflexivity|]. pose proof (filter_short flags H2). lia.
Qed.
End Bb.

(** Two environments, the first with episodes of one step and the second of two; contexts are the
    observations, parameters keep the distribution, the number of the draw and the context, and
    the action shows them.  A fit every three episodes: the list of parameters, environment by
    environment, is that of the episodes. *)
Definition zreset (e : nat * nat) : (nat * nat) * nat := ((fst e, S (snd e)), 100 * fst e + 10 * S (snd e)).
Definition zstep (e : nat * nat) (_ : nat * nat * nat) : (nat * nat) * nat * R * bool := (e, 100 * fst e + 10 * snd e + 1, 1%R, fst e =? 0).
Definition zsample (d i c : nat) := (d, i, c).
Definition zlearn (mp : bool) (bld : option (nat -> nat)) := vbb_learn 2 (Some 2) (fun _ _ _ => false) zreset zstep mp bld false zsample (fun d cs => map (fun c => (d, 0, c)) cs)
  (fun t _ (_ : nat) => t) (9, 9, 9) (fun d _ ths => d + length ths) 12 VecCoreModel.fresh_logic [((0, 0), 0); ((1, 0), 0)]
  (mkBA 0 [(9, 9, 9); (9, 9, 9)] [] 0 0 true) None (Some 6) None (Some 3).
Example vec_bb_ex : exists s, zlearn true (Some (fun x => x)) = XDone s /\
  map (map (fun x => (snd (CoreModel.state x), CoreModel.action x))) (xfits_of (x_ev s)) =
    [[(10, (0, 0, 10)); (20, (0, 2, 20)); (110, (0, 1, 110)); (111, (0, 1, 110))];
     [(30, (3, 3, 30)); (40, (3, 5, 40)); (120, (3, 4, 120)); (121, (3, 4, 120))]] /\
  b_dist (x_ag s) = 6 /\ b_ok (x_ag s) = true.
Proof. eexists. split; [lazy -[IZR]; reflexivity|]. repeat split. Qed.

Example vec_bb_never_starts_ex : exists s, zlearn false (Some (fun x => x)) = XDone s /\ length (rows_of (x_ev s)) = 4 /\ b_ok (x_ag s) = false.
Proof. eexists. split; [lazy -[IZR]; reflexivity|]. repeat split. Qed.

Example vec_bb_deterministic_ex :
  bb_theta true (Some (fun x : nat => x)) true zsample (fun d cs => map (fun c => (d, 0, c)) cs) (mkBA 0 [(9, 9, 9); (8, 8, 8)] [[]; []] 0 0 true) [true; false] [5; 6] = None /\
  bb_theta true (Some (fun x : nat => x)) true zsample (fun d cs => map (fun c => (d, 0, c)) cs) (mkBA 0 [(9, 9, 9); (8, 8, 8)] [[]; []] 0 0 true) [true; true] [5; 6] = Some [(0, 0, 5); (0, 0, 6)] /\
  bb_theta true (Some (fun x : nat => x)) false zsample (fun d cs => []) (mkBA 0 [(9, 9, 9); (8, 8, 8)] [[]; []] 0 0 true) [true; false] [5; 6] = Some [(0, 0, 5); (8, 8, 8)].
Proof. repeat split. Qed.

Print Assumptions vec_bb_fits.
Print Assumptions vec_bb_never_starts_refuted.
Print Assumptions vec_bb_deterministic_refuted.

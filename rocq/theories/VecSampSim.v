(** Proofs for C119: an iteration of VectorCore, environment by environment. *)
From Coq Require Import List Arith Lia Bool Reals.
From Verif Require Import Common EpisodeSpec VecCoreModel VecCoreSpec VecCoreProofs VecLearnModel VecLearnSpec VecLearnProofs SampModel VecSampModel VecSampProofs.
From Verif Require CoreModel.
Import ListNotations.
Local Open Scope nat_scope.

Section Lists.
Context {St Ac A0 Oe Oa : Type}.
Variables (de : Oe) (da : Oa).
Variable init : Oe -> St.
Variable out : St -> Ac -> Oe -> St * R * bool.
Variable pol : A0 -> St -> Oa -> Ac.
Variable h : nat.
Notation row := (CoreModel.sample St Ac R unit).

Lemma pop_nth : forall B (d : B) t, pop d t = (nth 0 t d, skipn 1 t).
Proof. intros B d [|x t]; reflexivity. Qed.
Lemma nth_skip1 : forall B (d : B) j t, nth j (skipn 1 t) d = nth (S j) t d.
Proof. intros B d j [|x t]; [destruct j; reflexivity|reflexivity]. Qed.
Lemma skip_skip1 : forall B j (t : list B), skipn j (skipn 1 t) = skipn (S j) t.
Proof. intros B j [|x t]; [destruct j; reflexivity|reflexivity]. Qed.

Lemma draw_all_nth : forall g xs ta, fst (draw_all da pol g ta xs) = skipn (length xs) ta /\ length (snd (draw_all da pol g ta xs)) = length xs /\
  forall j x, nth_error xs j = Some x -> nth_error (snd (draw_all da pol g ta xs)) j = Some (pol g x (nth j ta da)).
Proof.
  intros g. induction xs as [|x xs IH]; intros ta; cbn [draw_all].
  - repeat split. intros j x H. destruct j; discriminate.
  - rewrite pop_nth. destruct (IH (skipn 1 ta)) as (H1 & H2 & H3). destruct (draw_all da pol g (skipn 1 ta) xs) as [ta2 acts]. cbn [fst snd length] in *.
    split; [rewrite H1; apply skip_skip1|]. split; [lia|]. intros [|j] y H; cbn in H |- *; [injection H as <-; reflexivity|].
    rewrite (H3 j y H), nth_skip1. reflexivity.
Qed.

Lemma pass_nth : forall g ws sls tes ta, length ws = length sls -> length tes = length sls ->
  let '(o, ts, ta') := pass de da init out pol h g ws sls tes ta in
  ta' = skipn (length sls) ta /\ length o = length sls /\ length ts = length sls /\
  forall j a sl te, nth_error ws j = Some a -> nth_error sls j = Some sl -> nth_error tes j = Some te ->
    nth_error o j = Some (env1 init out pol h g a sl (nth j ta da) (nth 0 te de) (nth 1 te de)) /\ nth_error ts j = Some (skipn (used a sl) te).
Proof.
  intros g. induction ws as [|a ws IH]; intros [|sl sls] [|te tes] ta L1 L2; try discriminate; cbn [pass].
  - repeat split; destruct j; discriminate.
  - rewrite pop_nth. specialize (IH sls tes (skipn 1 ta) ltac:(cbn in *; lia) ltac:(cbn in *; lia)).
    destruct (pass de da init out pol h g ws sls tes (skipn 1 ta)) as [[o ts] ta2]. destruct IH as (H1 & H2 & H3 & H4).
    split; [rewrite H1; apply skip_skip1|]. split; [cbn; lia|]. split; [cbn; lia|]. intros [|j] a' sl' te' E1 E2 E3; cbn in E1, E2, E3 |- *.
    + injection E1 as <-. injection E2 as <-. injection E3 as <-. split; reflexivity.
    + destruct (H4 j a' sl' te' E1 E2 E3) as [-> ->]. rewrite nth_skip1. split; reflexivity.
Qed.

Lemma closed_end : forall (b : list row) x, CoreModel.last x = true -> closed (b ++ [x]) = b ++ [x].
Proof. intros b x L. rewrite closed_snoc, <- L, with_last_id. reflexivity. Qed.
Lemma closed_concat : forall d : list (list row), Forall (is_episode (@CoreModel.last St Ac R unit)) d -> closed (concat d) = concat d.
Proof.
  intros d F. destruct d as [|e d _] using rev_ind; [reflexivity|]. apply Forall_app in F as [_ F]. inversion F as [|? ? (b & x & -> & L & _) _].
  rewrite concat_app. cbn [concat]. rewrite app_nil_r, app_assoc. apply closed_end. exact L.
Qed.

Lemma count_concat : forall d : list (list row), Forall (is_episode (@CoreModel.last St Ac R unit)) d ->
  length (filter (@CoreModel.last St Ac R unit) (concat d)) = length d.
Proof.
  induction d as [|e d IH]; intros F; [reflexivity|]. inversion F as [|? ? (b & x & -> & L & B) F']; subst. cbn [concat length]. rewrite !filter_app, !app_length, IH by exact F'.
  cbn [filter]. rewrite L. cbn [length]. assert (Z : filter (@CoreModel.last St Ac R unit) b = []); [|rewrite Z; cbn; lia].
  clear -B. induction B as [|y b Hy B IHb]; [reflexivity|]. cbn [filter]. rewrite Hy. exact IHb.
Qed.

Lemma apart_unique : forall (a b u w : list (xevent St Ac)), a ++ b = u ++ w -> apart a -> apart u -> xfits_of b = [] -> xfits_of w = [] -> a = u /\ b = w.
Proof.
  assert (K : forall (a b u w z : list (xevent St Ac)), a = u ++ z -> apart a -> xfits_of z = [] -> z = []).
  { intros a b u w z -> AP NF. destruct z as [|e z _] using rev_ind; [reflexivity|]. exfalso. rewrite xfits_app in NF. apply app_eq_nil in NF as [_ NF].
    destruct AP as [AP|(u1 & d1 & AP)]; [destruct u; [destruct z|]; discriminate|]. rewrite app_assoc in AP. apply app_inj_tail in AP as [_ ->]. discriminate. }
  intros a b u w E A1 A2 N1 N2. destruct (app_eq_app _ _ _ _ E) as (z & [[E1 E2]|[E1 E2]]).
  - rewrite E2, xfits_app in N2. apply app_eq_nil in N2 as [N2 _]. pose proof (K a b u w z E1 A1 N2). subst z. rewrite app_nil_r in E1. cbn in E2. auto.
  - rewrite E2, xfits_app in N1. apply app_eq_nil in N1 as [N1 _]. pose proof (K u w a b z E1 A2 N1). subst z. rewrite app_nil_r in E1. cbn in E2. auto.
Qed.

(** The life of an environment through one iteration. *)
Lemma lives_one : forall hor j age age' (va : bool) rm (r : list (option row)) (fit : list (xevent St Ac)), (fit = [] \/ exists d, fit = [XFit d]) ->
  lives hor j (life age) ((if va then [XReset rm] else []) ++ [XStep r] ++ fit) (life age') ->
  match nth j r None with
  | None => (va && nth j rm false)%bool = false /\ age = 0 /\ age' = 0
  | Some x => (if (va && nth j rm false)%bool then age = 0 else 1 <= age) /\
              (CoreModel.last x = true <-> CoreModel.absorbing x = true \/ exists h0, hor = Some h0 /\ h0 <= age + 1) /\
              age' = (if CoreModel.last x then 0 else age + 1)
  end.
Proof.
  intros hor j age age' va rm r fit HF H.
  assert (T : forall p, lives hor j p ([XStep r] ++ fit) (life age') ->
    match nth j r None with
    | None => p = None /\ age' = 0
    | Some x => exists a, p = Some a /\ (CoreModel.last x = true <-> CoreModel.absorbing x = true \/ exists h0, hor = Some h0 /\ h0 <= a + 1) /\ age' = (if CoreModel.last x then 0 else a + 1)
    end).
  { intros p Hp. cbn [app lives] in Hp. destruct (nth j r None) as [x|].
    - destruct Hp as (a & E & L & Hp). exists a. split; [exact E|]. split; [exact L|].
      assert (Q : (if CoreModel.last x then None else Some (a + 1)) = life age') by (destruct HF as [->|(d & ->)]; exact Hp).
      destruct (CoreModel.last x), age'; cbn in Q; congruence.
    - destruct Hp as [E Hp]. split; [exact E|]. assert (Q : None = life age') by (destruct HF as [->|(d & ->)]; exact Hp). destruct age'; [reflexivity|discriminate]. }
  destruct va; cbn [andb].
  - cbn [app] in H. cbn [lives] in H. change (XStep r :: fit) with ([XStep r] ++ fit) in H. destruct (nth j rm false).
    + destruct H as [E H]. assert (Z : age = 0) by (destruct age; [reflexivity|discriminate]). subst age. apply T in H. destruct (nth j r None) as [x|].
      * destruct H as (a & E1 & H2 & H3). injection E1 as <-. auto.
      * destruct H; discriminate.
    + apply T in H. destruct (nth j r None) as [x|].
      * destruct H as (a & E1 & H2 & H3). destruct age; [discriminate|]. injection E1 as <-. split; [lia|auto].
      * destruct H as [E H]. destruct age; [auto|discriminate].
  - apply T in H. destruct (nth j r None) as [x|].
    + destruct H as (a & E1 & H2 & H3). destruct age; [discriminate|]. injection E1 as <-. split; [lia|auto].
    + destruct H as [E H]. destruct age; [auto|discriminate].
Qed.
End Lists.

Section Sim.
Context {St Ac A0 Oe Oa : Type}.
Variables (de : Oe) (da : Oa).
Variable init : Oe -> St.
Variable out : St -> Ac -> Oe -> St * R * bool.
Variable pol : A0 -> St -> Oa -> Ac.
Notation row := (CoreModel.sample St Ac R unit).
Variable fit0 : A0 -> list row -> A0.
Variable h : nat.
Variable n : nat.
Hypothesis Hn : 2 <= n.
Variable garb : nat -> nat -> nat -> bool.
Variable cap : nat.
Notation hor := (Some (S h)).
Notation ER := (n_reset de init).
Notation ES := (n_step de out).
Notation DR := (n_draw da pol).
Notation FT := (n_fit (Oa := Oa) fit0).
Notation xit := (xiterate n hor garb ER ES DR FT cap).
Notation IV := (Inv n hor garb ER ES DR FT cap).
Notation W0 := (W_of n hor garb []).
Notation slot := (@slot St Ac).
Notation pass' := (pass de da init out pol h).
Notation xst' := (xst (St * list Oe) St Ac (A0 * list Oa)).

Definition act_of (r r1 : vrun) (j : nat) : what :=
  if (vany (v_last r) && nth j (vand (v_last r) (v_mask r1)) false)%bool then Fresh else if nth j (v_mask r1) false then Go else Stay.
Definition acts_of (r r1 : vrun) : list what := map (act_of r r1) (seq 0 n).
Definition fitted (r : vrun) : bool := match rev (v_events r) with VFit _ :: _ => true | _ => false end.

Definition slot_ok (r : vrun) (w : list (xevent St Ac)) (es : list ((St * list Oe) * St)) (j : nat) (sl : slot) (te : list Oe) : Prop :=
  Forall (is_episode (@CoreModel.last St Ac R unit)) (fst sl) /\
  match snd sl with
  | None => (exists e o, nth_error es j = Some ((e, te), o)) /\ age j (st_of r) = 0 /\ of_env j w = concat (fst sl)
  | Some (pre, s, k) => nth_error es j = Some ((s, te), s) /\ 1 <= age j (st_of r) /\ age j (st_of r) + S k = S h /\
                        of_env j w = concat (fst sl) ++ pre /\ Forall (fun y : row => CoreModel.last y = false) pre
  end.

Record Rep (sc : vsched) (b : vbudget) (r : vrun) (g : A0) (sls : list slot) (s : xst') (tes : list (list Oe)) (ta : list Oa) : Prop := {
  p_inv : exists s0 c0, IV s0 c0 sc b s;
  p_r : x_r s = r; p_ag : x_ag s = (g, ta); p_l1 : length sls = n; p_l2 : length tes = n;
  p_w : exists u0 w, x_ev s = u0 ++ w /\ apart u0 /\ xfits_of w = [] /\
        forall j sl te, nth_error sls j = Some sl -> nth_error tes j = Some te -> slot_ok r w (x_env s) j sl te }.

Lemma draw_len : forall (a : A0 * list Oa) xs, length (snd (DR a xs)) = length xs.
Proof. intros a xs. unfold n_draw. destruct (draw_all_nth da pol (fst a) xs (snd a)) as (_ & L & _). destruct (draw_all da pol (fst a) (snd a) xs). exact L. Qed.

Lemma xab_row : forall (s : xst') r1 j, Shape n hor garb s r1 -> length (v_last (vstep (W_of n hor garb (xab ER ES DR s r1)) r1)) = n -> j < n ->
  nth j (xab ER ES DR s r1) false = absorbs (nth j (xrow n hor garb ER ES DR s r1) None).
Proof.
  intros s r1 j SH LL J. unfold xab. pose proof (xouts_len n hor garb ER ES DR Hn draw_len s r1 SH) as LO.
  destruct (nth_error (xouts ER ES DR s r1) j) as [q|] eqn:EQ; [|apply nth_error_None in EQ; lia].
  assert (EL : nth_error (v_last (vstep (W_of n hor garb (xab ER ES DR s r1)) r1)) j = Some (nth j (v_last (vstep (W_of n hor garb (xab ER ES DR s r1)) r1)) false)) by (apply List.nth_error_nth'; lia).
  rewrite (nth_error_nth _ _ false (eq_trans (nth_error_map _ _ _) (f_equal _ EQ))).
  assert (E2 : nth_error (map snd (xouts ER ES DR s r1)) j = Some (snd q)) by (rewrite nth_error_map, EQ; reflexivity).
  pose proof (nth_error_nth _ _ None (eq_trans (nth_error_map _ _ _) (f_equal _ (nth_error_combine _ _ _ _ _ _ _ E2 EL)))
     : nth j (xrow n hor garb ER ES DR s r1) None = _) as NR.
  rewrite NR. cbn [fst snd option_map]. destruct (snd q); reflexivity.
Qed.

(** One environment goes one step on. *)
Lemma goes_ok : forall g d pre st k wa we (x : row),
  (let '(s', rw, ab) := out st (pol g st wa) we in
   exists l, x = CoreModel.mkS st (pol g st wa) rw s' ab l tt tt /\ (l = true <-> ab = true \/ k = 0)) ->
  Forall (is_episode (@CoreModel.last St Ac R unit)) d -> Forall (fun y : row => CoreModel.last y = false) pre ->
  snd (goes out pol g d pre st k wa we) = CoreModel.absorbing x /\
  if CoreModel.last x then fst (goes out pol g d pre st k wa we) = (d ++ [pre ++ [x]], None) /\ is_episode (@CoreModel.last St Ac R unit) (pre ++ [x])
  else exists k', k = S k' /\ fst (goes out pol g d pre st k wa we) = (d, Some (pre ++ [x], CoreModel.next_state x, k')).
Proof.
  intros g d pre st k wa we x HX FD FP. unfold goes. destruct (out st (pol g st wa) we) as [[s' rw] ab]. destruct HX as (l & -> & HL). cbn [CoreModel.last CoreModel.absorbing CoreModel.next_state].
  destruct l.
  - assert (Z : ((match k with O => true | _ => false end) || ab)%bool = true) by (destruct (proj1 HL eq_refl) as [->| ->]; [destruct k; reflexivity|reflexivity]).
    rewrite Z. cbn [fst snd]. repeat split. exists pre, (CoreModel.mkS st (pol g st wa) rw s' ab true tt tt). repeat split; auto.
  - destruct k as [|k]; [assert (false = true) by (apply HL; auto); discriminate|].
    destruct ab; [assert (false = true) by (apply HL; auto); discriminate|]. cbn [orb fst snd pred]. split; [reflexivity|]. exists k. split; reflexivity.
Qed.

Theorem sim : forall sc b r g sls s tes ta, (match sc with VSteps _ => False | _ => True end) -> vpos sc ->
  (forall s0, clean (Wg n hor garb ER ES DR FT cap s0) sc b cap) ->
  Rep sc b r g sls s tes ta -> CoreModel.move_required (vl (v_log r)) = Some true ->
  exists r1, vreset W0 r = Some r1 /\ Forall2 fits (acts_of r r1) sls /\
    let '(o, ts, ta') := pass' g (acts_of r r1) sls tes ta in
    exists r' s', xit s = Some s' /\ viterate (W_of n hor garb (map snd o)) cap r = Some r' /\
      CoreModel.tot_st (vl (v_log r)) < CoreModel.tot_st (vl (v_log r')) /\
      if fitted r' then Forall (fun sl => snd sl = None) (map fst o) /\ (forall k, sc = VEps k -> length (concat (map fst (map fst o))) = k) /\
        Forall (is_episode (@CoreModel.last St Ac R unit)) (concat (map fst (map fst o))) /\
        Rep sc b r' (fit0 g (concat (concat (map fst (map fst o))))) (repeat ([], None) n) s' ts ta'
      else Rep sc b r' g (map fst o) s' ts ta'.
Proof.
  intros sc b r g sls s tes ta NS Hp Hc RP Hm. destruct RP as [(s0 & c0 & I) PR PA L1 L2 (u0 & w & EU & AP & NF & SL)].
  assert (Hhor : hor <> Some 0) by discriminate.
  pose proof (i_head _ _ _ _ _ _ _ _ _ _ _ _ _ I) as HH. pose proof (i_data _ _ _ _ _ _ _ _ _ _ _ _ _ I) as HD.
  set (W := Wg n hor garb ER ES DR FT cap s0) in *.
  assert (Wn1 : 1 <= n_envs W) by (cbn; lia).
  rewrite <- PR in Hm.
  destruct (xiterate_inv n hor garb ER ES DR FT Hn Hhor draw_len cap s0 c0 sc b s I Hp (Hc s0) Hm) as (s' & EX & I' & EV).
  destruct (viterate_ok W Wn1 Hhor ltac:(cbn; lia) cap sc b (x_r s) HH HD Hp (Hc s0) Hm) as (r'' & EV2 & _ & TS & _).
  fold W in EV. rewrite EV in EV2. injection EV2 as <-. 
  destruct (viterate_cases W Wn1 Hhor cap sc b (x_r s) HH Hp Hm) as (r1 & R1 & M & _ & _ & _ & _ & _).
  change (vreset W (x_r s)) with (vreset W0 (x_r s)) in R1.
  exists r1. rewrite <- PR. split; [exact R1|].
  assert (SH : Shape n hor garb s r1).
  { constructor; [exact R1|apply (i_env _ _ _ _ _ _ _ _ _ _ _ _ _ I)|apply (c_lm _ _ _ _ (m_cnt _ _ _ _ M))|apply (c_ll _ _ _ _ (h_cnt _ _ _ _ HH))]. }
  assert (LL : length (v_last (vstep (W_of n hor garb (xab ER ES DR s r1)) r1)) = n).
  { unfold vstep. cbn [v_last n_envs W_of]. rewrite map_length, combine_length, !map_length, !combine_length, seq_length.
    rewrite (sh_mask _ _ _ _ _ SH). pose proof (c_le _ _ _ _ (m_cnt _ _ _ _ M)) as Q. cbn in Q. lia. }
  pose proof (fun j => xrow_at n hor garb ER ES DR Hn draw_len s r1 j SH LL) as RA.
  pose proof (fun j => xab_row s r1 j SH LL) as XA.
  pose proof (xrow_len n hor garb ER ES DR Hn draw_len s r1 SH LL) as LR.
  (* fields of the new state *)
  assert (FLD : exists r' fit, viterate (W_of n hor garb (xab ER ES DR s r1)) cap (x_r s) = Some r' /\ x_r s' = r' /\ x_env s' = map fst (xouts ER ES DR s r1) /\
     x_ev s' = (x_ev s ++ (if vany (v_last (x_r s)) then [XReset (xrm s r1)] else []) ++ [XStep (xrow n hor garb ER ES DR s r1)]) ++ fit /\
     if fitted r' then exists ds, fit = [XFit ds] /\ x_ag s' = FT (fst (xdraw ER DR s r1)) ds else fit = [] /\ x_ag s' = fst (xdraw ER DR s r1)).
  { pose proof EX as EX'. unfold xiterate in EX'. rewrite R1 in EX'. cbn [obind] in EX'.
    destruct (viterate (W_of n hor garb (xab ER ES DR s r1)) cap (x_r s)) as [r'|] eqn:VI; [|discriminate]. cbn [obind] in EX'. exists r'. unfold fitted.
    destruct (rev (v_events r')) as [|[t m l|d] rest] eqn:RV.
    - injection EX' as <-. exists []. cbn. rewrite app_nil_r. repeat split; reflexivity.
    - injection EX' as <-. exists []. cbn. rewrite app_nil_r. repeat split; reflexivity.
    - destruct (read_all _ d) as [ds|]; [|discriminate]. cbn [obind] in EX'. injection EX' as <-. exists [XFit ds]. cbn [x_r x_env x_ev x_ag]. repeat split; try reflexivity. exists ds. split; reflexivity. }
  destruct FLD as (r' & fit & VI & PR' & PE' & PV' & FT').
  set (rw := xrow n hor garb ER ES DR s r1) in *.
  assert (FITS : fit = [] \/ exists d, fit = [XFit d]) by (destruct (fitted r'); [destruct FT' as (ds & -> & _); eauto|destruct FT'; auto]).
  assert (LV : forall j, j < n -> match nth j rw None with
    | None => (vany (v_last (x_r s)) && nth j (xrm s r1) false)%bool = false /\ age j (st_of (x_r s)) = 0 /\ age j (st_of r') = 0
    | Some x => (if (vany (v_last (x_r s)) && nth j (xrm s r1) false)%bool then age j (st_of (x_r s)) = 0 else 1 <= age j (st_of (x_r s))) /\
        (CoreModel.last x = true <-> CoreModel.absorbing x = true \/ exists h0, hor = Some h0 /\ h0 <= age j (st_of (x_r s)) + 1) /\
        age j (st_of r') = (if CoreModel.last x then 0 else age j (st_of (x_r s)) + 1)
    end).
  { intros j J. pose proof (i_life _ _ _ _ _ _ _ _ _ _ _ _ _ I j J) as A. pose proof (i_life _ _ _ _ _ _ _ _ _ _ _ _ _ I' j J) as B. rewrite PV', PR', <- !app_assoc in B.
    apply lives_app in B as (m & B1 & B2). rewrite (lives_det _ _ _ _ _ _ B1 A) in B2. exact (lives_one _ _ _ _ _ _ _ _ FITS B2). }
  (* the actions drawn *)
  assert (DRAW : fst (xdraw ER DR s r1) = (g, skipn n ta) /\ forall j e o, nth_error (xes ER s r1) j = Some (e, o) -> nth_error (snd (xdraw ER DR s r1)) j = Some (pol g o (nth j ta da))).
  { unfold xdraw, n_draw. rewrite PA. cbn [fst snd].
    destruct (draw_all_nth da pol g (map snd (xes ER s r1)) ta) as (D1 & _ & D3). rewrite map_length, (xes_len n hor garb ER Hn s r1 SH) in D1.
    destruct (draw_all da pol g ta (map snd (xes ER s r1))) as [ta2 acts]. cbn [fst snd] in *. split; [rewrite D1; reflexivity|].
    intros j e o He. apply D3. rewrite nth_error_map, He. reflexivity. }
  destruct DRAW as [DR1 DR2].
  assert (LA : length (acts_of (x_r s) r1) = n) by (unfold acts_of; rewrite map_length, seq_length; reflexivity).
  assert (NA : forall j, j < n -> nth_error (acts_of (x_r s) r1) j = Some (act_of (x_r s) r1 j)).
  { intros j J. unfold acts_of. rewrite nth_error_map. rewrite (List.nth_error_nth' (seq 0 n) 0) by (rewrite seq_length; exact J). rewrite seq_nth by exact J. reflexivity. }
  pose proof (pass_nth de da init out pol h g (acts_of (x_r s) r1) sls tes ta ltac:(lia) ltac:(lia)) as PN.
  destruct (pass' g (acts_of (x_r s) r1) sls tes ta) as [[o ts] ta'] eqn:EP. destruct PN as (PN1 & PN2 & PN3 & PN4). rewrite L1 in PN1, PN2, PN3.
  set (ev1 := (if vany (v_last (x_r s)) then [XReset (xrm s r1)] else []) ++ [XStep rw]) in *.
  assert (OE : forall j, of_env j (w ++ ev1) = of_env j w ++ match nth j rw None with Some x => [x] | None => [] end).
  { intros j. unfold of_env. rewrite rows_of_app, flat_map_app. f_equal. unfold ev1. destruct (vany _); cbn; apply app_nil_r. }
  (* environment by environment *)
  assert (EACH : forall j sl te, nth_error sls j = Some sl -> nth_error tes j = Some te ->
     fits (act_of (x_r s) r1 j) sl /\
     exists sl' ab te', nth_error o j = Some (sl', ab) /\ nth_error ts j = Some te' /\ ab = absorbs (nth j rw None) /\ slot_ok r' (w ++ ev1) (x_env s') j sl' te').
  { intros j sl te Ejs Ejt. assert (J : j < n) by (rewrite <- L1; apply nth_error_Some; congruence).
    pose proof (SL j sl te Ejs Ejt) as SO. rewrite <- PR in SO. destruct (PN4 j _ _ _ (NA j J) Ejs Ejt) as [PO PT]. rewrite PO, PT.
    specialize (RA j J). specialize (LV j J). specialize (OE j). destruct RA as (e1 & o1 & a & XE & XD & RJ).
    rewrite (DR2 j e1 o1 XE) in XD. injection XD as <-.
    unfold act_of. fold (xrm s r1). set (rj := (vany (v_last (x_r s)) && nth j (xrm s r1) false)%bool) in *.
    destruct sl as [d c]. unfold slot_ok in SO. cbn [fst snd] in SO. destruct SO as [FD SO].
    assert (EN : exists e0 o0, nth_error (x_env s) j = Some ((e0, te), o0) /\ (c <> None -> c = c)) by (destruct c as [[[pre st] k]|]; [exists st, st|destruct SO as ((e & oo & Q) & _); exists e, oo]; split; auto; apply SO).
    destruct EN as (e0 & o0 & EN & _).
    rewrite (xes_at n hor garb ER Hn s r1 j (e0, te) o0 SH EN) in XE. fold rj in XE.
    destruct (nth j (v_mask r1) false) eqn:MJ.
    - (* takes part *)
      destruct (ES e1 (pol g o1 (nth j ta da))) as [[[e' o'] rwd'] ab'] eqn:ESE. unfold n_step, s_step in ESE.
      destruct (pop de (snd e1)) as [we te1] eqn:PE. destruct (out (fst e1) (pol g o1 (nth j ta da)) we) as [[s1 rwd] ab1] eqn:OUT. injection ESE as <- <- <- <-.
      destruct RJ as [RJ1 RJ2]. fold rw in RJ1. rewrite RJ1 in LV, OE. cbn [CoreModel.last CoreModel.absorbing] in LV.
      set (lf := nth j (v_last (vstep (W_of n hor garb (xab ER ES DR s r1)) r1)) false) in *.
      set (x := CoreModel.mkS o1 (pol g o1 (nth j ta da)) rwd s1 ab1 lf tt tt) in *.
      destruct LV as (LV1 & LV2 & LV3). rewrite RJ1. cbn [absorbs].
      destruct rj.
      + (* an episode begins *)
        assert (CN : c = None). { destruct c as [[[pre st] k]|]; [|reflexivity]. destruct SO as (_ & A1 & _). lia. } subst c.
        unfold n_reset, s_reset in XE. cbn [snd] in XE. rewrite pop_nth in XE. injection XE as <- <-. cbn [snd fst] in PE, OUT.
        change (pop de (skipn 1 te) = (we, te1)) in PE. rewrite pop_nth, nth_skip1, skip_skip1 in PE. apply pair_equal_spec in PE as [<- <-].
        split; [exact Logic.I|]. destruct SO as (_ & A0' & OC).
        destruct (goes_ok g d [] (init (nth 0 te de)) h (nth j ta da) (nth 1 te de) x) as [G1 G2]; [|exact FD|constructor|].
        { rewrite OUT. exists lf. split; [reflexivity|]. rewrite LV2. rewrite LV1. split; (intros [Z|Z]; [left; exact Z|right]).
          - destruct Z as (h0 & Z1 & Z2). injection Z1 as <-. lia.
          - exists (S h). split; [reflexivity|lia]. }
        cbn [env1 snd fst used] in *. destruct (goes out pol g d [] (init (nth 0 te de)) h (nth j ta da) (nth 1 te de)) as [sl' abx]. cbn [fst snd] in *.
        exists sl', abx, (skipn 2 te). split; [reflexivity|]. split; [reflexivity|]. split; [exact G1|].
        rewrite PE'. destruct (CoreModel.last x) eqn:LX; cbn [CoreModel.last x] in LX.
        * destruct G2 as [-> IE]. split; cbn [fst snd].
          -- apply Forall_app. split; [exact FD|]. constructor; [exact IE|constructor].
          -- split; [eauto|]. rewrite LX in LV3. split; [exact LV3|]. rewrite OE, OC, concat_app. cbn. reflexivity.
        * destruct G2 as (k' & EK & ->). split; cbn [fst snd]; [exact FD|]. split; [exact RJ2|]. rewrite LX in LV3. rewrite LV3, LV1. split; [lia|]. split; [lia|].
          split; [rewrite OE, OC; reflexivity|]. constructor; [exact LX|constructor].
      + (* goes on *)
        destruct c as [[[pre st] k]|]; [|destruct SO as (_ & A1 & _); lia]. destruct SO as (EN' & A1 & A2 & OC & FP).
        rewrite EN in EN'. injection EN' as -> ->. injection XE as <- <-. cbn [snd fst] in PE, OUT. rewrite pop_nth in PE. apply pair_equal_spec in PE as [<- <-].
        split; [exact Logic.I|].
        destruct (goes_ok g d pre st k (nth j ta da) (nth 0 te de) x) as [G1 G2]; [|exact FD|exact FP|].
        { rewrite OUT. exists lf. split; [reflexivity|]. rewrite LV2. split; (intros [Z|Z]; [left; exact Z|right]).
          - destruct Z as (h0 & Z1 & Z2). injection Z1 as <-. lia.
          - exists (S h). split; [reflexivity|lia]. }
        cbn [env1 snd fst used] in *. destruct (goes out pol g d pre st k (nth j ta da) (nth 0 te de)) as [sl' abx]. cbn [fst snd] in *.
        exists sl', abx, (skipn 1 te). split; [reflexivity|]. split; [reflexivity|]. split; [exact G1|].
        rewrite PE'. destruct (CoreModel.last x) eqn:LX; cbn [CoreModel.last x] in LX.
        * destruct G2 as [-> IE]. split; cbn [fst snd].
          -- apply Forall_app. split; [exact FD|]. constructor; [exact IE|constructor].
          -- split; [eauto|]. rewrite LX in LV3. split; [exact LV3|]. rewrite OE, OC, concat_app. cbn. rewrite app_nil_r, app_assoc. reflexivity.
        * destruct G2 as (k' & EK & ->). split; cbn [fst snd]; [exact FD|]. split; [exact RJ2|]. rewrite LX in LV3. rewrite LV3. split; [lia|]. split; [lia|].
          split; [rewrite OE, OC, app_assoc; reflexivity|]. apply Forall_app. split; [exact FP|]. constructor; [exact LX|constructor].
    - (* takes no part *)
      destruct RJ as [RJ1 RJ2]. fold rw in RJ1. rewrite RJ1 in LV, OE |- *. destruct LV as (LV1 & LV2 & LV3). rewrite LV1 in *.
      destruct c as [[[pre st] k]|]; [destruct SO as (_ & A1 & _); lia|]. split; [exact Logic.I|].
      cbn [env1 snd used skipn]. exists (d, None), false, te. split; [reflexivity|]. split; [reflexivity|]. split; [reflexivity|].
      injection XE as <- <-. destruct SO as (_ & _ & OC). split; [exact FD|]. cbn [fst snd]. rewrite PE'. split; [eauto|]. split; [exact LV3|]. rewrite OE, OC, app_nil_r. reflexivity. }
  assert (HAS : forall j, j < n -> exists sl te, nth_error sls j = Some sl /\ nth_error tes j = Some te).
  { intros j J. destruct (nth_error sls j) as [sl|] eqn:E1; [|apply nth_error_None in E1; lia]. destruct (nth_error tes j) as [te|] eqn:E2; [|apply nth_error_None in E2; lia]. eauto. }
  assert (AB : map snd o = xab ER ES DR s r1).
  { apply (nth_ext _ _ false false); [unfold xab; rewrite !map_length, PN2, (xouts_len n hor garb ER ES DR Hn draw_len s r1 SH); reflexivity|].
    intros j J. rewrite map_length, PN2 in J. destruct (HAS j J) as (sl & te & E1 & E2). destruct (EACH j sl te E1 E2) as (_ & sl' & ab & te' & EO & _ & -> & _).
    rewrite (XA j J). fold rw. apply nth_error_nth. rewrite nth_error_map, EO. reflexivity. }
  split.
  { clear -EACH NA LA L1 HAS. assert (K : forall j a sl, nth_error (acts_of (x_r s) r1) j = Some a -> nth_error sls j = Some sl -> fits a sl).
    { intros j a sl E1 E2. assert (J : j < n) by (rewrite <- L1; apply nth_error_Some; congruence). rewrite (NA j J) in E1. injection E1 as <-.
      destruct (HAS j J) as (sl0 & te & E3 & E4). rewrite E2 in E3. injection E3 as <-. apply (EACH j sl te E2 E4). }
    revert K LA L1. generalize (acts_of (x_r s) r1). generalize n. clear. intros m l. revert sls m. induction l as [|a l IH]; intros [|sl sls] m K LA L1; cbn in *; try lia; constructor.
    - apply (K 0 a sl); reflexivity.
    - destruct m; [lia|]. apply (IH sls m); [|lia|lia]. intros j. apply (K (S j)). }
  exists r', s'. rewrite AB. split; [exact EX|]. split; [exact VI|]. split; [rewrite <- PR'; exact TS|].
  assert (NF1 : xfits_of (w ++ ev1) = []) by (rewrite xfits_app, NF; unfold ev1; destruct (vany _); reflexivity).
  assert (SL' : forall j sl te, nth_error (map fst o) j = Some sl -> nth_error ts j = Some te -> slot_ok r' (w ++ ev1) (x_env s') j sl te).
  { intros j sl te E1 E2. assert (J : j < n) by (rewrite <- PN3; apply nth_error_Some; congruence). destruct (HAS j J) as (sl0 & te0 & E3 & E4).
    destruct (EACH j sl0 te0 E3 E4) as (_ & sl' & ab & te' & EO & ET & _ & OK). rewrite nth_error_map, EO in E1. injection E1 as <-. rewrite ET in E2. injection E2 as <-. exact OK. }
  destruct (fitted r') eqn:FQ.
  - destruct FT' as (ds & -> & AG). rewrite EU, <- app_assoc in PV'.
    assert (DS : ds = by_env n (w ++ ev1)).
    { destruct (i_fits _ _ _ _ _ _ _ _ _ _ _ _ _ I' (u0 ++ w ++ ev1) ds []) as (u' & w' & E1 & AP' & NF' & ->); [rewrite PV', ?app_assoc; reflexivity|].
      destruct (apart_unique _ _ _ _ E1 AP AP' NF1 NF') as [_ <-]. reflexivity. }
    assert (AGE : forall j, j < n -> age j (st_of r') = 0).
    { intros j J. pose proof (i_whole _ _ _ _ _ _ _ _ _ _ _ _ _ I') as WH. pose proof (i_sizes _ _ _ _ _ _ _ _ _ _ _ _ _ I') as SZ.
      destruct sc as [k|k|]; [contradiction| |].
      - assert (E1 : x_ev s' = (u0 ++ w ++ ev1) ++ XFit ds :: []) by (rewrite PV', ?app_assoc; reflexivity).
        pose proof (WH _ _ _ E1 j J) as LJ. pose proof (i_life _ _ _ _ _ _ _ _ _ _ _ _ _ I' j J) as LF. rewrite E1 in LF. apply lives_app in LF as (m & B1 & B2).
        rewrite (lives_det _ _ _ _ _ _ B1 LJ) in B2. cbn [lives] in B2. rewrite PR' in B2. destruct (age j (st_of r')); [reflexivity|discriminate].
      - exfalso. pose proof (h_cnt _ _ _ _ (i_head _ _ _ _ _ _ _ _ _ _ _ _ _ I')) as CC. pose proof (d_fits _ _ _ _ _ (i_data _ _ _ _ _ _ _ _ _ _ _ _ _ I')) as DF.
        destruct (never_since _ _ _ CC) as [_ NB]. fold W in NB. rewrite NB in DF. assert (Z : vfits_of (v_events (x_r s')) = []) by (destruct (vfits_of (v_events (x_r s'))); [reflexivity|inversion DF]).
        unfold fitted in FQ. destruct (rev (v_events r')) as [|[t m l|d'] rest] eqn:RV; try discriminate.
        assert (QF : In (VFit d') (v_events r')) by (apply in_rev; rewrite RV; left; reflexivity).
        assert (IN : In d' (vfits_of (v_events r'))) by (unfold vfits_of; apply in_flat_map; eexists; split; [exact QF|left; reflexivity]).
        rewrite PR' in Z. rewrite Z in IN. destruct IN. }
    assert (IDLE : Forall (fun sl : slot => snd sl = None) (map fst o)).
    { apply Forall_forall. intros sl HI. apply In_nth_error in HI as (j & EJ). assert (J : j < n) by (rewrite <- PN2, <- (map_length fst); apply nth_error_Some; congruence).
      destruct (nth_error ts j) as [te|] eqn:ET; [|apply nth_error_None in ET; lia]. pose proof (SL' j sl te EJ ET) as [_ SO]. destruct (snd sl) as [[[pre st] k]|]; [|reflexivity].
      destruct SO as (_ & A1 & _). rewrite (AGE j J) in A1. lia. }
    assert (DS2 : ds = concat (concat (map fst (map fst o)))).
    { rewrite DS. unfold by_env.
      assert (K : forall j sl, nth_error (map fst o) j = Some sl -> closed (of_env j (w ++ ev1)) = concat (fst sl)).
      { intros j sl EJ. assert (J : j < n) by (rewrite <- PN2, <- (map_length fst); apply nth_error_Some; congruence).
        destruct (nth_error ts j) as [te|] eqn:ET; [|apply nth_error_None in ET; lia]. pose proof (SL' j sl te EJ ET) as [FD SO].
        rewrite Forall_forall in IDLE. rewrite (IDLE sl) in SO by (eapply nth_error_In; exact EJ). destruct SO as (_ & _ & ->). apply closed_concat. exact FD. }
      assert (K2 : length (map fst o) = n) by (rewrite map_length; exact PN2). revert K K2. generalize (map fst o). clear. intros l K K2. rewrite <- K2. clear K2.
      assert (G : forall m k (l : list slot), (forall j sl, nth_error l j = Some sl -> closed (of_env (k + j) m) = concat (fst sl)) ->
         flat_map (fun j => closed (of_env j m)) (seq k (length l)) = concat (concat (map fst l))).
      { intros m k l'. revert k. induction l' as [|sl l' IH]; intros k K'; [reflexivity|]. cbn [length seq flat_map map concat]. rewrite concat_app. f_equal.
        - rewrite <- (K' 0 sl eq_refl). rewrite Nat.add_0_r. reflexivity.
        - apply IH. intros j sl' EJ. rewrite <- (K' (S j) sl' EJ). f_equal. f_equal. lia. }
      apply G. exact K. }
    assert (FE : Forall (is_episode (@CoreModel.last St Ac R unit)) (concat (map fst (map fst o)))).
    { assert (JN : forall j (sl : slot), nth_error (map fst o) j = Some sl -> j < n) by (intros j sl EJ; rewrite <- PN2, <- (map_length fst); apply nth_error_Some; congruence).
      apply Forall_concat. apply Forall_map. apply Forall_forall. intros sl HI. apply In_nth_error in HI as (j & EJ). pose proof (JN j sl EJ) as J.
      destruct (nth_error ts j) as [te|] eqn:ET; [|apply nth_error_None in ET; lia]. apply (SL' j sl te EJ ET). }
    split; [exact IDLE|]. split.
    { intros k ->. pose proof (i_sizes _ _ _ _ _ _ _ _ _ _ _ _ _ I') as SZ. cbn beta iota in SZ. rewrite PV', !xfits_app in SZ. apply Forall_app in SZ as [_ SZ]. apply Forall_app in SZ as [_ SZ]. inversion SZ as [|? ? Q _].
      rewrite <- Q, DS2. symmetry. apply count_concat. exact FE. }
    split; [exact FE|]. constructor.
    + eauto.
    + exact PR'.
    + rewrite AG, DR1. unfold n_fit. cbn [fst snd]. rewrite PN1, DS2. reflexivity.
    + apply repeat_length.
    + exact PN3.
    + exists (x_ev s'), []. rewrite app_nil_r. split; [reflexivity|]. split; [right; rewrite PV', !app_assoc; eauto|]. split; [reflexivity|].
      intros j sl te EJ ET. assert (J : j < n) by (rewrite <- PN3; apply nth_error_Some; congruence).
      rewrite nth_error_repeat in EJ by exact J. injection EJ as <-. split; [constructor|]. cbn [fst snd].
      destruct (nth_error (map fst o) j) as [sl|] eqn:EO; [|apply nth_error_None in EO; rewrite map_length in EO; lia].
      pose proof (SL' j sl te EO ET) as [_ SO]. rewrite Forall_forall in IDLE. rewrite (IDLE sl) in SO by (eapply nth_error_In; exact EO). destruct SO as (S1 & S2 & _). split; [exact S1|]. split; [exact S2|reflexivity].
  - destruct FT' as [-> AG]. rewrite app_nil_r in PV'. constructor.
    + eauto.
    + exact PR'.
    + rewrite AG, DR1, PN1. reflexivity.
    + rewrite map_length. exact PN2.
    + exact PN3.
    + exists u0, (w ++ ev1). rewrite PV', EU, <- app_assoc. split; [reflexivity|]. split; [exact AP|]. split; [exact NF1|exact SL'].
Qed.
End Sim.

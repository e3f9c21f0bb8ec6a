(** C111: what a DQN agent with a prioritised replay memory trained by [Core] learns from. *)
From Coq Require Import List Arith Lia Bool Reals Lra Permutation.
From Verif Require Import Common ReplayModel ReplaySpec ReplayProofs SumTreeModel SumTreeSpec SumTreeProofs SumTreeProps DqnModel CoreDqnModel CoreDqnProps CorePerModel CorePerProofs OnPolicyProps CorePgProps.
From Verif Require CoreModel CoreSpec CoreProofs CoreProps VecCoreModel.
Import ListNotations.

Section Props.
Context {En Ob Ac Wt : Type}.
Variable (predict : Wt -> Ob -> list R) (qa : Wt -> Ob -> Ac -> R).
Variable (train : Wt -> list (Ob * Ac * R) -> list R -> Wt).
Variable (pol : Wt -> nat -> Ob -> Ac).
Variable (unif : nat -> nat -> R) (coin : nat -> nat -> nat -> bool) (beta : nat -> R).
Variable (gamma : R) (clip_reward : bool) (freq bs ini mx : nat) (eps alpha : R).
Hypothesis PN : forall w o, predict w o <> [].
Hypothesis B1 : 1 <= bs.
Hypothesis M2 : 2 <= mx.
Hypothesis E0 : (0 < eps)%R.
Notation row := (sample Ob Ac unit).
Notation pagent := (@pagent Ob Ac Wt).
Notation csample := (CoreModel.sample Ob Ac R unit).
Notation pfit := (per_fit predict qa train unif coin beta gamma clip_reward freq bs ini eps alpha).

(** A training example for a row: its state and action, and its reward (clipped if asked for)
    plus the discounted largest value of the next state under [target] unless absorbing. *)
Definition aims (target : Wt) (q : Ob * Ac * R) (x : row) : Prop :=
  fst (fst q) = s_state x /\ snd (fst q) = s_action x /\
  exists v, snd q = ((if clip_reward then Rmin (Rmax (s_reward x) (-1)) 1 else s_reward x) + gamma * v)%R /\
    (s_absorbing x = true -> v = 0%R) /\
    (s_absorbing x = false -> In v (predict target (s_next x)) /\ forall y, In y (predict target (s_next x)) -> (y <= v)%R).

(** What one fit on the transitions [xs] must do to the agent. The memory is the list [held] of
    its rows, oldest first, each with its priority. *)
Definition per_step (a : pagent) (xs : list csample) (a' : pagent) : Prop :=
  let h := held (d_tree a) in
  exists pnew h1,
    (if ini <? length h then In pnew (map snd h) /\ forall p, In p (map snd h) -> (p <= pnew)%R else pnew = 1%R) /\
    h1 = lastn mx (h ++ map (fun x => (row_of x, pnew)) xs) /\
    d_updates a' = d_updates a + 1 /\
    (d_ok a' = true -> d_ok a = true) /\
    (length h1 <= ini -> d_ok a' = d_ok a /\ held (d_tree a') = h1 /\ d_w a' = d_w a) /\
    (ini < length h1 -> length h1 = mx -> d_ok a' = d_ok a) /\
    (ini < length h1 -> d_ok a' = true ->
       let raw p := Rpower (INR (length h1) * (p / rsum (map snd h1))) (- beta (d_updates a)) in
       exists js b ws M,
         length js = bs /\ length b = bs /\ length ws = bs /\
         (forall m j, nth_error js m = Some j -> exists x p q w,
            nth_error h1 j = Some (x, p) /\ nth_error b m = Some q /\ nth_error ws m = Some w /\
            aims (d_target a) q x /\ w = (raw p / M)%R) /\
         (exists j x p, In j js /\ nth_error h1 j = Some (x, p) /\ M = raw p) /\
         (forall j x p, In j js -> nth_error h1 j = Some (x, p) -> (raw p <= M)%R) /\
         d_w a' = train (d_w a) b ws /\
         length (held (d_tree a')) = length h1 /\
         forall j x p, nth_error h1 j = Some (x, p) -> exists p', nth_error (held (d_tree a')) j = Some (x, p') /\
           (~ In j js -> p' = p) /\
           (forall m q, nth_error js m = Some j -> nth_error b m = Some q ->
              p' = Rpower (Rabs (snd q - qa (d_w a) (s_state x) (s_action x)) + eps) alpha)) /\
    (d_ok a' = true -> d_target a' = if (d_updates a + 1) mod freq =? 0 then d_w a' else d_target a).

(** The memory of the agent: positive priorities exactly on the rows. *)
Definition PInv (a : pagent) : Prop := st_wf mx (d_tree a) /\ prio_inv mx (d_tree a).

(** The example made from a row. *)
Definition ex_of (target : Wt) (y : row) : Ob * Ac * R :=
  (s_state y, s_action y, (clipped clip_reward (s_reward y) + gamma * (if s_absorbing y then 0 else rowmax (predict target (s_next y))))%R).

Lemma batch_map : forall t (rows : list row), make_batch predict gamma clip_reward t rows = map (ex_of t) rows.
Proof.
  intros t rows. unfold make_batch. rewrite (next_q_rows 1 1 (le_n 1) (le_n 1)).
  2: { rewrite !map_length. reflexivity. }
  2: { apply Forall_forall. intros l Hl. apply in_map_iff in Hl as (y & <- & _). apply PN. }
  induction rows as [|y rows IH]; [reflexivity|]. cbn [map combine fst snd]. f_equal. exact IH.
Qed.

Lemma ex_aims : forall t (x : row), aims t (ex_of t x) x.
Proof.
  intros t x. split; [reflexivity|]. split; [reflexivity|].
  exists (if s_absorbing x then 0%R else rowmax (predict t (s_next x))). split; [reflexivity|].
  split; intros ->; [reflexivity|]. apply rowmax_spec, PN.
Qed.

(** The draws. *)
Lemma per_get_some : forall f (t : stree Ob Ac unit) g, st_wf mx t -> per_get unif coin bs f t = Some g ->
  length g = bs /\ Forall (fun q => exists k, k < st_size t /\ fst (fst q) = mx - 1 + k /\ snd (fst q) = leaf mx (t_arr t) k /\ nth_error (m_data (t_mem t)) k = Some (snd q)) g.
Proof.
  intros f t g W. unfold per_get. generalize 0 at 1 as s. revert g. generalize bs at 2 3 as m.
  induction m as [|m IH]; intros g s; cbn [seq fold_right].
  - intros [= <-]. split; [reflexivity|constructor].
  - destruct (sumtree_retrieve_is_leaf mx t (coin f s) ((INR s + unif f s) * (total_p t / INR bs))%R M2 W) as (j & G & J).
    unfold per_draw at 1. rewrite G. cbn [obind snd fst].
    destruct (nth_error (m_data (t_mem t)) (j - (mx - 1))) as [x|] eqn:EX; [|discriminate]. unfold obind at 1.
    destruct (fold_right _ _ _) as [l|] eqn:EL; [|discriminate]. cbn [obind]. intros [= <-].
    destruct (IH l (S s) EL) as [L F]. split; [cbn [length]; lia|]. constructor; [|exact F].
    exists (j - (mx - 1)). cbn [fst snd].
    assert (j - (mx - 1) < length (m_data (t_mem t))) by (apply nth_error_Some; congruence). destruct (data_len mx M2 t W) as [DL _].
    split; [lia|]. split; [lia|]. split; [unfold leaf; f_equal; lia|exact EX].
Qed.

Lemma per_get_full : forall f (t : stree Ob Ac unit), st_wf mx t -> st_size t = mx -> per_get unif coin bs f t <> None.
Proof.
  intros f t W SZ. unfold per_get. generalize 0 at 1 as s. generalize bs at 2 as m.
  induction m as [|m IH]; intros s; cbn [seq fold_right]; [discriminate|].
  destruct (sumtree_retrieve_is_leaf mx t (coin f s) ((INR s + unif f s) * (total_p t / INR bs))%R M2 W) as (j & G & J).
  unfold per_draw at 1. rewrite G. cbn [obind snd fst]. destruct (data_len mx M2 t W) as [DL _].
  destruct (nth_error (m_data (t_mem t)) (j - (mx - 1))) as [x|] eqn:EX; [|apply nth_error_None in EX; lia]. unfold obind at 1.
  specialize (IH (S s)). destruct (fold_right _ _ _) as [l|]; [discriminate|congruence].
Qed.

Lemma pinv_step : forall a d, PInv a -> PInv (pfit a d) /\ per_step a (CoreModel.rows d) (pfit a d).
Proof.
  intros a d [W PI].
  set (pnew := max_priority ini (d_tree a)).
  assert (HL := held_len mx M2 (d_tree a) W).
  assert (PN1 : if ini <? length (held (d_tree a)) then In pnew (map snd (held (d_tree a))) /\ forall p, In p (map snd (held (d_tree a))) -> (p <= pnew)%R else pnew = 1%R).
  { rewrite HL. unfold pnew, max_priority. destruct (ini <? st_size (d_tree a)) eqn:E; [|reflexivity]. apply Nat.ltb_lt in E.
    apply (held_max mx M2 (d_tree a) W PI). lia. }
  assert (PP : (0 < pnew)%R).
  { destruct (ini <? length (held (d_tree a))); [|rewrite PN1; lra]. destruct PN1 as [I _]. pose proof (held_positive mx M2 (d_tree a) W PI) as F. rewrite Forall_forall in F. apply F, I. }
  destruct (held_add mx M2 (map row_of (CoreModel.rows d)) pnew 1%R (d_tree a) W PI PP) as (t & r & AD & W1 & P1 & H1).
  rewrite map_length in AD. rewrite map_map in H1.
  unfold per_fit, fit_prioritized. cbv zeta. fold pnew. rewrite AD. pose proof (held_len mx M2 t W1) as HL1.
  set (h1 := held t) in *.
  destruct (ini <? st_size t) eqn:EI.
  2:{ apply Nat.ltb_ge in EI. cbn [d_tree d_w d_target d_updates d_drawn d_ok]. split; [split; assumption|].
      unfold per_step. exists pnew, h1. cbn [d_tree d_w d_target d_updates d_drawn d_ok].
      split; [exact PN1|]. split; [exact H1|]. split; [reflexivity|]. split; [auto|]. split; [auto|]. split; [intros; lia|]. split; [intros; lia|]. auto. }
  apply Nat.ltb_lt in EI.
  destruct (per_get unif coin bs (d_updates a) t) as [g|] eqn:EG.
  2:{ cbn [d_tree d_w d_target d_updates d_drawn d_ok]. split; [split; assumption|].
      unfold per_step. exists pnew, h1. cbn [d_tree d_w d_target d_updates d_drawn d_ok].
      split; [exact PN1|]. split; [exact H1|]. split; [reflexivity|]. split; [discriminate|]. split; [intros; lia|].
      split; [|split; intros; discriminate]. intros _ FL. exfalso. apply (per_get_full (d_updates a) t W1); [lia|exact EG]. }
  destruct (per_get_some _ _ _ W1 EG) as [GL GF]. rewrite batch_map.
  set (idx := map (fun q : nat * R * row => fst (fst q)) g).
  set (newp := fun x : row => Rpower (Rabs (snd (ex_of (d_target a) x) - qa (d_w a) (s_state x) (s_action x)) + eps) alpha).
  set (ps := map (get_priority eps alpha) _).
  assert (EPS : ps = map (fun q => newp (snd q)) g) by (unfold ps; rewrite !map_map; reflexivity).
  destruct (data_len mx M2 t W1) as [DL DN]. pose proof W1 as (W11 & W12 & HO).
  assert (IR : Forall (fun i => mx - 1 <= i < mx - 1 + st_size t) idx).
  { apply Forall_forall. intros i Hi. apply in_map_iff in Hi as (q & <- & Hq). rewrite Forall_forall in GF. destruct (GF q Hq) as (k & K1 & K2 & _). lia. }
  assert (LI : length idx = length ps) by (rewrite EPS; unfold idx; rewrite !map_length; reflexivity).
  assert (IR2 : Forall (fun i => mx - 1 <= i < 2 * mx - 1) idx) by (eapply Forall_impl; [|exact IR]; cbn beta; intros; lia).
  destruct (update_spec mx M2 idx ps (t_arr t) HO LI IR2) as (arr & U & HO2 & UN). rewrite U.
  cbn [d_tree d_w d_target d_updates d_drawn d_ok].
  assert (PPS : Forall (fun p => 0 < p)%R ps).
  { rewrite EPS. apply Forall_forall. intros p Hp. apply in_map_iff in Hp as (q & <- & _). unfold newp, Rpower. apply exp_pos. }
  set (t2 := mkST (t_mem t) arr).
  assert (W2 : st_wf mx t2) by (split; [exact W11|split; [exact W12|exact HO2]]).
  assert (P2 : prio_inv mx t2) by exact (update_prio mx t idx ps arr M2 W1 P1 LI IR PPS U).
  split; [split; assumption|].
  set (f := m_full (t_mem t)). set (i0 := m_idx (t_mem t)). set (ord := chron f i0 (seq 0 (st_size t))).
  destruct (chron_order f i0 (st_size t)) as (ON & OL & OS & OR). fold ord in ON, OL, OS, OR.
  assert (HN : forall t' : stree Ob Ac unit, t_mem t' = t_mem t -> st_wf mx t' -> forall j, nth_error (held t') j = match nth_error ord j with Some k => match nth_error (m_data (t_mem t)) k with Some x => Some (x, leaf mx (t_arr t') k) | None => None end | None => None end).
  { intros t' EM W' j. pose proof (fun k => nth_cells mx M2 t' k W') as NC. pose proof (cells_len mx M2 t' W') as CL. unfold st_size in CL. unfold held.
    set (l := combine (m_data (t_mem t')) (leaves t')) in *. clearbody l. rewrite EM in NC, CL |- *. rewrite chron_nth, CL. fold f i0. fold (st_size t). fold ord.
    destruct (nth_error ord j) as [k|]; [|reflexivity]. apply NC. }
  pose proof (HN t eq_refl W1) as HT. pose proof (HN t2 eq_refl W2) as HT2. fold h1 in HT.
  (* leaves after the update *)
  assert (UV : forall j, In j idx -> exists x, nth_error (m_data (t_mem t)) (j - (mx - 1)) = Some x /\ at_ arr j = newp x).
  { apply (update_values mx M2 (fun j p => exists x, nth_error (m_data (t_mem t)) (j - (mx - 1)) = Some x /\ p = newp x)) with (ps := ps) (t := t_arr t); auto.
    - intros i p p' (x & X1 & ->) (x' & X2 & ->). congruence.
    - rewrite EPS. unfold idx. clear -GF. induction GF as [|q g (k & K1 & K2 & K3 & K4) GF IH]; [constructor|]. cbn [map]. constructor; [|exact IH].
      exists (snd q). split; [|reflexivity]. rewrite <- K4. f_equal. lia. }
  (* positions of the drawn rows *)
  assert (JS : exists js, Forall2 (fun j q => exists k, nth_error ord j = Some k /\ fst (fst q) = mx - 1 + k /\ snd (fst q) = leaf mx (t_arr t) k /\ nth_error (m_data (t_mem t)) k = Some (snd q)) js g).
  { clear -GF OS. induction GF as [|q g (k & K1 & K2 & K3 & K4) GF (js & IH)]; [exists []; constructor|].
    destruct (OS k K1) as (j & J). exists (j :: js). constructor; [exists k; auto|exact IH]. }
  destruct JS as (js & JF).
  assert (JL : length js = length g) by (clear -JF; induction JF; cbn; auto).
  assert (JN : forall m j, nth_error js m = Some j -> exists q k, nth_error g m = Some q /\ nth_error ord j = Some k /\ fst (fst q) = mx - 1 + k /\ snd (fst q) = leaf mx (t_arr t) k /\ nth_error (m_data (t_mem t)) k = Some (snd q)).
  { clear -JF. induction JF as [|j q js g (k & K) JF IH]; intros m j' E; destruct m; cbn in E; try discriminate.
    - injection E as <-. exists q, k. cbn [nth_error]. tauto.
    - destruct (IH m j' E) as (q' & k' & E'). exists q', k'. exact E'. }
  assert (JI : forall j k, nth_error ord j = Some k -> (In j js <-> In (mx - 1 + k) idx)).
  { intros j k EK. split.
    - intros I. apply In_nth_error in I as (m & Em). destruct (JN m j Em) as (q & k' & G1 & G2 & G3 & _). rewrite EK in G2. injection G2 as <-.
      unfold idx. rewrite <- G3. apply (in_map (fun q : nat * R * row => fst (fst q))). eapply nth_error_In; eauto.
    - intros I. apply in_map_iff in I as (q & Q1 & Q2). apply In_nth_error in Q2 as (m & Em).
      destruct (nth_error js m) as [j'|] eqn:EJ.
      + destruct (JN m j' EJ) as (q' & k' & G1 & G2 & G3 & _). rewrite Em in G1. injection G1 as <-.
        assert (k' = k) by lia. subst k'. assert (j' = j).
        { rewrite NoDup_nth_error in ON. apply ON; [apply nth_error_Some; congruence|congruence]. }
        subst j'. eapply nth_error_In; eauto.
      + apply nth_error_None in EJ. assert (m < length g) by (apply nth_error_Some; congruence). lia. }
  set (beta0 := beta (d_updates a)).
  assert (TOT : total_p t = rsum (map snd h1)) by exact (held_total mx M2 t W1 P1).
  set (raw := fun p : R => Rpower (INR (length h1) * (p / rsum (map snd h1))) (- beta0)).
  set (rs := map (fun q : nat * R * row => raw (snd (fst q))) g).
  set (M := match rs with [] => 0%R | x :: l => fold_left Rmax l x end).
  assert (WS : is_weights (st_size t) (total_p t) beta0 (map (fun q => snd (fst q)) g) = map (fun q : nat * R * row => (raw (snd (fst q)) / M)%R) g).
  { unfold is_weights. rewrite !map_map, TOT, <- HL1. reflexivity. }
  assert (MM : In M rs /\ forall z, In z rs -> (z <= M)%R).
  { unfold M. destruct rs as [|x l] eqn:ER; [|apply fold_Rmax_spec]. unfold rs in ER. apply (f_equal (@length R)) in ER. rewrite map_length in ER. cbn in ER. lia. }
  rewrite WS.
  unfold per_step. exists pnew, h1. cbn [d_tree d_w d_target d_updates d_drawn d_ok].
  split; [exact PN1|]. split; [exact H1|]. split; [reflexivity|]. split; [auto|]. split; [intros; lia|]. split; [reflexivity|]. split; [|reflexivity].
  intros _ _. fold beta0. fold raw. cbv zeta.
  exists js, (map (fun q => ex_of (d_target a) (snd q)) g), (map (fun q : nat * R * row => (raw (snd (fst q)) / M)%R) g), M.
  split; [lia|]. split; [rewrite map_length; exact GL|]. split; [rewrite map_length; exact GL|].
  assert (HJ : forall m j, nth_error js m = Some j -> exists q, nth_error g m = Some q /\ nth_error h1 j = Some (snd q, snd (fst q))).
  { intros m j E. destruct (JN m j E) as (q & k & G1 & G2 & G3 & G4 & G5). exists q. split; [exact G1|]. rewrite HT, G2, G5, G4. reflexivity. }
  split.
  { intros m j E. destruct (HJ m j E) as (q & G1 & G2). exists (snd q), (snd (fst q)), (ex_of (d_target a) (snd q)), (raw (snd (fst q)) / M)%R.
    split; [exact G2|]. rewrite !nth_error_map, G1. split; [reflexivity|]. split; [reflexivity|]. split; [apply ex_aims|reflexivity]. }
  split.
  { destruct MM as [I _]. apply in_map_iff in I as (q & Q1 & Q2). apply In_nth_error in Q2 as (m & Em).
    destruct (nth_error js m) as [j|] eqn:EJ.
    - destruct (HJ m j EJ) as (q' & G1 & G2). rewrite Em in G1. injection G1 as <-. exists j, (snd q), (snd (fst q)). split; [eapply nth_error_In; eauto|]. split; [exact G2|]. symmetry. exact Q1.
    - apply nth_error_None in EJ. assert (m < length g) by (apply nth_error_Some; congruence). lia. }
  split.
  { intros j x p I E. apply In_nth_error in I as (m & Em). destruct (HJ m j Em) as (q & G1 & G2). rewrite E in G2. injection G2 as -> ->.
    apply MM. unfold rs. apply (in_map (fun q : nat * R * row => raw (snd (fst q)))). eapply nth_error_In; eauto. }
  split; [rewrite map_map; reflexivity|].
  split; [rewrite (held_len mx M2 t2 W2); rewrite HL1; reflexivity|].
  intros j x p E. fold t2. rewrite HT2. rewrite HT in E. destruct (nth_error ord j) as [k|] eqn:EK; [|discriminate].
  destruct (nth_error (m_data (t_mem t)) k) as [y|] eqn:EY; [|discriminate]. injection E as -> <-.
  destruct (OR j k EK) as [K1 _].
  exists (leaf mx (t_arr t2) k). split; [reflexivity|]. split.
  - intros NI. unfold leaf. cbn [t_arr t2]. apply UN; [lia|]. rewrite <- (JI j k EK). exact NI.
  - intros m q EM EQ. destruct (HJ m j EM) as (q' & G1 & G2). rewrite nth_error_map, G1 in EQ. injection EQ as <-.
    rewrite HT, EK, EY in G2. injection G2 as E1 _.
    assert (I : In (mx - 1 + k) idx) by (rewrite <- (JI j k EK); eapply nth_error_In; eauto).
    destruct (UV _ I) as (x' & X1 & X2). replace (mx - 1 + k - (mx - 1)) with k in X1 by lia. rewrite EY in X1. injection X1 as <-.
    unfold leaf. cbn [t_arr t2]. rewrite X2, <- E1. reflexivity.
Qed.

Section Run.
Variable (ereset : En -> option Ob -> En * Ob) (estep : En -> Ac -> En * Ob * R * bool) (hor : option nat).
Hypothesis Hhor : hor <> Some 0.
Notation W := (per_world predict qa train pol unif coin beta gamma clip_reward freq bs ini eps alpha ereset estep hor).

(** The agents a user can have: a new one, and what learn and evaluate calls make of it. *)
Inductive reached : pagent -> Prop :=
| re_new : forall w, reached (per_init mx w)
| re_learn : forall fuel e a l ns ne spf epf r, reached a ->
    (spf = None \/ exists k, spf = Some k /\ 1 <= k) -> (epf = None \/ exists k, epf = Some k /\ 1 <= k) ->
    CoreModel.learn W fuel e a l ns ne spf epf = CoreModel.Done r -> reached (CoreModel.r_ag r)
| re_eval : forall fuel e a l init ns ne r, reached a ->
    CoreModel.evaluate W fuel e a l init ns ne = CoreModel.Done r -> reached (CoreModel.r_ag r).

Lemma trace_pinv : forall e a lg p, PInv a -> CoreSpec.trace W (CoreSpec.Between e a) lg p -> PInv (agent_of p).
Proof.
  intros e a lg p H T. apply (trace_agent W (fun _ a => PInv a) e a) with (log := lg); auto.
  intros ds b d HB. apply (pinv_step b d HB).
Qed.

Lemma reached_pinv : forall a, reached a -> PInv a.
Proof.
  intros a R. induction R as [w|fuel e a l ns ne spf epf r R IH Hs He HD|fuel e a l init ns ne r R IH HD].
  - split; [apply st_init_wf; lia|]. intros k Hk. unfold leaf, at_. cbn [d_tree per_init t_arr st_init]. rewrite nth_repeat.
    change (st_size (st_init mx)) with 0. reflexivity.
  - destruct (learn_agent W Hhor fuel e a l ns ne spf epf r Hs He HD) as (p & T & <-). apply (trace_pinv e a _ p IH T).
  - destruct (evaluate_agent W Hhor fuel e a l init ns ne r HD) as (p & T & <- & _). apply (trace_pinv e a _ p IH T).
Qed.

(** Every fit of every learn call, for every network, environment, schedule and random draw. *)
Theorem core_per_updates : forall fuel e a l ns ne spf epf r, reached a ->
  (spf = None \/ exists k, spf = Some k /\ 1 <= k) -> (epf = None \/ exists k, epf = Some k /\ 1 <= k) ->
  CoreModel.learn W fuel e a l ns ne spf epf = CoreModel.Done r ->
  forall u d v, CoreModel.r_log r = u ++ CoreModel.EvFit d :: v ->
  exists u0 w p p',
    u = u0 ++ w /\ (u0 = [] \/ exists u1 d1, u0 = u1 ++ [CoreModel.EvFit d1]) /\ CoreModel.fits_of w = [] /\
    CoreModel.rows d = CoreModel.samples_of w /\
    CoreSpec.trace W (CoreSpec.Between e a) u p /\ CoreSpec.trace W (CoreSpec.Between e a) (u ++ [CoreModel.EvFit d]) p' /\
    per_step (agent_of p) (CoreModel.rows d) (agent_of p').
Proof.
  intros fuel e a l ns ne spf epf r RE Hs He HD u d v E.
  destruct (core_fits_on_policy_data W Hhor (@d_w Ob Ac Wt) (fun _ _ _ => eq_refl) (fun _ _ => eq_refl) (fun _ _ => eq_refl) (fun _ => eq_refl)
     fuel e a l ns ne spf epf r Hs He HD u d v E) as (u0 & w & p & p' & ag & EU & C & F & RD & TU & EA & TF & EF & _).
  exists u0, w, p, p'. subst ag. do 6 (split; [assumption|]). rewrite EF.
  apply (pinv_step (agent_of p) d). apply (trace_pinv e a u p (reached_pinv a RE) TU).
Qed.

(** The memory holds the last [mx] transitions handed over, in order. *)
Theorem core_per_memory : forall fuel e a l ns ne spf epf r, reached a ->
  (spf = None \/ exists k, spf = Some k /\ 1 <= k) -> (epf = None \/ exists k, epf = Some k /\ 1 <= k) ->
  CoreModel.learn W fuel e a l ns ne spf epf = CoreModel.Done r -> d_ok (CoreModel.r_ag r) = true ->
  d_ok a = true /\
  map fst (held (d_tree (CoreModel.r_ag r))) =
    lastn mx (map fst (held (d_tree a)) ++ map row_of (concat (map CoreModel.rows (CoreModel.fits_of (CoreModel.r_log r))))) /\
  Forall (fun p => 0 < p)%R (map snd (held (d_tree (CoreModel.r_ag r)))).
Proof.
  intros fuel e a l ns ne spf epf r RE Hs He HD.
  destruct (learn_agent W Hhor fuel e a l ns ne spf epf r Hs He HD) as (p & T & EA). rewrite <- EA.
  pose proof (reached_pinv a RE) as PA.
  assert (LM : forall A B (g : A -> B) n l, map g (lastn n l) = lastn n (map g l)).
  { intros A B g n0 l0. unfold lastn. rewrite map_length, skipn_map. reflexivity. }
  assert (Q : PInv (agent_of p) /\ (d_ok (agent_of p) = true -> d_ok a = true /\
     map fst (held (d_tree (agent_of p))) = lastn mx (map fst (held (d_tree a)) ++ map row_of (concat (map CoreModel.rows (CoreModel.fits_of (CoreModel.r_log r))))))).
  { apply (trace_agent W (fun ds b => PInv b /\ (d_ok b = true -> d_ok a = true /\
       map fst (held (d_tree b)) = lastn mx (map fst (held (d_tree a)) ++ map row_of (concat (map CoreModel.rows ds))))) e a) with (log := CoreModel.r_log r); auto.
    - split; [exact PA|]. intros OK. split; [exact OK|]. cbn [map concat]. rewrite app_nil_r, lastn_all; [reflexivity|].
      rewrite map_length, (held_len mx M2) by apply PA. apply (data_len mx M2), PA.
    - intros ds b d [PB HB]. destruct (pinv_step b d PB) as [PB' ST]. split; [exact PB'|]. intros OK.
      destruct ST as (pnew & h1 & S1 & S2 & S3 & S4 & S5 & S6 & S7 & S8). destruct (HB (S4 OK)) as [OA HH]. split; [exact OA|].
      assert (G : map fst (held (d_tree (CoreModel.fit W b d))) = map fst h1).
      { change (CoreModel.fit W b d) with (pfit b d). destruct (Nat.lt_ge_cases ini (length h1)) as [L|L]; [|destruct (S5 L) as (_ & -> & _); reflexivity].
        destruct (S7 L OK) as (js & bb & ws & M & _ & _ & _ & _ & _ & _ & _ & HL & HJ).
        apply list_ext. intros j. rewrite !nth_error_map. destruct (nth_error h1 j) as [[x q]|] eqn:EJ.
        - destruct (HJ j x q EJ) as (q' & -> & _). reflexivity.
        - apply nth_error_None in EJ. rewrite (proj2 (nth_error_None _ _)); [reflexivity|lia]. }
      rewrite G, S2, LM, map_app, HH, map_map. cbn [fst].
      replace (map row_of (concat (map CoreModel.rows (ds ++ [d])))) with (map row_of (concat (map CoreModel.rows ds)) ++ map row_of (CoreModel.rows d)).
      2:{ rewrite map_app, concat_app, map_app. cbn [map concat]. rewrite app_nil_r. reflexivity. }
      rewrite app_assoc. apply lastn_app. }
  destruct Q as [PB HB]. intros OK. destruct (HB OK) as [OA HH]. split; [exact OA|]. split; [exact HH|].
  apply (held_positive mx M2); apply PB.
Qed.

(** A memory that trains only once it is full never reads a slot that was not written. *)
Theorem core_per_full_sound : mx <= ini + 1 -> forall fuel e a l ns ne spf epf r, reached a ->
  (spf = None \/ exists k, spf = Some k /\ 1 <= k) -> (epf = None \/ exists k, epf = Some k /\ 1 <= k) ->
  CoreModel.learn W fuel e a l ns ne spf epf = CoreModel.Done r -> d_ok (CoreModel.r_ag r) = d_ok a.
Proof.
  intros MI fuel e a l ns ne spf epf r RE Hs He HD.
  destruct (learn_agent W Hhor fuel e a l ns ne spf epf r Hs He HD) as (p & T & EA). rewrite <- EA.
  pose proof (reached_pinv a RE) as PA.
  apply (trace_agent W (fun ds b => PInv b /\ d_ok b = d_ok a) e a) with (log := CoreModel.r_log r); auto.
  intros ds b d [PB HB]. destruct (pinv_step b d PB) as [PB' ST]. split; [exact PB'|]. change (CoreModel.fit W b d) with (pfit b d).
  destruct ST as (pnew & h1 & S1 & S2 & S3 & S4 & S5 & S6 & _). rewrite <- HB.
  destruct (Nat.lt_ge_cases ini (length h1)) as [L|L]; [|apply (S5 L)]. apply S6; [exact L|].
  assert (length h1 <= mx) by (rewrite S2, lastn_length; lia). lia.
Qed.
End Run.
End Props.

(** A memory of three slots that trains as soon as it holds two rows: the first two rows have
    the same priority, so the search of the sum tree may go to the left whatever the mass, and
    ends in the slot that was never written. Whatever the network, the exponents and the
    discount: a run of two steps with a fit at each does this for some random draws. *)
Section Unwritten.
Context {Wt : Type}.
Variable (predict : Wt -> nat -> list R) (qa : Wt -> nat -> unit -> R).
Variable (train : Wt -> list (nat * unit * R) -> list R -> Wt).
Variable (beta : nat -> R) (gamma : R) (clip_reward : bool) (freq : nat) (eps alpha : R).

Definition un_step (e : nat) (a : unit) : nat * nat * R * bool := (S e, S e, 1%R, false).
Definition un_fit unif coin := per_fit predict qa train unif coin beta gamma clip_reward freq 1 1 eps alpha.

Lemma un_two : forall coin unif w (d1 d2 : CoreModel.dataset nat unit R unit unit) x y, CoreModel.rows d1 = [x] -> CoreModel.rows d2 = [y] ->
  unif 1 0 = (3 / 4)%R -> coin 1 0 = (fun _ => true) -> forall m n,
  let a1 := un_fit unif coin (mkPer (st_init 3) w w 0 m true) d1 in
  d_ok (un_fit unif coin (mkPer (d_tree a1) (d_w a1) (d_target a1) (d_updates a1) n (d_ok a1)) d2) = false.
Proof.
  intros coin unif w d1 d2 x y R1 R2 HU HC m n a1.
  destruct (held_add 3 ltac:(lia) [row_of x] 1%R 1%R (st_init 3)) as (t1 & r1 & A1 & _). { apply st_init_wf; lia. }
  { intros k Hk. unfold leaf, at_. cbn [t_arr st_init]. rewrite nth_repeat. change (st_size (st_init 3)) with 0. reflexivity. } { lra. }
  assert (F1 : st_size t1 = 1 /\ t_mem t1 = mkMem 0 3 1 false [row_of x] /\ t_arr t1 = [1; 0; 1; 0; 0]%R).
  { unfold st_add in A1. destruct (forallb _ _); [|discriminate]. simpl in A1. inversion A1; subst t1. simpl. split; [reflexivity|]. split; [reflexivity|].
    unfold at_; simpl. repeat (f_equal; try lra). }
  destruct F1 as (S1 & M1 & AR1).
  assert (E1 : a1 = mkPer t1 w w 1 m true).
  { unfold a1, un_fit, per_fit, fit_prioritized. cbv zeta. rewrite R1. cbn [d_tree map length]. change (max_priority 1 (st_init 3)) with 1%R. cbn [length] in A1. rewrite A1.
    rewrite S1. cbn [Nat.ltb Nat.leb d_tree d_w d_target d_updates d_drawn d_ok]. destruct (_ =? 0); reflexivity. }
  rewrite E1. cbn [d_tree d_w d_target d_updates d_drawn d_ok].
  unfold un_fit, per_fit, fit_prioritized. cbv zeta. rewrite R2. cbn [d_tree map length].
  replace (max_priority 1 t1) with 1%R by (unfold max_priority; rewrite S1; reflexivity).
  destruct (st_add t1 [row_of y] (repeat 1%R 1) 1 1) as [[t2 r2]|] eqn:A2; [|reflexivity].
  assert (F2 : st_size t2 = 2 /\ t_mem t2 = mkMem 0 3 2 false [row_of x; row_of y] /\ t_arr t2 = [2; 1; 1; 1; 0]%R).
  { destruct t1 as [m1 arr1]. cbn [t_mem t_arr] in *. subst m1 arr1. unfold st_add in A2. destruct (forallb _ _); [|discriminate]. simpl in A2. inversion A2; subst t2. simpl. split; [reflexivity|]. split; [reflexivity|].
    unfold at_; simpl. repeat (f_equal; try lra). }
  destruct F2 as (S2 & Me2 & AR2). rewrite S2. cbn [Nat.ltb Nat.leb d_updates].
  assert (G : per_get unif coin 1 1 t2 = None).
  { unfold per_get, per_draw. cbn [seq fold_right]. unfold get_ind, total_p. rewrite AR2, Me2, HC, HU. cbn [length retrieve Nat.leb m_max].
    simpl (2 * 0 + 1). simpl (1 + 1). simpl (2 * 1 + 1). unfold at_; simpl nth.
    destruct (Req_EM_T 1 1) as [Q|Q]; [|exfalso; lra]. cbn iota. simpl (2 * 1 + 1). simpl (3 <=? 5).
    cbn iota. simpl nth. destruct (Req_EM_T 1 0) as [Q1|Q1]; [exfalso; lra|].
    destruct (Rle_dec ((INR 0 + 3 / 4) * (2 / INR 1)) 1) as [L|L]; [exfalso; cbn in L; lra|]. simpl. reflexivity. }
  rewrite G. reflexivity.
Qed.

Theorem core_per_unwritten_refuted : forall w, exists unif coin r,
  (forall i j, 0 <= unif i j < 1)%R /\
  CoreModel.learn (per_world predict qa train (fun _ _ _ => tt) unif coin beta gamma clip_reward freq 1 1 eps alpha (fun (e : nat) _ => (0, 0)) un_step None) 3 0
    (per_init 3 w) VecCoreModel.fresh_logic (Some 2) None (Some 1) None = CoreModel.Done r /\
  length (CoreModel.fits_of (CoreModel.r_log r)) = 2 /\ d_ok (CoreModel.r_ag r) = false.
Proof.
  intros w. set (unif := fun _ _ : nat => (3 / 4)%R). set (coin := fun _ _ _ : nat => true). exists unif, coin.
  set (act := fun (a : @pagent nat unit Wt) (o : nat) (ps : unit) => (mkPer (d_tree a) (d_w a) (d_target a) (d_updates a) (d_drawn a + 1) (d_ok a), tt, tt)).
  change (per_world _ _ _ _ _ _ _ _ _ _ _ _ _ _ _ _ _) with (CoreModel.mkW nat (@pagent nat unit Wt) nat unit R unit unit (fun (e : nat) _ => (0, 0)) un_step
    (fun a _ => (a, tt, tt)) (fun a o ps => act a o ps) (fun a o => (a, o)) (fun a => a) false None (un_fit unif coin)).
  eexists. split; [intros; unfold unif; lra|]. split; [lazy -[un_fit IZR act per_init]; reflexivity|].
  cbn [CoreModel.r_ag CoreModel.r_log CoreModel.fits_of flat_map app length]. split; [reflexivity|].
  set (x1 := CoreModel.mkS 0 tt 1%R 1 false false tt tt). set (x2 := CoreModel.mkS 1 tt 1%R 2 false false tt tt).
  refine (un_two (fun _ _ _ => true) (fun _ _ => (3 * / 4)%R) w (CoreModel.mkD [x1] []) (CoreModel.mkD [x2] []) x1 x2 eq_refl eq_refl eq_refl eq_refl 1 _).
Qed.
End Unwritten.

(** A run of four steps with a fit at each, a memory of two rows that trains from the second fit
    on, one row per batch: the three training fits never fail, the memory ends with the last
    two transitions, and the target weights are those after four fits. *)
Definition ex_per := per_world (fun (w o : nat) => [INR w; INR o]) (fun w o (a : unit) => INR o) (fun w b ws => w + length b) (fun _ _ _ => tt)
  (fun _ _ => (1 / 2)%R) (fun _ _ _ => true) (fun _ => 1%R) (1 / 2)%R false 2 1 1 (1 / 100)%R 1%R (fun (e : nat) _ => (0, 0)) un_step (Some 3).
Example core_per_ex : exists r,
  CoreModel.learn ex_per 5 0 (per_init 2 0) VecCoreModel.fresh_logic (Some 4) None (Some 1) None = CoreModel.Done r /\
  d_ok (CoreModel.r_ag r) = true /\ map (fun x => s_state (fst x)) (held (d_tree (CoreModel.r_ag r))) = [2; 0].
Proof.
  assert (exists r, CoreModel.learn ex_per 5 0 (per_init 2 0) VecCoreModel.fresh_logic (Some 4) None (Some 1) None = CoreModel.Done r /\
    concat (map (fun d => map CoreModel.state (CoreModel.rows d)) (CoreModel.fits_of (CoreModel.r_log r))) = [0; 1; 2; 0]) as (r & HD & HS).
  { unfold ex_per, per_world. set (ft := per_fit _ _ _ _ _ _ _ _ _ _ _ _ _). clearbody ft.
    eexists. split; [lazy -[IZR]; reflexivity|]. reflexivity. }
  exists r. split; [exact HD|].
  assert (OK : d_ok (CoreModel.r_ag r) = true).
  { apply (core_per_full_sound (fun (w o : nat) => [INR w; INR o]) (fun w o (a : unit) => INR o) (fun w b ws => w + length b) (fun _ _ _ => tt)
      (fun _ _ => (1 / 2)%R) (fun _ _ _ => true) (fun _ => 1%R) (1 / 2)%R false 2 1 1 2 (1 / 100)%R 1%R ltac:(discriminate) (le_n 1) (le_n 2)
      (fun (e : nat) _ => (0, 0)) un_step (Some 3) ltac:(discriminate) (le_n 2) 5 0 (per_init 2 0) VecCoreModel.fresh_logic (Some 4) None (Some 1) None r); auto.
    constructor. right. eauto. }
  split; [exact OK|].
  destruct (core_per_memory (fun (w o : nat) => [INR w; INR o]) (fun w o (a : unit) => INR o) (fun w b ws => w + length b) (fun _ _ _ => tt)
    (fun _ _ => (1 / 2)%R) (fun _ _ _ => true) (fun _ => 1%R) (1 / 2)%R false 2 1 1 2 (1 / 100)%R 1%R ltac:(discriminate) (le_n 1) (le_n 2)
    (fun (e : nat) _ => (0, 0)) un_step (Some 3) ltac:(discriminate) 5 0 (per_init 2 0) VecCoreModel.fresh_logic (Some 4) None (Some 1) None r) as (_ & H & _); auto.
  { constructor. } { right. eauto. }
  rewrite <- (map_map fst s_state), H. clear H HD OK.
  assert (HX : map s_state (map row_of (concat (map CoreModel.rows (CoreModel.fits_of (CoreModel.r_log r))))) = [0; 1; 2; 0]).
  { rewrite map_map, concat_map, map_map. exact HS. }
  change (held (d_tree (per_init 2 0))) with (@nil (sample nat unit unit * R)). cbn [map app].
  unfold lastn. rewrite <- skipn_map. rewrite <- (map_length s_state), HX. reflexivity.
Qed.

Print Assumptions core_per_updates.
Print Assumptions core_per_memory.
Print Assumptions core_per_full_sound.
Print Assumptions core_per_unwritten_refuted.

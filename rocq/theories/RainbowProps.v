(** C124: what a Rainbow agent trained by [Core] learns from. *)
From Coq Require Import List Arith Lia Bool Reals Lra Permutation.
From Verif Require Import Common ReplayModel ReplaySpec ReplayProofs ReplayProps SumTreeModel SumTreeSpec SumTreeProofs SumTreeProps DqnModel DqnSpec DqnProofs DqnProps UtilProofs CoreDqnModel CoreDqnProps CorePerModel CorePerProofs CorePerProps OnPolicyProps CorePgProps RainbowModel RainbowProofs.
From Verif Require CoreModel CoreSpec CoreProofs CoreProps VecCoreModel.
Import ListNotations.

Section Props.
Context {En Ob Ac Wt : Type}.
Variable (qval : Wt -> Ob -> list R) (dist : Wt -> Ob -> nat -> list R) (dista : Wt -> Ob -> Ac -> list R).
Variable (train : Wt -> list (Ob * Ac * list R) -> list R -> Wt).
Variable (pol : Wt -> nat -> Ob -> Ac).
Variable (unif : nat -> nat -> R) (coin : nat -> nat -> nat -> bool) (beta : nat -> R).
Variable (gamma : R) (clip_reward : bool) (freq bs ini mx : nat) (eps alpha : R).
Variable (nst na : nat) (vmin vmax aeps : R).
Hypothesis QN : forall w o, qval w o <> [].
Hypothesis DN : forall w o a, length (dist w o a) = na.
Hypothesis B1 : 1 <= bs.
Hypothesis M2 : 2 <= mx.
Hypothesis N1 : 1 <= nst.
Hypothesis A2 : 2 <= na.
Hypothesis V1 : (vmin < vmax)%R.
Hypothesis AE : (0 < aeps <= (vmax - vmin) / INR (na - 1))%R.
Notation row := (sample Ob Ac unit).
Notation ragent := (@ragent Ob Ac Wt).
Notation csample := (CoreModel.sample Ob Ac R unit).
Notation rfit := (rb_fit qval dist dista train unif coin beta gamma clip_reward freq bs ini eps alpha nst na vmin vmax aeps).

(** A training example for a stored window: its first state and action, and the distribution that
    the target network gives for the state [nst] steps later and a greedy action of the online
    network, moved by the return of the window and shrunk by [gamma ^ nst], or all of it at the
    return when that state is absorbing; clipped to the range and projected on the atoms. *)
Definition raims (w target : Wt) (q : Ob * Ac * list R) (x : row) : Prop :=
  fst (fst q) = s_state x /\ snd (fst q) = s_action x /\ length (snd q) = na /\
  exists best, best < length (qval w (s_next x)) /\
    (forall v, In v (qval w (s_next x)) -> (v <= nth best (qval w (s_next x)) 0)%R) /\
    let ret := if clip_reward then Rmin (Rmax (s_reward x) (-1)) 1 else s_reward x in
    let disc := if s_absorbing x then 0%R else (gamma ^ nst)%R in
    let y i := clamp vmin vmax (ret + disc * atom na vmin vmax i) in
    let p := dist target (s_next x) best in
    (forall k, k < na -> nth k (snd q) 0%R = sum na (fun i => nth i p 0 * tri ((vmax - vmin) / INR (na - 1)) (y i) (atom na vmin vmax k))%R) /\
    sum na (fun k => nth k (snd q) 0%R) = sum na (fun i => nth i p 0%R) /\
    sum na (fun k => nth k (snd q) 0 * atom na vmin vmax k)%R = sum na (fun i => nth i p 0 * y i)%R.

(** Cross entropy of a target and the prediction, with the floor of the code. *)
Definition xent (m q : list R) : R := (- rsum (map (fun z => fst z * ln (Rmax (snd z) (1 / 100000))) (combine m q)))%R.

(** What one fit on the transitions [xs] must do to the agent. *)
Definition rb_step (a : ragent) (xs : list csample) (a' : ragent) : Prop :=
  let h := held (r_tree a) in
  exists pnew h1,
    (if ini <? length h then In pnew (map snd h) /\ forall p, In p (map snd h) -> (p <= pnew)%R else pnew = 1%R) /\
    h1 = lastn mx (h ++ map (fun x => (x, pnew)) (nstep_samples (map row_of xs) nst gamma)) /\
    (r_ok a' = true -> r_ok a = true) /\
    (length h1 <= ini -> r_ok a' = r_ok a /\ held (r_tree a') = h1 /\ r_w a' = r_w a /\ r_target a' = r_target a /\ r_updates a' = r_updates a) /\
    (ini < length h1 -> length h1 = mx -> r_ok a' = r_ok a) /\
    (ini < length h1 -> r_ok a' = true ->
       let raw p := Rpower (INR (length h1) * (p / rsum (map snd h1))) (- beta (r_updates a)) in
       exists js b ws M,
         length js = bs /\ length b = bs /\ length ws = bs /\
         (forall m j, nth_error js m = Some j -> exists x p q w,
            nth_error h1 j = Some (x, p) /\ nth_error b m = Some q /\ nth_error ws m = Some w /\
            raims (r_w a) (r_target a) q x /\ w = (raw p / M)%R) /\
         (exists j x p, In j js /\ nth_error h1 j = Some (x, p) /\ M = raw p) /\
         (forall j x p, In j js -> nth_error h1 j = Some (x, p) -> (raw p <= M)%R) /\
         r_w a' = train (r_w a) b ws /\ r_updates a' = r_updates a + 1 /\
         r_target a' = (if (r_updates a + 1) mod freq =? 0 then r_w a' else r_target a) /\
         length (held (r_tree a')) = length h1 /\
         forall j x p, nth_error h1 j = Some (x, p) -> exists p', nth_error (held (r_tree a')) j = Some (x, p') /\
           (~ In j js -> p' = p) /\
           (forall m q, nth_error js m = Some j -> nth_error b m = Some q ->
              p' = Rpower (Rabs (xent (snd q) (dista (r_w a) (s_state x) (s_action x))) + eps) alpha)).

(** The memory of the agent: positive priorities exactly on the rows. *)
Definition RInv (a : ragent) : Prop := st_wf mx (r_tree a) /\ prio_inv mx (r_tree a).

(** The example made from a row. *)
Definition rex (w target : Wt) (x : row) : Ob * Ac * list R :=
  match rb_example qval dist gamma clip_reward nst na vmin vmax aeps w target x with Some e => e | None => (s_state x, s_action x, []) end.

Lemma rex_spec : forall w t x, rb_example qval dist gamma clip_reward nst na vmin vmax aeps w t x = Some (rex w t x) /\ raims w t (rex w t x) x.
Proof.
  intros w t x. unfold rex, rb_example. cbv zeta. set (best := argmax (qval w (s_next x))).
  destruct (categorical_projection na vmin vmax aeps (clipped clip_reward (s_reward x)) (gamma ^ nst)%R (s_absorbing x) (dist t (s_next x) best) A2 V1 AE (DN _ _ _))
    as (m & P & L & K & S1 & S2 & _). cbv zeta in K, S1, S2.
  rewrite P. cbn [obind]. split; [reflexivity|]. split; [reflexivity|]. split; [reflexivity|]. split; [exact L|]. cbn [fst snd].
  destruct (argmax_spec (qval w (s_next x)) (QN _ _)) as (Q1 & _ & Q2). fold best in Q1, Q2.
  exists best. split; [exact Q1|]. split; [exact Q2|]. split; [exact K|]. split; [exact S1|exact S2].
Qed.

Lemma rbatch_map : forall w t (rows : list row), rb_batch qval dist gamma clip_reward nst na vmin vmax aeps w t rows = Some (map (rex w t) rows).
Proof.
  intros w t rows. induction rows as [|x rows IH]; [reflexivity|]. unfold rb_batch in *. cbn [fold_right map]. rewrite IH.
  rewrite (proj1 (rex_spec w t x)). reflexivity.
Qed.

Lemma rex_state : forall w t x, fst (fst (rex w t x)) = s_state x /\ snd (fst (rex w t x)) = s_action x.
Proof. intros w t x. destruct (rex_spec w t x) as [_ (H1 & H2 & _)]. auto. Qed.

Lemma rinv_step : forall a d, RInv a -> RInv (rfit a d) /\ rb_step a (CoreModel.rows d) (rfit a d).
Proof.
  intros a d [W PI].
  set (pnew := max_priority ini (r_tree a)).
  assert (HL := held_len mx M2 (r_tree a) W).
  assert (PN1 : if ini <? length (held (r_tree a)) then In pnew (map snd (held (r_tree a))) /\ forall p, In p (map snd (held (r_tree a))) -> (p <= pnew)%R else pnew = 1%R).
  { rewrite HL. unfold pnew, max_priority. destruct (ini <? st_size (r_tree a)) eqn:E; [|reflexivity]. apply Nat.ltb_lt in E.
    apply (held_max mx M2 (r_tree a) W PI). lia. }
  assert (PP : (0 < pnew)%R).
  { destruct (ini <? length (held (r_tree a))); [|rewrite PN1; lra]. destruct PN1 as [I _]. pose proof (held_positive mx M2 (r_tree a) W PI) as F. rewrite Forall_forall in F. apply F, I. }
  destruct (nheld_add mx M2 (map row_of (CoreModel.rows d)) nst pnew gamma (r_tree a) W PI PP N1) as (t & r & AD & W1 & P1 & H1).
  rewrite map_length in AD.
  unfold rb_fit. cbv zeta. fold pnew. rewrite AD. pose proof (held_len mx M2 t W1) as HL1.
  set (h1 := held t) in *.
  destruct (ini <? st_size t) eqn:EI.
  2:{ apply Nat.ltb_ge in EI. cbn [r_tree r_w r_target r_updates r_drawn r_ok]. split; [split; assumption|].
      unfold rb_step. exists pnew, h1. cbn [r_tree r_w r_target r_updates r_drawn r_ok].
      split; [exact PN1|]. split; [exact H1|]. split; [auto|]. split; [auto|]. split; intros; lia. }
  apply Nat.ltb_lt in EI.
  destruct (per_get unif coin bs (r_updates a) t) as [g|] eqn:EG.
  2:{ cbn [r_tree r_w r_target r_updates r_drawn r_ok]. split; [split; assumption|].
      unfold rb_step. exists pnew, h1. cbn [r_tree r_w r_target r_updates r_drawn r_ok].
      split; [exact PN1|]. split; [exact H1|]. split; [discriminate|]. split; [intros; lia|].
      split; [|intros; discriminate]. intros _ FL. exfalso. apply (per_get_full unif coin bs mx B1 M2 (r_updates a) t W1); [lia|exact EG]. }
  destruct (per_get_some unif coin bs mx B1 M2 _ _ _ W1 EG) as [GL GF]. rewrite rbatch_map.
  set (idx := map (fun q : nat * R * row => fst (fst q)) g).
  set (newp := fun x : row => Rpower (Rabs (xent (snd (rex (r_w a) (r_target a) x)) (dista (r_w a) (s_state x) (s_action x))) + eps) alpha).
  set (ps := map (get_priority eps alpha) _).
  assert (EPS : ps = map (fun q => newp (snd q)) g) by (unfold ps; rewrite !map_map; apply map_ext; intros q; unfold get_priority, newp, rb_kl, xent; destruct (rex_state (r_w a) (r_target a) (snd q)) as [-> ->]; reflexivity).
  destruct (data_len mx M2 t W1) as [DL DN2]. pose proof W1 as (W11 & W12 & HO).
  assert (IR : Forall (fun i => mx - 1 <= i < mx - 1 + st_size t) idx).
  { apply Forall_forall. intros i Hi. apply in_map_iff in Hi as (q & <- & Hq). rewrite Forall_forall in GF. destruct (GF q Hq) as (k & K1 & K2 & _). lia. }
  assert (LI : length idx = length ps) by (rewrite EPS; unfold idx; rewrite !map_length; reflexivity).
  assert (IR2 : Forall (fun i => mx - 1 <= i < 2 * mx - 1) idx) by (eapply Forall_impl; [|exact IR]; cbn beta; intros; lia).
  destruct (update_spec mx M2 idx ps (t_arr t) HO LI IR2) as (arr & U & HO2 & UN). rewrite U.
  cbn [r_tree r_w r_target r_updates r_drawn r_ok].
  assert (PPS : Forall (fun p => 0 < p)%R ps).
  { rewrite EPS. apply Forall_forall. intros p Hp. apply in_map_iff in Hp as (q & <- & _). unfold newp, Rpower. apply exp_pos. }
  set (t2 := mkST (t_mem t) arr).
  assert (W2 : st_wf mx t2) by (split; [exact W11|split; [exact W12|exact HO2]]).
  assert (P2 : prio_inv mx t2) by exact (update_prio mx t idx ps arr M2 W1 P1 LI IR PPS U).
  split; [split; assumption|].
  set (f := m_full (t_mem t)). set (i0 := m_idx (t_mem t)). set (ord := chron f i0 (seq 0 (st_size t))).
  destruct (chron_order f i0 (st_size t)) as (ON & OL & OS & OR). fold ord in ON, OL, OS, OR.
  assert (HN : forall t' : stree Ob Ac unit, t_mem t' = t_mem t -> st_wf mx t' -> forall j, nth_error (held t') j = match nth_error ord j with Some k => match nth_error (m_data (t_mem t)) k with Some x => Some (x, leaf mx (t_arr t') k) | None => None end | None => None end).
  { intros t' EM W' j. pose proof (fun k => nth_cells mx M2 t' k W') as NC. pose proof (cells_len mx M2 t' W') as CL. unfold st_size in CL. unfold held.
    set (l := combine (m_data (t_mem t')) (leaves t')) in *. clearbody l. rewrite EM in NC, CL |- *. rewrite chron_nth, CL. fold f i0. fold (st_size t). fold ord.
    destruct (nth_error ord j) as [k|]; [|reflexivity]. apply NC. }
  pose proof (HN t eq_refl W1) as HT. pose proof (HN t2 eq_refl W2) as HT2. fold h1 in HT.
  (* leaves after the update *)
  assert (UV : forall j, In j idx -> exists x, nth_error (m_data (t_mem t)) (j - (mx - 1)) = Some x /\ at_ arr j = newp x).
  { apply (update_values mx M2 (fun j p => exists x, nth_error (m_data (t_mem t)) (j - (mx - 1)) = Some x /\ p = newp x)) with (ps := ps) (t := t_arr t); auto.
    - intros i p p' (x & X1 & ->) (x' & X2 & ->). congruence.
    - rewrite EPS. unfold idx. clear -GF. induction GF as [|q g (k & K1 & K2 & K3 & K4) GF IH]; [constructor|]. cbn [map]. constructor; [|exact IH].
      exists (snd q). split; [|reflexivity]. rewrite <- K4. f_equal. lia. }
  (* positions of the drawn rows *)
  assert (JS : exists js, Forall2 (fun j q => exists k, nth_error ord j = Some k /\ fst (fst q) = mx - 1 + k /\ snd (fst q) = leaf mx (t_arr t) k /\ nth_error (m_data (t_mem t)) k = Some (snd q)) js g).
  { clear -GF OS. induction GF as [|q g (k & K1 & K2 & K3 & K4) GF (js & IH)]; [exists []; constructor|].
    destruct (OS k K1) as (j & J). exists (j :: js). constructor; [exists k; auto|exact IH]. }
  destruct JS as (js & JF).
  assert (JL : length js = length g) by (clear -JF; induction JF; cbn; auto).
  assert (JN : forall m j, nth_error js m = Some j -> exists q k, nth_error g m = Some q /\ nth_error ord j = Some k /\ fst (fst q) = mx - 1 + k /\ snd (fst q) = leaf mx (t_arr t) k /\ nth_error (m_data (t_mem t)) k = Some (snd q)).
  { clear -JF. induction JF as [|j q js g (k & K) JF IH]; intros m j' E; destruct m; cbn in E; try discriminate.
    - injection E as <-. exists q, k. cbn [nth_error]. tauto.
    - destruct (IH m j' E) as (q' & k' & E'). exists q', k'. exact E'. }
  assert (JI : forall j k, nth_error ord j = Some k -> (In j js <-> In (mx - 1 + k) idx)).
  { intros j k EK. split.
    - intros I. apply In_nth_error in I as (m & Em). destruct (JN m j Em) as (q & k' & G1 & G2 & G3 & _). rewrite EK in G2. injection G2 as <-.
      unfold idx. rewrite <- G3. apply (in_map (fun q : nat * R * row => fst (fst q))). eapply nth_error_In; eauto.
    - intros I. apply in_map_iff in I as (q & Q1 & Q2). apply In_nth_error in Q2 as (m & Em).
      destruct (nth_error js m) as [j'|] eqn:EJ.
      + destruct (JN m j' EJ) as (q' & k' & G1 & G2 & G3 & _). rewrite Em in G1. injection G1 as <-.
        assert (k' = k) by lia. subst k'. assert (j' = j).
        { rewrite NoDup_nth_error in ON. apply ON; [apply nth_error_Some; congruence|congruence]. }
        subst j'. eapply nth_error_In; eauto.
      + apply nth_error_None in EJ. assert (m < length g) by (apply nth_error_Some; congruence). lia. }
  set (beta0 := beta (r_updates a)).
  assert (TOT : total_p t = rsum (map snd h1)) by exact (held_total mx M2 t W1 P1).
  set (raw := fun p : R => Rpower (INR (length h1) * (p / rsum (map snd h1))) (- beta0)).
  set (rs := map (fun q : nat * R * row => raw (snd (fst q))) g).
  set (M := match rs with [] => 0%R | x :: l => fold_left Rmax l x end).
  assert (WS : is_weights (st_size t) (total_p t) beta0 (map (fun q => snd (fst q)) g) = map (fun q : nat * R * row => (raw (snd (fst q)) / M)%R) g).
  { unfold is_weights. rewrite !map_map, TOT, <- HL1. reflexivity. }
  assert (MM : In M rs /\ forall z, In z rs -> (z <= M)%R).
  { unfold M. destruct rs as [|x l] eqn:ER; [|apply fold_Rmax_spec]. unfold rs in ER. apply (f_equal (@length R)) in ER. rewrite map_length in ER. cbn in ER. lia. }
  rewrite WS.
  unfold rb_step. exists pnew, h1. cbn [r_tree r_w r_target r_updates r_drawn r_ok].
  split; [exact PN1|]. split; [exact H1|]. split; [auto|]. split; [intros; lia|]. split; [reflexivity|].
  intros _ _. fold beta0. fold raw. cbv zeta.
  exists js, (map (fun q => rex (r_w a) (r_target a) (snd q)) g), (map (fun q : nat * R * row => (raw (snd (fst q)) / M)%R) g), M.
  split; [lia|]. split; [rewrite map_length; exact GL|]. split; [rewrite map_length; exact GL|].
  assert (HJ : forall m j, nth_error js m = Some j -> exists q, nth_error g m = Some q /\ nth_error h1 j = Some (snd q, snd (fst q))).
  { intros m j E. destruct (JN m j E) as (q & k & G1 & G2 & G3 & G4 & G5). exists q. split; [exact G1|]. rewrite HT, G2, G5, G4. reflexivity. }
  split.
  { intros m j E. destruct (HJ m j E) as (q & G1 & G2). exists (snd q), (snd (fst q)), (rex (r_w a) (r_target a) (snd q)), (raw (snd (fst q)) / M)%R.
    split; [exact G2|]. rewrite !nth_error_map, G1. split; [reflexivity|]. split; [reflexivity|]. split; [apply rex_spec|reflexivity]. }
  split.
  { destruct MM as [I _]. apply in_map_iff in I as (q & Q1 & Q2). apply In_nth_error in Q2 as (m & Em).
    destruct (nth_error js m) as [j|] eqn:EJ.
    - destruct (HJ m j EJ) as (q' & G1 & G2). rewrite Em in G1. injection G1 as <-. exists j, (snd q), (snd (fst q)). split; [eapply nth_error_In; eauto|]. split; [exact G2|]. symmetry. exact Q1.
    - apply nth_error_None in EJ. assert (m < length g) by (apply nth_error_Some; congruence). lia. }
  split.
  { intros j x p I E. apply In_nth_error in I as (m & Em). destruct (HJ m j Em) as (q & G1 & G2). rewrite E in G2. injection G2 as -> ->.
    apply MM. unfold rs. apply (in_map (fun q : nat * R * row => raw (snd (fst q)))). eapply nth_error_In; eauto. }
  split; [rewrite map_map; reflexivity|]. split; [reflexivity|]. split; [reflexivity|].
  split; [rewrite (held_len mx M2 t2 W2); rewrite HL1; reflexivity|].
  intros j x p E. fold t2. rewrite HT2. rewrite HT in E. destruct (nth_error ord j) as [k|] eqn:EK; [|discriminate].
  destruct (nth_error (m_data (t_mem t)) k) as [y|] eqn:EY; [|discriminate]. injection E as -> <-.
  destruct (OR j k EK) as [K1 _].
  exists (leaf mx (t_arr t2) k). split; [reflexivity|]. split.
  - intros NI. unfold leaf. cbn [t_arr t2]. apply UN; [lia|]. rewrite <- (JI j k EK). exact NI.
  - intros m q EM EQ. destruct (HJ m j EM) as (q' & G1 & G2). rewrite nth_error_map, G1 in EQ. injection EQ as <-.
    rewrite HT, EK, EY in G2. injection G2 as E1 _.
    assert (I : In (mx - 1 + k) idx) by (rewrite <- (JI j k EK); eapply nth_error_In; eauto).
    destruct (UV _ I) as (x' & X1 & X2). replace (mx - 1 + k - (mx - 1)) with k in X1 by lia. rewrite EY in X1. injection X1 as <-.
    unfold leaf. cbn [t_arr t2]. rewrite X2, <- E1. reflexivity.
Qed.

Section Run.
Variable (ereset : En -> option Ob -> En * Ob) (estep : En -> Ac -> En * Ob * R * bool) (hor : option nat).
Hypothesis Hhor : hor <> Some 0.
Notation W := (rb_world qval dist dista train pol unif coin beta gamma clip_reward freq bs ini eps alpha nst na vmin vmax aeps ereset estep hor).

(** The windows of [nst] consecutive steps of the dataset of one fit (see replay_nstep_meaning). *)
Definition windows (d : CoreModel.dataset Ob Ac R unit unit) : list row := nstep_samples (map row_of (CoreModel.rows d)) nst gamma.

(** The agents a user can have: a new one, and what learn and evaluate calls make of it. *)
Inductive rreached : ragent -> Prop :=
| rr_new : forall w, rreached (rb_init mx w)
| rr_learn : forall fuel e a l ns ne spf epf r, rreached a ->
    (spf = None \/ exists k, spf = Some k /\ 1 <= k) -> (epf = None \/ exists k, epf = Some k /\ 1 <= k) ->
    CoreModel.learn W fuel e a l ns ne spf epf = CoreModel.Done r -> rreached (CoreModel.r_ag r)
| rr_eval : forall fuel e a l init ns ne r, rreached a ->
    CoreModel.evaluate W fuel e a l init ns ne = CoreModel.Done r -> rreached (CoreModel.r_ag r).

Lemma trace_rinv : forall e a lg p, RInv a -> CoreSpec.trace W (CoreSpec.Between e a) lg p -> RInv (agent_of p).
Proof.
  intros e a lg p H T. apply (trace_agent W (fun _ a => RInv a) e a) with (log := lg); auto.
  intros ds b d HB. apply (rinv_step b d HB).
Qed.

Lemma rreached_rinv : forall a, rreached a -> RInv a.
Proof.
  intros a R. induction R as [w|fuel e a l ns ne spf epf r R IH Hs He HD|fuel e a l init ns ne r R IH HD].
  - split; [apply st_init_wf; lia|]. intros k Hk. unfold leaf, at_. cbn [r_tree rb_init t_arr st_init]. rewrite nth_repeat.
    change (st_size (st_init mx)) with 0. reflexivity.
  - destruct (learn_agent W Hhor fuel e a l ns ne spf epf r Hs He HD) as (p & T & <-). apply (trace_rinv e a _ p IH T).
  - destruct (evaluate_agent W Hhor fuel e a l init ns ne r HD) as (p & T & <- & _). apply (trace_rinv e a _ p IH T).
Qed.

(** Every fit of every learn call, for every network, environment, schedule and random draw. *)
Theorem rainbow_updates : forall fuel e a l ns ne spf epf r, rreached a ->
  (spf = None \/ exists k, spf = Some k /\ 1 <= k) -> (epf = None \/ exists k, epf = Some k /\ 1 <= k) ->
  CoreModel.learn W fuel e a l ns ne spf epf = CoreModel.Done r ->
  forall u d v, CoreModel.r_log r = u ++ CoreModel.EvFit d :: v ->
  exists u0 w p p',
    u = u0 ++ w /\ (u0 = [] \/ exists u1 d1, u0 = u1 ++ [CoreModel.EvFit d1]) /\ CoreModel.fits_of w = [] /\
    CoreModel.rows d = CoreModel.samples_of w /\
    CoreSpec.trace W (CoreSpec.Between e a) u p /\ CoreSpec.trace W (CoreSpec.Between e a) (u ++ [CoreModel.EvFit d]) p' /\
    rb_step (agent_of p) (CoreModel.rows d) (agent_of p').
Proof.
  intros fuel e a l ns ne spf epf r RE Hs He HD u d v E.
  destruct (core_fits_on_policy_data W Hhor (@r_w Ob Ac Wt) (fun _ _ _ => eq_refl) (fun _ _ => eq_refl) (fun _ _ => eq_refl) (fun _ => eq_refl)
     fuel e a l ns ne spf epf r Hs He HD u d v E) as (u0 & w & p & p' & ag & EU & C & F & RD & TU & EA & TF & EF & _).
  exists u0, w, p, p'. subst ag. do 6 (split; [assumption|]). rewrite EF.
  apply (rinv_step (agent_of p) d). apply (trace_rinv e a u p (rreached_rinv a RE) TU).
Qed.

(** The memory holds the last [mx] transitions handed over, in order. *)
Theorem rainbow_memory : forall fuel e a l ns ne spf epf r, rreached a ->
  (spf = None \/ exists k, spf = Some k /\ 1 <= k) -> (epf = None \/ exists k, epf = Some k /\ 1 <= k) ->
  CoreModel.learn W fuel e a l ns ne spf epf = CoreModel.Done r -> r_ok (CoreModel.r_ag r) = true ->
  r_ok a = true /\
  map fst (held (r_tree (CoreModel.r_ag r))) =
    lastn mx (map fst (held (r_tree a)) ++ flat_map windows (CoreModel.fits_of (CoreModel.r_log r))) /\
  Forall (fun p => 0 < p)%R (map snd (held (r_tree (CoreModel.r_ag r)))).
Proof.
  intros fuel e a l ns ne spf epf r RE Hs He HD.
  destruct (learn_agent W Hhor fuel e a l ns ne spf epf r Hs He HD) as (p & T & EA). rewrite <- EA.
  pose proof (rreached_rinv a RE) as PA.
  assert (LM : forall A B (g : A -> B) n l, map g (lastn n l) = lastn n (map g l)).
  { intros A B g n0 l0. unfold lastn. rewrite map_length, skipn_map. reflexivity. }
  assert (Q : RInv (agent_of p) /\ (r_ok (agent_of p) = true -> r_ok a = true /\
     map fst (held (r_tree (agent_of p))) = lastn mx (map fst (held (r_tree a)) ++ flat_map windows (CoreModel.fits_of (CoreModel.r_log r))))).
  { apply (trace_agent W (fun ds b => RInv b /\ (r_ok b = true -> r_ok a = true /\
       map fst (held (r_tree b)) = lastn mx (map fst (held (r_tree a)) ++ flat_map windows ds))) e a) with (log := CoreModel.r_log r); auto.
    - split; [exact PA|]. intros OK. split; [exact OK|]. cbn [flat_map]. rewrite app_nil_r, lastn_all; [reflexivity|].
      rewrite map_length, (held_len mx M2) by apply PA. apply (data_len mx M2), PA.
    - intros ds b d [PB HB]. destruct (rinv_step b d PB) as [PB' ST]. split; [exact PB'|]. intros OK.
      destruct ST as (pnew & h1 & S1 & S2 & S3 & S4 & S5 & S6). destruct (HB (S3 OK)) as [OA HH]. split; [exact OA|].
      assert (G : map fst (held (r_tree (CoreModel.fit W b d))) = map fst h1).
      { change (CoreModel.fit W b d) with (rfit b d). destruct (Nat.lt_ge_cases ini (length h1)) as [L|L]; [|destruct (S4 L) as (_ & -> & _); reflexivity].
        destruct (S6 L OK) as (js & bb & ws & M & _ & _ & _ & _ & _ & _ & _ & _ & _ & HL & HJ).
        apply list_ext. intros j. rewrite !nth_error_map. destruct (nth_error h1 j) as [[x q]|] eqn:EJ.
        - destruct (HJ j x q EJ) as (q' & -> & _). reflexivity.
        - apply nth_error_None in EJ. rewrite (proj2 (nth_error_None _ _)); [reflexivity|lia]. }
      rewrite G, S2, LM, map_app, HH, map_map. cbn [fst].
      rewrite map_id, flat_map_app. cbn [flat_map]. rewrite app_nil_r. fold (windows d).
      rewrite app_assoc. apply lastn_app. }
  destruct Q as [PB HB]. intros OK. destruct (HB OK) as [OA HH]. split; [exact OA|]. split; [exact HH|].
  apply (held_positive mx M2); apply PB.
Qed.

(** A memory that trains only once it is full never reads a slot that was not written. *)
Theorem rainbow_full_sound : mx <= ini + 1 -> forall fuel e a l ns ne spf epf r, rreached a ->
  (spf = None \/ exists k, spf = Some k /\ 1 <= k) -> (epf = None \/ exists k, epf = Some k /\ 1 <= k) ->
  CoreModel.learn W fuel e a l ns ne spf epf = CoreModel.Done r -> r_ok (CoreModel.r_ag r) = r_ok a.
Proof.
  intros MI fuel e a l ns ne spf epf r RE Hs He HD.
  destruct (learn_agent W Hhor fuel e a l ns ne spf epf r Hs He HD) as (p & T & EA). rewrite <- EA.
  pose proof (rreached_rinv a RE) as PA.
  apply (trace_agent W (fun ds b => RInv b /\ r_ok b = r_ok a) e a) with (log := CoreModel.r_log r); auto.
  intros ds b d [PB HB]. destruct (rinv_step b d PB) as [PB' ST]. split; [exact PB'|]. change (CoreModel.fit W b d) with (rfit b d).
  destruct ST as (pnew & h1 & S1 & S2 & S3 & S4 & S5 & _). rewrite <- HB.
  destruct (Nat.lt_ge_cases ini (length h1)) as [L|L]; [|apply (S4 L)]. apply S5; [exact L|].
  assert (length h1 <= mx) by (rewrite S2, lastn_length; lia). lia.
Qed.
(** Every row in the memory of an agent that started new is a window inside the dataset of one
    fit and inside one episode: its first state and action, the discounted sum of its rewards,
    and the state after its last step. *)
Theorem rainbow_rows : forall fuel e w l ns ne spf epf r,
  (spf = None \/ exists k, spf = Some k /\ 1 <= k) -> (epf = None \/ exists k, epf = Some k /\ 1 <= k) ->
  CoreModel.learn W fuel e (rb_init mx w) l ns ne spf epf = CoreModel.Done r -> r_ok (CoreModel.r_ag r) = true ->
  forall x, In x (map fst (held (r_tree (CoreModel.r_ag r)))) ->
  exists d i ws first final, In d (CoreModel.fits_of (CoreModel.r_log r)) /\
    i + nst <= length (CoreModel.rows d) /\ ws = firstn nst (skipn i (CoreModel.rows d)) /\
    Forall (fun y => CoreModel.last y = false) (firstn (nst - 1) ws) /\
    hd_error ws = Some first /\ nth_error ws (nst - 1) = Some final /\
    s_state x = CoreModel.state first /\ s_action x = CoreModel.action first /\
    s_next x = CoreModel.next_state final /\ s_absorbing x = CoreModel.absorbing final /\
    s_reward x = rsum (map (fun jr => gamma ^ fst jr * snd jr)%R (combine (seq 0 nst) (map CoreModel.reward ws))).
Proof.
  intros fuel e w l ns ne spf epf r Hs He HD OK x Hx.
  destruct (rainbow_memory fuel e (rb_init mx w) l ns ne spf epf r (rr_new w) Hs He HD OK) as (_ & HM & _).
  rewrite HM in Hx. unfold lastn in Hx. assert (Hx' := Hx). clear Hx. match type of Hx' with In _ (skipn ?m ?t) => assert (Hx : In x t) by (rewrite <- (firstn_skipn m t); apply in_or_app; right; exact Hx') end. apply in_app_or in Hx as [Hx|Hx]; [change (held (r_tree (rb_init mx w))) with (@nil (row * R)) in Hx; contradiction|].
  apply in_flat_map in Hx as (d & Hd & Hx). apply (replay_nstep_meaning _ _ _ _ nst gamma x N1) in Hx as (i & ws & L & EW & F & a & b & H1 & H2 & Z1 & Z2 & _ & Z3 & Z4 & _ & _ & Z5).
  rewrite map_length in L. rewrite skipn_map, firstn_map in EW. exists d, i, (firstn nst (skipn i (CoreModel.rows d))).
  rewrite EW in H1, H2, F, Z5. set (ws0 := firstn nst (skipn i (CoreModel.rows d))) in *.
  rewrite nth_error_map in H2. destruct (nth_error ws0 (nst - 1)) as [fin|] eqn:EF; [|discriminate]. injection H2 as <-.
  destruct ws0 as [|fst0 wt] eqn:EWS; [discriminate|]. cbn [map hd_error] in H1. injection H1 as <-. rewrite <- EWS in *.
  exists fst0, fin. split; [exact Hd|]. split; [exact L|]. split; [reflexivity|].
  split. { rewrite firstn_map in F. apply Forall_map in F. exact F. }
  rewrite EWS at 1. split; [reflexivity|]. split; [first [reflexivity|exact EF]|].
  split; [exact Z1|]. split; [exact Z2|]. split; [exact Z3|]. split; [exact Z4|]. rewrite Z5, map_map. reflexivity.
Qed.

(** How many windows the dataset of a fit has: the finished episodes [eps0] and the unfinished
    piece [b] at its end contribute their lengths minus [nst - 1] each, and nothing when shorter. *)
Theorem rainbow_window_count : forall d (eps0 : list (list csample)) b,
  CoreModel.rows d = concat eps0 ++ b ->
  Forall (fun ep => exists u z, ep = u ++ [z] /\ Forall (fun x => CoreModel.last x = false) u /\ CoreModel.last z = true) eps0 ->
  Forall (fun x => CoreModel.last x = false) b ->
  length (windows d) = list_sum (map (fun ep => length ep + 1 - nst) eps0) + (length b + 1 - nst).
Proof.
  clear QN DN B1 M2 A2 V1 AE Hhor. intros d eps0 b ER FE FB. unfold windows. rewrite nstep_length by exact N1. rewrite ER. clear ER. revert FE.
  induction eps0 as [|ep eps0 IH]; intros FE; cbn [concat map list_sum app].
  - change (list_sum []) with 0. rewrite wcount_open, map_length; [reflexivity|exact N1|]. apply Forall_map. exact FB.
  - inversion FE as [|? ? (u & z & -> & FU & FZ) FE']; subst.
    rewrite <- app_assoc, map_app, map_app. cbn [map]. rewrite wcount_episode; [|exact N1|apply Forall_map; exact FU|exact FZ].
    rewrite IH by exact FE'. cbn [map]. change (list_sum (?a :: ?l)) with (a + list_sum l). rewrite ?app_length, ?map_length. cbn [length]. lia.
Qed.

(** A fit on fewer than [nst] transitions stores nothing. *)
Lemma windows_short : forall d, length (CoreModel.rows d) < nst -> windows d = [].
Proof.
  clear QN DN B1 M2 A2 V1 AE Hhor. intros d H. apply length_zero_iff_nil. unfold windows. rewrite nstep_length by exact N1. unfold wcount. rewrite map_length.
  replace (length (CoreModel.rows d) + 1 - nst) with 0 by lia. reflexivity.
Qed.

Theorem rainbow_never_learns_refuted : forall fuel e w l N k, 1 <= k -> k < nst -> N <= fuel ->
  exists r, CoreModel.learn W fuel e (rb_init mx w) l (Some N) None (Some k) None = CoreModel.Done r /\
    length (CoreModel.samples_of (CoreModel.r_log r)) = N /\ length (CoreModel.fits_of (CoreModel.r_log r)) = N / k /\
    held (r_tree (CoreModel.r_ag r)) = [] /\ r_w (CoreModel.r_ag r) = w /\ r_target (CoreModel.r_ag r) = w /\ r_updates (CoreModel.r_ag r) = 0.
Proof.
  intros fuel e w l N k Hk KN HF.
  destruct (CoreProps.core_learn_steps_schedule W Hhor fuel e (rb_init mx w) l N k Hk HF) as (r & HD & HL & HN & FF).
  exists r. split; [exact HD|]. split; [exact HL|]. split; [exact HN|].
  destruct (learn_agent W Hhor fuel e (rb_init mx w) l (Some N) None (Some k) None r) as (p & T & EA); auto. { right. eauto. } rewrite <- EA.
  assert (Q : Forall (fun d => length (CoreModel.rows d) = k) (CoreModel.fits_of (CoreModel.r_log r)) -> RInv (agent_of p) /\
     held (r_tree (agent_of p)) = [] /\ r_w (agent_of p) = w /\ r_target (agent_of p) = w /\ r_updates (agent_of p) = 0).
  { apply (trace_agent W (fun ds b => Forall (fun d => length (CoreModel.rows d) = k) ds -> RInv b /\ held (r_tree b) = [] /\ r_w b = w /\ r_target b = w /\ r_updates b = 0) e (rb_init mx w)) with (log := CoreModel.r_log r); auto.
    - intros _. split; [apply (rreached_rinv _ (rr_new w))|]. repeat split.
    - intros ds b d HB F. apply Forall_app in F as [F1 F2]. inversion F2 as [|? ? LK _]; subst. destruct (HB F1) as (I & H1 & H2 & H3 & H4).
      change (CoreModel.fit W b d) with (rfit b d). destruct (rinv_step b d I) as [I' (pn & h1 & _ & E1 & _ & S4 & _)]. split; [exact I'|].
      assert (EW := windows_short d ltac:(lia)). unfold windows in EW. rewrite EW, H1 in E1. cbn [map app] in E1. change (lastn mx []) with (@nil (row * R)) in E1.
      rewrite E1 in S4. destruct (S4 (Nat.le_0_l _)) as (_ & Z1 & Z2 & Z3 & Z4). rewrite Z1, Z2, Z3, Z4. auto. }
  apply Q, FF.
Qed.

(** When no episode ends, a run with a fit every [k] steps stores [k + 1 - nst] windows per fit:
    the [nst - 1] windows that reach into the next fit are lost each time. *)
Theorem rainbow_lost_windows : forall fuel e w l N k, 1 <= k -> nst <= k -> N <= fuel ->
  exists r, CoreModel.learn W fuel e (rb_init mx w) l (Some N) None (Some k) None = CoreModel.Done r /\
    length (CoreModel.samples_of (CoreModel.r_log r)) = N /\
    (Forall (fun x => CoreModel.last x = false) (CoreModel.samples_of (CoreModel.r_log r)) -> r_ok (CoreModel.r_ag r) = true ->
     length (held (r_tree (CoreModel.r_ag r))) = Nat.min mx (N / k * (k + 1 - nst))).
Proof.
  intros fuel e w l N k Hk KN HF.
  destruct (CoreProps.core_learn_steps_schedule W Hhor fuel e (rb_init mx w) l N k Hk HF) as (r & HD & HL & HN & FF).
  exists r. split; [exact HD|]. split; [exact HL|]. intros NL OK.
  destruct (rainbow_memory fuel e (rb_init mx w) l (Some N) None (Some k) None r (rr_new w)) as (_ & HM & _); auto. { right; eauto. }
  apply (f_equal (@length row)) in HM. rewrite map_length in HM. rewrite HM, lastn_length.
  change (held (r_tree (rb_init mx w))) with (@nil (row * R)). cbn [map app]. f_equal. rewrite <- HN.
  destruct (CoreProps.core_learn_fits_partition_samples W Hhor fuel e (rb_init mx w) l (Some N) None (Some k) None r) as (PS & _); auto. { right; eauto. }
  rewrite PS in NL. apply Forall_app in NL as [NL _]. clear -FF NL N1. revert NL. induction FF as [|d ds LD FF IH]; intros NL; [reflexivity|].
  cbn [map concat] in NL. apply Forall_app in NL as [NL1 NL2]. cbn [flat_map length]. rewrite app_length, (IH NL2).
  rewrite (rainbow_window_count d [] (CoreModel.rows d) eq_refl (Forall_nil _) NL1). change (list_sum (map _ [])) with 0. lia.
Qed.
End Run.
End Props.


(** Four steps and one fit with three-step returns: the memory holds the windows that start at the
    first two steps, the last two steps start none. *)
Definition xq (w o : nat) : list R := [0; 1]%R.
Definition xd (w o a : nat) : list R := [1 / 2; 1 / 2]%R.
Definition xda (w o : nat) (a : unit) : list R := [1 / 2; 1 / 2]%R.
Definition xtr (w : nat) (b : list (nat * unit * list R)) (ws : list R) : nat := w + length b.
Definition ex_rb := rb_world xq xd xda xtr (fun _ _ _ => tt) (fun _ _ => (1 / 2)%R) (fun _ _ _ => true) (fun _ => 1%R) (1 / 2)%R false 1 1 1 (1 / 100)%R 1%R
  3 2 0%R 10%R 1%R (fun (e : nat) _ => (0, 0)) un_step None.

Lemma ex_rb_range : (0 < 1 <= (10 - 0) / INR (2 - 1))%R. Proof. cbn. lra. Qed.
Definition ex_rb_sound := rainbow_full_sound xq xd xda xtr (fun _ _ _ => tt) (fun _ _ => (1 / 2)%R) (fun _ _ _ => true) (fun _ => 1%R) (1 / 2)%R false 1 1 1 2 (1 / 100)%R 1%R
  3 2 0%R 10%R 1%R ltac:(discriminate) ltac:(reflexivity) ltac:(lia) ltac:(lia) ltac:(lia) ltac:(lia) ltac:(lra) ex_rb_range (fun (e : nat) _ => (0, 0)) un_step None ltac:(discriminate) ltac:(lia).
Definition ex_rb_memory := rainbow_memory xq xd xda xtr (fun _ _ _ => tt) (fun _ _ => (1 / 2)%R) (fun _ _ _ => true) (fun _ => 1%R) (1 / 2)%R false 1 1 1 2 (1 / 100)%R 1%R
  3 2 0%R 10%R 1%R ltac:(discriminate) ltac:(reflexivity) ltac:(lia) ltac:(lia) ltac:(lia) ltac:(lia) ltac:(lra) ex_rb_range (fun (e : nat) _ => (0, 0)) un_step None ltac:(discriminate).
Definition ex_rb_step := rinv_step xq xd xda xtr (fun _ _ => (1 / 2)%R) (fun _ _ _ => true) (fun _ => 1%R) (1 / 2)%R false 1 1 1 2 (1 / 100)%R 1%R
  3 2 0%R 10%R 1%R ltac:(discriminate) ltac:(reflexivity) ltac:(lia) ltac:(lia) ltac:(lia) ltac:(lia) ltac:(lra) ex_rb_range.

Example rainbow_ex : exists r,
  CoreModel.learn ex_rb 5 0 (rb_init 2 0) VecCoreModel.fresh_logic (Some 4) None (Some 4) None = CoreModel.Done r /\
  r_ok (CoreModel.r_ag r) = true /\ map (fun x => (s_state (fst x), s_next (fst x))) (held (r_tree (CoreModel.r_ag r))) = [(0, 3); (1, 4)] /\
  map (fun x => s_reward (fst x)) (held (r_tree (CoreModel.r_ag r))) = [7 / 4; 7 / 4]%R /\ r_w (CoreModel.r_ag r) = 1.
Proof.
  assert (exists r, CoreModel.learn ex_rb 5 0 (rb_init 2 0) VecCoreModel.fresh_logic (Some 4) None (Some 4) None = CoreModel.Done r /\
    exists d, CoreModel.fits_of (CoreModel.r_log r) = [d] /\ CoreModel.r_ag r = CoreModel.fit ex_rb (mkRa (st_init 2) 0 0 0 4 true) d /\
    CoreModel.rows d = map (fun i => CoreModel.mkS i tt 1%R (S i) false false tt tt) [0; 1; 2; 3]) as (r & HD & d & HF & HA & HR).
  { unfold ex_rb, rb_world. set (ft := rb_fit _ _ _ _ _ _ _ _ _ _ _ _ _ _ _ _ _ _ _). clearbody ft.
    eexists. split; [lazy -[IZR]; reflexivity|]. eexists. split; [reflexivity|]. split; reflexivity. }
  exists r. split; [exact HD|].
  assert (S4 : Some 4 = None \/ exists k, Some 4 = Some k /\ 1 <= k) by (right; exists 4; split; [reflexivity|lia]).
  assert (OK : r_ok (CoreModel.r_ag r) = true).
  { apply (ex_rb_sound 5 0 (rb_init 2 0) VecCoreModel.fresh_logic (Some 4) None (Some 4) None r (rr_new _ _ _ _ _ _ _ _ _ _ _ _ _ _ _ _ _ _ _ _ _ _ _ _ 0) S4 (or_introl eq_refl) HD). }
  split; [exact OK|].
  assert (HM : map fst (held (r_tree (CoreModel.r_ag r))) = lastn 2 (nstep_samples (map row_of (CoreModel.rows d)) 3 (1 / 2)%R)).
  { destruct (ex_rb_memory 5 0 (rb_init 2 0) VecCoreModel.fresh_logic (Some 4) None (Some 4) None r (rr_new _ _ _ _ _ _ _ _ _ _ _ _ _ _ _ _ _ _ _ _ _ _ _ _ 0) S4 (or_introl eq_refl) HD OK) as (_ & HM & _).
    rewrite HM, HF. cbn [flat_map]. rewrite app_nil_r. reflexivity. }
  rewrite HR in HM.
  rewrite <- (map_map fst (fun x => (s_state x, s_next x))), <- (map_map fst s_reward), HM.
  split; [reflexivity|]. split. { unfold lastn, nstep_samples. cbn. repeat (f_equal; try lra). }
  destruct (ex_rb_step (mkRa (st_init 2) 0 0 0 4 true) d) as [_ (pn & h1 & _ & E1 & _ & _ & _ & S6)].
  { split; [apply st_init_wf; lia|]. intros k Hk. unfold leaf, at_. cbn [r_tree t_arr st_init]. rewrite nth_repeat. change (st_size (st_init 2)) with 0. reflexivity. }
  rewrite HA in OK |- *. destruct S6 as (js & b & ws & M & _ & LB & _ & _ & _ & _ & EW & _); [|exact OK|].
  { rewrite E1, HR. unfold lastn, nstep_samples. cbn. lia. }
  change (CoreModel.fit ex_rb) with (rb_fit xq xd xda xtr (fun _ _ => (1 / 2)%R) (fun _ _ _ => true) (fun _ => 1%R) (1 / 2)%R false 1 1 1 (1 / 100)%R 1%R 3 2 0%R 10%R 1%R).
  rewrite EW. unfold xtr. cbn [r_w]. rewrite LB. reflexivity.
Qed.

Print Assumptions rainbow_updates.
Print Assumptions rainbow_memory.
Print Assumptions rainbow_full_sound.
Print Assumptions rainbow_rows.
Print Assumptions rainbow_window_count.
Print Assumptions rainbow_never_learns_refuted.
Print Assumptions rainbow_lost_windows.

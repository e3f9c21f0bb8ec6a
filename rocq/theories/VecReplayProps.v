(** C125: agents with a replay memory (DDPG, TD3, SAC, DQN; Rainbow) trained by [VectorCore]. *)
From Coq Require Import List Arith Lia Bool Reals Lra Permutation.
From Verif Require Import Common ReplayModel ReplaySpec ReplayProofs ReplayProps SumTreeModel SumTreeSpec SumTreeProofs SumTreeProps CorePerProofs
  VecCoreModel VecLearnModel VecLearnSpec VecLearnProofs VecLearnProps VecReplayModel VecReplayProofs.
From Verif Require CoreModel CoreReplayModel CoreReplayProps RainbowModel RainbowProps RainbowProofs CoreDqnModel.
Import ListNotations.
Local Open Scope list_scope.
Local Open Scope nat_scope.

(** ** What the datasets contain *)
Section Data.
Context {X A : Type}.
Notation vsample := (CoreModel.sample X A R unit).

(** Everything but the flag for the end of an episode. *)
Definition core5 (x : vsample) := (CoreModel.state x, CoreModel.action x, CoreModel.reward x, CoreModel.next_state x, CoreModel.absorbing x).
Definition present (row : list (option vsample)) : list vsample := flat_map (fun o => match o with Some x => [x] | None => [] end) row.

Lemma core5_closed : forall xs : list vsample, map core5 (closed xs) = map core5 xs.
Proof. intros xs. destruct xs as [|x xs] using rev_ind; [reflexivity|]. rewrite closed_snoc, !map_app. reflexivity. Qed.

Lemma perm_flat : forall B C (f g : B -> list C) l, Permutation (flat_map (fun j => f j ++ g j) l) (flat_map f l ++ flat_map g l).
Proof.
  induction l as [|x l IH]; [constructor|]. cbn [flat_map]. rewrite <- !app_assoc. apply Permutation_app_head.
  rewrite IH. rewrite !app_assoc. apply Permutation_app_tail. apply Permutation_app_comm.
Qed.

Lemma present_cols : forall (row : list (option vsample)) n s, length row = n ->
  flat_map (fun j => match nth (j - s) row None with Some x => [x] | None => [] end) (seq s n) = present row.
Proof.
  induction row as [|o row IH]; intros n s L; cbn in L; subst n; [reflexivity|]. unfold present. cbn [seq flat_map]. fold (present row). rewrite Nat.sub_diag. cbn [nth]. f_equal.
  rewrite <- (IH (length row) (S s) eq_refl). apply flat_map_ext_in. intros j Hj. apply in_seq in Hj. replace (j - s) with (S (j - S s)) by lia. reflexivity.
Qed.

Lemma cols_perm : forall n (rows : list (list (option vsample))), Forall (fun r => length r = n) rows ->
  Permutation (flat_map (fun j => col j rows) (seq 0 n)) (flat_map present rows).
Proof.
  intros n rows H. induction H as [|r rows L H IH].
  - cbn. induction (seq 0 n); [constructor|exact IHl].
  - cbn [flat_map]. unfold col in *. cbn [flat_map]. rewrite perm_flat. rewrite <- (present_cols r n 0 L).
    apply Permutation_app; [|exact IH]. erewrite flat_map_ext_in; [apply Permutation_refl|]. intros j _. cbv beta. rewrite Nat.sub_0_r. reflexivity.
Qed.

(** A fit gets every transition of its part of the run exactly once. *)
Lemma by_env_once : forall n (w : list (xevent X A)), Forall (fun r => length r = n) (rows_of w) ->
  Permutation (map core5 (by_env n w)) (map core5 (flat_map present (rows_of w))).
Proof.
  intros n w H. rewrite <- (Permutation_map core5 (cols_perm n _ H)). unfold by_env.
  assert (Q : map core5 (flat_map (fun j => closed (of_env j w)) (seq 0 n)) = map core5 (flat_map (fun j => col j (rows_of w)) (seq 0 n))); [|rewrite Q; apply Permutation_refl].
  induction (seq 0 n) as [|j l IH]; [reflexivity|]. cbn [flat_map]. rewrite !map_app, core5_closed, IH. reflexivity.
Qed.

Lemma history_rows : forall E Ag n er es dr ft c l c', @history E X A Ag n er es dr ft c l c' -> Forall (fun r => length r = n) (rows_of l).
Proof.
  intros E Ag n er es dr ft c l c' H. induction H as [c|c l c1 ev c2 H IH HS]; [constructor|]. rewrite rows_of_app. apply Forall_app. split; [exact IH|].
  inversion HS; subst; cbn; constructor; auto.
Qed.

Lemma of_env_full : forall n (rows : list (list (option vsample))) j, j < n -> Forall (fun r => length r = n /\ Forall (fun o => o <> None) r) rows ->
  length (col j rows) = length rows.
Proof.
  intros n rows j J H. induction H as [|r rows [L F] H IH]; [reflexivity|]. unfold col in *. cbn [flat_map length]. rewrite app_length, IH.
  destruct (nth j r None) eqn:E; [reflexivity|]. exfalso. rewrite Forall_forall in F. apply (F (nth j r None)); [apply nth_In; lia|exact E].
Qed.

(** Windows of several steps never mix environments. *)
Lemma row_last : forall x : vsample, s_last (CoreReplayModel.row_of x) = CoreModel.last x. Proof. reflexivity. Qed.

Theorem vec_windows_by_env : forall nst g n (w : list (xevent X A)), 1 <= nst ->
  nstep_samples (map CoreReplayModel.row_of (by_env n w)) nst g =
  flat_map (fun j => nstep_samples (map CoreReplayModel.row_of (closed (of_env j w))) nst g) (seq 0 n).
Proof.
  intros nst g n w H. unfold by_env. induction (seq 0 n) as [|j l IH]; [reflexivity|]. cbn [flat_map]. rewrite map_app, <- IH.
  destruct (of_env j w) as [|x0 xs0] eqn:EO; [reflexivity|]. rewrite <- EO. destruct (closed_form (of_env j w)) as (a & x & -> & _); [rewrite EO; discriminate|].
  rewrite map_app. cbn [map]. apply nstep_app; [exact H|reflexivity].
Qed.
End Data.

(** ** DDPG, TD3, SAC and DQN *)
Section Replay.
Context {E X A L P : Type}.
Notation vsample := (CoreModel.sample X A R unit).
Notation ragent := (@CoreReplayModel.ragent X A L P).
Variable n : nat.
Variable hor : option nat.
Variable garb : nat -> nat -> nat -> bool.
Variable e_reset : E -> E * X.
Variable e_step : E -> A -> E * X * R * bool.
Variable (learn : L -> nat -> nat -> list (sample X A unit) -> L) (tick : L -> L).
Variable (vpol : L -> P -> list X -> P * list A).
Variable (drawn : nat -> nat -> list nat).
Variable (ini mx bs : nat) (s0 : L) (p0 : P).
Hypothesis Hn : 2 <= n.
Hypothesis Hhor : hor <> Some 0.
Hypothesis VP : forall l p xs, length (snd (vpol l p xs)) = length xs.
Hypothesis DR : forall i len, 1 <= len -> length (drawn i len) = bs /\ Forall (fun j => j < len) (drawn i len).
Hypothesis M1 : 1 <= mx.
Notation lrn := (vr_learn n hor garb e_reset e_step learn tick vpol drawn).
Notation dr := (vr_draw vpol).
Notation ft := (vr_fit learn tick drawn).

(** Any sequence of learn calls: the datasets of the fits so far, and the agent. *)
Inductive vexp : list (list vsample) -> ragent -> Prop :=
| vx_new : vexp [] (CoreReplayModel.replay_init ini mx s0 p0)
| vx_learn : forall ds a fuel l es ns ne spf epf k s, vexp ds a -> 1 <= k -> length es = n -> covered n hor k ns ne spf epf ->
    lrn fuel l es a ns ne spf epf = XDone s -> vexp (ds ++ xfits_of (x_ev s)) (x_ag s).

Notation wrap ds := (map (fun d => CoreModel.mkD d []) ds).
Definition VInv (ds : list (list vsample)) (a : ragent) : Prop :=
  CoreReplayProps.RInv learn tick drawn ini mx s0 (wrap ds) a /\ nth 0 (CoreReplayModel.r_hist a) s0 = s0.

Lemma draw_len : forall (a : ragent) xs, length (snd (dr a xs)) = length xs.
Proof. intros a xs. unfold vr_draw. pose proof (VP (CoreReplayModel.r_learner a) (CoreReplayModel.r_pol a) xs) as Q. destruct (vpol _ _ xs). exact Q. Qed.

Lemma vinv_draw : forall ds a xs, VInv ds a -> VInv ds (fst (dr a xs)).
Proof. intros ds a xs H. unfold vr_draw. destruct (vpol _ _ xs). exact H. Qed.

Lemma vinv_fit : forall ds a d, VInv ds a -> VInv (ds ++ [d]) (ft a d).
Proof.
  intros ds a d [H H0]. split.
  - rewrite map_app. cbn [map]. apply (CoreReplayProps.rinv_fit learn tick drawn ini mx bs s0 DR M1 (wrap ds) a (CoreModel.mkD d []) H).
  - unfold vr_fit, CoreReplayModel.replay_fit. destruct H as (_ & _ & LH & _). repeat match goal with |- context [match ?q with _ => _ end] => destruct q end; cbn [CoreReplayModel.r_hist]; rewrite ?app_nth1 by lia; exact H0.
Qed.

Lemma vexp_inv : forall ds a, vexp ds a -> VInv ds a.
Proof.
  intros ds a H. induction H as [|ds a fuel l es ns ne spf epf k s H IH K Hes HC HD].
  - split; [|reflexivity]. unfold CoreReplayProps.RInv. cbn. repeat split; auto; try lia.
  - destruct (vec_learn_history n hor garb e_reset e_step dr ft Hn Hhor draw_len fuel l es a ns ne spf epf k K Hes HC) as (_ & _ & HS).
    destruct (HS s HD) as (HH & _).
    apply (history_agent n e_reset e_step dr ft (fun ds' b => VInv (ds ++ ds') b) es a) in HH; [exact HH| | |].
    + rewrite app_nil_r. exact IH.
    + intros ds' b xs. apply vinv_draw.
    + intros ds' b d Q. rewrite app_assoc. apply vinv_fit. exact Q.
Qed.

(** After any calls: nothing raised, the memory holds the last [mx] transitions handed over, and
    every fit did what it must with those (CoreReplayProps.fit_ok). *)
Theorem vec_replay_agent : forall ds a, vexp ds a ->
  CoreReplayModel.r_ok a = true /\
  chronological (CoreReplayModel.r_mem a) = lastn mx (map CoreReplayModel.row_of (concat ds)) /\
  length (CoreReplayModel.r_hist a) = S (length ds) /\ nth 0 (CoreReplayModel.r_hist a) s0 = s0 /\
  CoreReplayModel.r_learner a = nth (length ds) (CoreReplayModel.r_hist a) s0 /\
  forall i, i < length ds -> CoreReplayProps.fit_ok learn tick drawn ini mx s0 (wrap ds) (CoreReplayModel.r_hist a) i.
Proof.
  intros ds a H. destruct (vexp_inv ds a H) as [(A1 & _ & A3 & _ & _ & _ & A7 & A8 & A9) H0]. rewrite map_length in *.
  split; [exact A1|]. split. { rewrite A7. rewrite map_map. cbn [CoreModel.rows]. rewrite map_id. reflexivity. }
  split; [exact A3|]. split; [exact H0|]. split; [exact A8|]. intros i Hi. apply A9. lia.
Qed.

(** One more call: it does not raise, returns if it may run long enough, and every fit gets the
    transitions made since the fit before, each exactly once, up to order and the flags for the
    end of an episode. *)
Theorem vec_replay_call : forall ds a fuel l es ns ne spf epf k, vexp ds a -> 1 <= k -> length es = n -> covered n hor k ns ne spf epf ->
  lrn fuel l es a ns ne spf epf <> XCrash /\
  (enough hor fuel ns ne -> exists s, lrn fuel l es a ns ne spf epf = XDone s) /\
  forall s, lrn fuel l es a ns ne spf epf = XDone s ->
    vexp (ds ++ xfits_of (x_ev s)) (x_ag s) /\
    history n e_reset e_step dr ft (es, a) (x_ev s) (x_env s, x_ag s) /\
    forall u d v, x_ev s = u ++ XFit d :: v -> exists u0 w, u = u0 ++ w /\ (u0 = [] \/ exists u1 d1, u0 = u1 ++ [XFit d1]) /\ xfits_of w = [] /\
      Permutation (map core5 d) (map core5 (flat_map present (rows_of w))).
Proof.
  intros ds a fuel l es ns ne spf epf k H K Hes HC.
  destruct (vec_learn_history n hor garb e_reset e_step dr ft Hn Hhor draw_len fuel l es a ns ne spf epf k K Hes HC) as (H1 & H2 & HS).
  split; [exact H1|]. split; [exact H2|]. intros s HD. destruct (HS s HD) as (HH & _ & HF & _).
  split; [eapply vx_learn; eauto|]. split; [exact HH|]. intros u d v EQ. destruct (HF u d v EQ) as (u0 & w & EU & AP & NF & ->).
  exists u0, w. do 3 (split; [assumption|]). apply by_env_once. apply history_rows in HH. rewrite EQ, EU, !rows_of_app in HH.
  apply Forall_app in HH as [HH _]. apply Forall_app in HH as [_ HH]. exact HH.
Qed.
End Replay.

(** ** Rainbow *)
Section Rainbow.
Context {E X A Wt : Type}.
Notation vsample := (CoreModel.sample X A R unit).
Notation ragent := (@RainbowModel.ragent X A Wt).
Notation row := (sample X A unit).
Variable n : nat.
Variable hor : option nat.
Variable garb : nat -> nat -> nat -> bool.
Variable e_reset : E -> E * X.
Variable e_step : E -> A -> E * X * R * bool.
Variable (qval : Wt -> X -> list R) (dist : Wt -> X -> nat -> list R) (dista : Wt -> X -> A -> list R).
Variable (train : Wt -> list (X * A * list R) -> list R -> Wt).
Variable (vpol : Wt -> nat -> list X -> list A).
Variable (unif : nat -> nat -> R) (coin : nat -> nat -> nat -> bool) (beta : nat -> R).
Variable (gamma : R) (clip_reward : bool) (freq bs ini mx : nat) (eps alpha : R).
Variable (nst na : nat) (vmin vmax aeps : R).
Hypothesis QN : forall w o, qval w o <> [].
Hypothesis DN : forall w o a, length (dist w o a) = na.
Hypothesis B1 : 1 <= bs.
Hypothesis M2 : 2 <= mx.
Hypothesis N1 : 1 <= nst.
Hypothesis A2 : 2 <= na.
Hypothesis V1 : (vmin < vmax)%R.
Hypothesis AE : (0 < aeps <= (vmax - vmin) / INR (na - 1))%R.
Hypothesis Hn : 2 <= n.
Hypothesis Hhor : hor <> Some 0.
Hypothesis VP : forall w i xs, length (vpol w i xs) = length xs.
Notation lrn := (vb_learn n hor garb e_reset e_step qval dist dista train vpol unif coin beta gamma clip_reward freq bs ini eps alpha nst na vmin vmax aeps).
Notation dr := (vb_draw vpol).
Notation ft := (vb_fit qval dist dista train unif coin beta gamma clip_reward freq bs ini eps alpha nst na vmin vmax aeps).
Notation rstep := (RainbowProps.rb_step qval dist dista train beta gamma clip_reward freq bs ini mx eps alpha nst na vmin vmax).
Notation RI := (RainbowProps.RInv (Ob := X) (Ac := A) (Wt := Wt) mx).
Notation held' a := (held (RainbowModel.r_tree a)).

(** The windows of the dataset of one fit. *)
Definition vwindows (d : list vsample) : list row := nstep_samples (map CoreReplayModel.row_of d) nst gamma.

Inductive vbreached : ragent -> Prop :=
| vb_new : forall w, vbreached (RainbowModel.rb_init mx w)
| vb_call : forall a fuel l es ns ne spf epf k s, vbreached a -> 1 <= k -> length es = n -> covered n hor k ns ne spf epf ->
    lrn fuel l es a ns ne spf epf = XDone s -> vbreached (x_ag s).

Lemma bdraw_len : forall (a : ragent) xs, length (snd (dr a xs)) = length xs.
Proof. intros a xs. cbn. apply VP. Qed.

Lemma bstep : forall a d, RI a -> RI (ft a d) /\ rstep a d (ft a d).
Proof. intros a d H. exact (RainbowProps.rinv_step qval dist dista train unif coin beta gamma clip_reward freq bs ini mx eps alpha nst na vmin vmax aeps QN DN B1 M2 N1 A2 V1 AE a (CoreModel.mkD d []) H). Qed.

Definition bhist := vec_learn_history n hor garb e_reset e_step dr ft Hn Hhor bdraw_len.

Lemma hist_ri : forall es a l c, RI a -> history n e_reset e_step dr ft (es, a) l c -> RI (snd c).
Proof.
  intros es a l c H HH. apply (history_agent n e_reset e_step dr ft (fun _ b => RI b) es a) with (l := l); auto.
  intros _ b d HB. apply (bstep b d HB).
Qed.

Lemma vbreached_ri : forall a, vbreached a -> RI a.
Proof.
  intros a H. induction H as [w|a fuel l es ns ne spf epf k s H IH K Hes HC HD].
  - split; [apply st_init_wf; lia|]. intros k Hk. unfold leaf, at_. cbn [RainbowModel.r_tree RainbowModel.rb_init t_arr st_init]. rewrite nth_repeat.
    change (st_size (st_init mx)) with 0. reflexivity.
  - destruct (bhist fuel l es a ns ne spf epf k K Hes HC) as (_ & _ & HS). destruct (HS s HD) as (HH & _). exact (hist_ri es a _ _ IH HH).
Qed.

(** Every fit of every call does what RainbowProps.rb_step says, on the transitions made since the
    fit before, environment by environment. *)
Theorem vec_rainbow_updates : forall a fuel l es ns ne spf epf k, vbreached a -> 1 <= k -> length es = n -> covered n hor k ns ne spf epf ->
  lrn fuel l es a ns ne spf epf <> XCrash /\
  forall s, lrn fuel l es a ns ne spf epf = XDone s ->
  forall u d v, x_ev s = u ++ XFit d :: v ->
  exists u0 w es1 a1, u = u0 ++ w /\ (u0 = [] \/ exists u1 d1, u0 = u1 ++ [XFit d1]) /\ xfits_of w = [] /\ d = by_env n w /\
    history n e_reset e_step dr ft (es, a) u (es1, a1) /\
    history n e_reset e_step dr ft (es, a) (u ++ [XFit d]) (es1, ft a1 d) /\ rstep a1 d (ft a1 d).
Proof.
  intros a fuel l es ns ne spf epf k H K Hes HC. destruct (bhist fuel l es a ns ne spf epf k K Hes HC) as (H1 & _ & HS). split; [exact H1|].
  intros s HD u d v EQ. destruct (HS s HD) as (HH & _ & HF & _). destruct (HF u d v EQ) as (u0 & w & EU & AP & NF & ED).
  rewrite EQ in HH. clear - HH EU AP NF ED H QN DN B1 M2 N1 A2 V1 AE Hn Hhor VP.
  assert (S1 : forall v c2, history n e_reset e_step dr ft (es, a) (u ++ XFit d :: v) c2 -> exists es1 a1, history n e_reset e_step dr ft (es, a) u (es1, a1)).
  { clear. intros v. induction v as [|y v IH] using rev_ind; intros c2 HH.
    - inversion HH as [c' E1 E2 E3|c' l c1 ev c2' H1 H2 E1 E2 E3]; [destruct u; discriminate|]. apply app_inj_tail in E2 as [-> ->]. destruct c1 as [e1 a1]. eauto.
    - rewrite app_comm_cons, app_assoc in HH. inversion HH as [c' E1 E2 E3|c' l c1 ev c2' H1 H2 E1 E2 E3]; [destruct (u ++ XFit d :: v); discriminate|].
      apply app_inj_tail in E2 as [-> ->]. eapply IH; eauto. }
  destruct (S1 _ _ HH) as (es1 & a1 & H1). exists u0, w, es1, a1. do 4 (split; [assumption|]). split; [exact H1|].
  split; [eapply hi_snoc; [exact H1|constructor]|]. apply bstep. exact (hist_ri es a u _ (vbreached_ri a H) H1).
Qed.

(** The memory: the last [mx] windows of the fits. *)
Theorem vec_rainbow_memory : forall a fuel l es ns ne spf epf k s, vbreached a -> 1 <= k -> length es = n -> covered n hor k ns ne spf epf ->
  lrn fuel l es a ns ne spf epf = XDone s -> RainbowModel.r_ok (x_ag s) = true ->
  RainbowModel.r_ok a = true /\
  map fst (held' (x_ag s)) = lastn mx (map fst (held' a) ++ flat_map vwindows (xfits_of (x_ev s))) /\
  Forall (fun p => 0 < p)%R (map snd (held' (x_ag s))).
Proof.
  intros a fuel l es ns ne spf epf k s RE K Hes HC HD.
  destruct (bhist fuel l es a ns ne spf epf k K Hes HC) as (_ & _ & HS). destruct (HS s HD) as (HH & _).
  pose proof (vbreached_ri a RE) as PA.
  assert (LM : forall A B (g : A -> B) n l, map g (lastn n l) = lastn n (map g l)).
  { intros A0 B0 g n0 l0. unfold lastn. rewrite map_length, skipn_map. reflexivity. }
  assert (Q : RI (x_ag s) /\ (RainbowModel.r_ok (x_ag s) = true -> RainbowModel.r_ok a = true /\
     map fst (held' (x_ag s)) = lastn mx (map fst (held' a) ++ flat_map vwindows (xfits_of (x_ev s))))).
  { apply (history_agent n e_reset e_step dr ft (fun ds b => RI b /\ (RainbowModel.r_ok b = true -> RainbowModel.r_ok a = true /\
       map fst (held' b) = lastn mx (map fst (held' a) ++ flat_map vwindows ds))) es a) in HH; [exact HH| | |].
    - split; [exact PA|]. intros OK. split; [exact OK|]. cbn [flat_map]. rewrite app_nil_r, lastn_all; [reflexivity|].
      rewrite map_length, (held_len mx M2) by apply PA. apply (data_len mx M2), PA.
    - intros ds b xs HB. exact HB.
    - intros ds b d [PB HB]. destruct (bstep b d PB) as [PB' ST]. split; [exact PB'|]. intros OK.
      destruct ST as (pnew & h1 & S1 & S2 & S3 & S4 & S5 & S6). destruct (HB (S3 OK)) as [OA HQ]. split; [exact OA|].
      assert (G : map fst (held' (ft b d)) = map fst h1).
      { destruct (Nat.lt_ge_cases ini (length h1)) as [L|L]; [|destruct (S4 L) as (_ & -> & _); reflexivity].
        destruct (S6 L OK) as (js & bb & ws & M & _ & _ & _ & _ & _ & _ & _ & _ & _ & HL & HJ).
        apply list_ext. intros j. rewrite !nth_error_map. destruct (nth_error h1 j) as [[x q]|] eqn:EJ.
        - destruct (HJ j x q EJ) as (q' & -> & _). reflexivity.
        - apply nth_error_None in EJ. rewrite (proj2 (nth_error_None _ _)); [reflexivity|lia]. }
      rewrite G, S2, LM, map_app, HQ, map_map. cbn [fst].
      rewrite map_id, flat_map_app. cbn [flat_map]. rewrite app_nil_r. rewrite app_assoc. apply lastn_app. }
  destruct Q as [PB HB]. intros OK. destruct (HB OK) as [OA HQ]. split; [exact OA|]. split; [exact HQ|].
  apply (held_positive mx M2); apply PB.
Qed.

(** Every row in the memory of an agent that started new is a window of [nst] consecutive
    transitions of one environment, made between two fits and inside one episode. *)
Theorem vec_rainbow_rows : forall w0 fuel l es ns ne spf epf k s, 1 <= k -> length es = n -> covered n hor k ns ne spf epf ->
  lrn fuel l es (RainbowModel.rb_init mx w0) ns ne spf epf = XDone s -> RainbowModel.r_ok (x_ag s) = true ->
  forall x, In x (map fst (held' (x_ag s))) ->
  exists u0 w d v j i ws first final,
    x_ev s = u0 ++ w ++ XFit d :: v /\ xfits_of w = [] /\ j < n /\
    i + nst <= length (of_env j w) /\ ws = firstn nst (skipn i (of_env j w)) /\
    Forall (fun y => CoreModel.last y = false) (firstn (nst - 1) ws) /\
    hd_error ws = Some first /\ nth_error ws (nst - 1) = Some final /\
    s_state x = CoreModel.state first /\ s_action x = CoreModel.action first /\
    s_next x = CoreModel.next_state final /\ s_absorbing x = CoreModel.absorbing final /\
    s_reward x = rsum (map (fun jr => gamma ^ fst jr * snd jr)%R (combine (seq 0 nst) (map CoreModel.reward ws))).
Proof.
  intros w0 fuel l es ns ne spf epf k s K Hes HC HD OK x Hx.
  destruct (vec_rainbow_memory (RainbowModel.rb_init mx w0) fuel l es ns ne spf epf k s (vb_new w0) K Hes HC HD OK) as (_ & HM & _).
  destruct (bhist fuel l es (RainbowModel.rb_init mx w0) ns ne spf epf k K Hes HC) as (_ & _ & HS). destruct (HS s HD) as (_ & _ & HF & _).
  rewrite HM in Hx. unfold lastn in Hx. match type of Hx with In _ (skipn ?m ?t) => assert (Hy : In x t) by (rewrite <- (firstn_skipn m t); apply in_or_app; right; exact Hx) end.
  clear Hx. apply in_app_or in Hy as [Hx|Hx]; [change (held' (RainbowModel.rb_init mx w0)) with (@nil (row * R)) in Hx; contradiction|].
  apply in_flat_map in Hx as (d & Hd & Hx). unfold xfits_of in Hd. apply in_flat_map in Hd as (ev & Hev & Hd). destruct ev as [|?|d']; try contradiction.
  destruct Hd as [->|[]]. apply in_split in Hev as (u & v & EQ). destruct (HF u d v EQ) as (u0 & w & EU & AP & NF & ED). subst d u.
  unfold vwindows in Hx. rewrite vec_windows_by_env in Hx by exact N1. apply in_flat_map in Hx as (j & Hj & Hx). apply in_seq in Hj.
  apply (replay_nstep_meaning _ _ _ _ nst gamma x N1) in Hx as (i & ws & LW & EW & F & a & b & H1 & H2 & Z1 & Z2 & _ & Z3 & Z4 & _ & _ & Z5).
  rewrite map_length, closed_len in LW. rewrite skipn_map, firstn_map in EW. set (xs := of_env j w) in *.
  assert (NE : xs <> []) by (intros Q; rewrite Q in LW; cbn in LW; lia).
  destruct (closed_form xs NE) as (ys & z & EC & EX).
  set (wc := firstn nst (skipn i (closed xs))) in *. set (wr := firstn nst (skipn i xs)).
  assert (LR : length wr = nst) by (unfold wr; rewrite firstn_length, skipn_length; lia).
  assert (C5 : map core5 wc = map core5 wr).
  { unfold wc, wr. rewrite <- !firstn_map, <- !skipn_map, core5_closed. reflexivity. }
  assert (FST : firstn (nst - 1) wc = firstn (nst - 1) wr).
  { unfold wc, wr. rewrite !firstn_firstn. replace (Nat.min (nst - 1) nst) with (nst - 1) by lia. rewrite EC, EX. rewrite EX, app_length in LW. cbn [length] in LW.
    rewrite !skipn_app, !firstn_app. replace (nst - 1 - length (skipn i ys)) with 0 by (rewrite skipn_length; lia). cbn [firstn]. reflexivity. }
  rewrite EW in H1, H2, F, Z5. rewrite nth_error_map in H2. destruct (nth_error wc (nst - 1)) as [fc|] eqn:EF; [|discriminate]. injection H2 as <-.
  destruct wc as [|gc wt] eqn:EWC; [discriminate|]. cbn [map hd_error] in H1. injection H1 as <-. rewrite <- EWC in *.
  destruct (nth_error wr (nst - 1)) as [fr|] eqn:ER; [|apply nth_error_None in ER; lia].
  destruct wr as [|gr wrt] eqn:EWR; [cbn in LR; lia|]. rewrite <- EWR in *.
  assert (G5 : core5 gc = core5 gr) by (rewrite EWC, EWR in C5; cbn [map] in C5; congruence).
  assert (F5 : core5 fc = core5 fr).
  { assert (Q := f_equal (fun t => nth_error t (nst - 1)) C5). cbv beta in Q. rewrite !nth_error_map, EF, ER in Q. cbn in Q. congruence. }
  unfold core5 in G5, F5.
  exists u0, w, (by_env n w), v, j, i, wr, gr, fr. split; [rewrite EQ, <- app_assoc; reflexivity|]. split; [exact NF|]. split; [lia|]. split; [exact LW|]. split; [reflexivity|].
  split. { rewrite <- FST. rewrite firstn_map in F. apply Forall_map in F. exact F. }
  split; [rewrite EWR; reflexivity|]. split; [exact ER|]. cbn [CoreReplayModel.row_of s_state s_action s_next s_absorbing] in Z1, Z2, Z3, Z4.
  split; [congruence|]. split; [congruence|]. split; [congruence|]. split; [congruence|].
  rewrite Z5, map_map. do 3 f_equal. assert (Q := f_equal (map (fun q => snd (fst (fst q)))) C5). rewrite !map_map in Q. exact Q.
Qed.

(** Between two fits, [n * q] steps apart, every environment makes [q] transitions. *)
Lemma segment_rows : forall (w : list (xevent X A)) q, Forall (fun r => length r = n /\ Forall (fun o => o <> None) r) (rows_of w) ->
  length (by_env n w) = n * q -> forall j, j < n -> length (of_env j w) = q.
Proof.
  clear QN DN B1 M2 N1 A2 V1 AE Hhor VP. intros w q F L.
  assert (G : forall j, j < n -> length (of_env j w) = length (rows_of w)) by (intros j J; apply (of_env_full n (rows_of w) j J F)).
  assert (LB : length (by_env n w) = n * length (rows_of w)).
  { unfold by_env. assert (Q : forall js, (forall j, In j js -> j < n) -> length (flat_map (fun j => closed (of_env j w)) js) = length js * length (rows_of w)).
    { induction js as [|j js IH]; intros B; [reflexivity|]. cbn [flat_map length]. rewrite app_length, closed_len, G by (apply B; left; reflexivity).
      rewrite IH by (intros i Hi; apply B; right; exact Hi). lia. }
    rewrite Q; [rewrite seq_length; reflexivity|]. intros j Hj. apply in_seq in Hj. lia. }
  intros j J. rewrite G by exact J. rewrite LB in L. nia.
Qed.

Lemma windows_none : forall xs : list vsample, length xs < nst -> vwindows xs = [].
Proof.
  clear QN DN B1 M2 A2 V1 AE Hn Hhor VP. intros xs H. apply length_zero_iff_nil. unfold vwindows. rewrite RainbowProofs.nstep_length by exact N1. unfold RainbowProofs.wcount. rewrite map_length.
  replace (length xs + 1 - nst) with 0 by lia. reflexivity.
Qed.

(** With [n] environments a fit every [n * q] steps gives the agent only [q] consecutive steps of
    each: for [q < nst] nothing is ever stored, however large [n * q] is, for every network,
    environment and number of steps. *)
Theorem vec_rainbow_never_learns_refuted : forall fuel l es w0 N q, 1 <= q -> q < nst -> length es = n -> N <= fuel ->
  exists s, lrn fuel l es (RainbowModel.rb_init mx w0) (Some N) None (Some (n * q)) None = XDone s /\
    Forall (fun d => length d = n * q) (xfits_of (x_ev s)) /\
    held' (x_ag s) = [] /\ RainbowModel.r_w (x_ag s) = w0 /\ RainbowModel.r_target (x_ag s) = w0 /\ RainbowModel.r_updates (x_ag s) = 0.
Proof.
  intros fuel l es w0 N q Q1 QN' Hes HF.
  assert (HC : covered n hor (n * q) (Some N) None (Some (n * q)) None) by (left; repeat split; eauto).
  assert (K : 1 <= n * q) by nia.
  destruct (bhist fuel l es (RainbowModel.rb_init mx w0) (Some N) None (Some (n * q)) None (n * q) K Hes HC) as (_ & HE & HS).
  destruct (HE HF) as (s & HD). exists s. split; [exact HD|]. destruct (HS s HD) as (HH & _ & HB & HP & _). destruct (HP eq_refl) as [SZ FR]. split; [exact SZ|].
  assert (NW : Forall (fun d => vwindows d = []) (xfits_of (x_ev s))).
  { apply Forall_forall. intros d Hd. unfold xfits_of in Hd. apply in_flat_map in Hd as (ev & Hev & Hd). destruct ev as [|?|d']; try contradiction. destruct Hd as [->|[]].
    apply in_split in Hev as (u & v & EQ). destruct (HB u d v EQ) as (u0 & w & EU & AP & NF & ED).
    assert (LD : length d = n * q). { rewrite Forall_forall in SZ. apply SZ. unfold xfits_of. apply in_flat_map. exists (XFit d). split; [rewrite EQ; apply in_elt|left; reflexivity]. }
    rewrite EQ, EU, !rows_of_app in FR. apply Forall_app in FR as [FR _]. apply Forall_app in FR as [_ FR]. rewrite ED in LD.
    pose proof (segment_rows w q FR LD) as SR. rewrite ED. unfold vwindows. rewrite vec_windows_by_env by exact N1.
    assert (Z : forall js, (forall j, In j js -> j < n) -> flat_map (fun j => nstep_samples (map CoreReplayModel.row_of (closed (of_env j w))) nst gamma) js = []).
    { induction js as [|j js IH]; intros BJ; [reflexivity|]. cbn [flat_map]. rewrite IH by (intros i Hi; apply BJ; right; exact Hi). rewrite app_nil_r.
      apply windows_none. rewrite closed_len, SR by (apply BJ; left; reflexivity). exact QN'. }
    apply Z. intros j Hj. apply in_seq in Hj. lia. }
  assert (G : Forall (fun d => vwindows d = []) (xfits_of (x_ev s)) -> RI (x_ag s) /\ held' (x_ag s) = [] /\ RainbowModel.r_w (x_ag s) = w0 /\ RainbowModel.r_target (x_ag s) = w0 /\ RainbowModel.r_updates (x_ag s) = 0).
  { refine (history_agent n e_reset e_step dr ft (fun ds b => Forall (fun d => vwindows d = []) ds -> RI b /\ held' b = [] /\ RainbowModel.r_w b = w0 /\ RainbowModel.r_target b = w0 /\ RainbowModel.r_updates b = 0) es (RainbowModel.rb_init mx w0) _ _ _ (x_ev s) (x_env s, x_ag s) HH).
    - intros _. split; [apply vbreached_ri, vb_new|]. repeat split.
    - intros ds b xs HB'. exact HB'.
    - intros ds b d HB' F. apply Forall_app in F as [F1 F2]. inversion F2 as [|? ? EW _]; subst. destruct (HB' F1) as (I & H1 & H2 & H3 & H4).
      destruct (bstep b d I) as [I' (pn & h1 & _ & E1 & _ & S4 & _)]. split; [exact I'|].
      change (nstep_samples (map CoreDqnModel.row_of d) nst gamma) with (vwindows d) in E1. rewrite EW, H1 in E1. cbn [map app] in E1. change (lastn mx []) with (@nil (row * R)) in E1.
      rewrite E1 in S4. destruct (S4 (Nat.le_0_l _)) as (_ & Z1 & Z2 & Z3 & Z4). rewrite Z1, Z2, Z3, Z4. auto. }
  apply G, NW.
Qed.
End Rainbow.

(** Two counting environments, a fit every two steps: the second fit finds the three most recent
    transitions, of both environments, and trains on the drawn one. *)
Definition yreset (e : nat) : nat * nat := (e, e).
Definition ystep (e : nat) (_ : unit) : nat * nat * R * bool := (S e, S e, 1%R, false).
Example vec_replay_ex : exists s,
  vr_learn 2 None (fun _ _ _ => false) yreset ystep (fun (_ : list nat) _ _ rows => map (@s_state nat unit unit) rows) (fun l => l)
    (fun _ (p : unit) xs => (p, map (fun _ : nat => tt) xs)) (fun _ len => [len - 1]) 4 VecCoreModel.fresh_logic [(0, 0); (100, 100)]
    (CoreReplayModel.replay_init 1 3 [] tt) (Some 4) None (Some 2) None = XDone s /\
  map (map (fun x => (CoreModel.state x, CoreModel.next_state x))) (xfits_of (x_ev s)) = [[(0, 1); (100, 101)]; [(1, 2); (101, 102)]] /\
  map (@s_state nat unit unit) (chronological (CoreReplayModel.r_mem (x_ag s))) = [100; 1; 101] /\
  CoreReplayModel.r_hist (x_ag s) = [[]; [100]; [1]] /\ CoreReplayModel.r_ok (x_ag s) = true.
Proof. eexists. split; [lazy -[IZR]; reflexivity|]. repeat split. Qed.

(** Eight steps of the same two environments with three-step returns and a fit every four steps:
    two fits, on two steps of each environment, and Rainbow stores nothing. *)
Definition ex_never := vec_rainbow_never_learns_refuted 2 None (fun _ _ _ => false) yreset ystep RainbowProps.xq RainbowProps.xd RainbowProps.xda RainbowProps.xtr
  (fun _ _ xs => map (fun _ => tt) xs) (fun _ _ => (1 / 2)%R) (fun _ _ _ => true) (fun _ => 1%R) (1 / 2)%R false 1 1 1 2 (1 / 100)%R 1%R
  3 2 0%R 10%R 1%R ltac:(discriminate) ltac:(reflexivity) ltac:(lia) ltac:(lia) ltac:(lia) ltac:(lia) ltac:(lra) RainbowProps.ex_rb_range ltac:(lia) ltac:(discriminate)
  ltac:(intros; apply map_length) 8 VecCoreModel.fresh_logic [(0, 0); (100, 100)] 0 8 2 ltac:(lia) ltac:(lia) eq_refl ltac:(lia).
Example vec_rainbow_ex : exists s,
  vb_learn 2 None (fun _ _ _ => false) yreset ystep RainbowProps.xq RainbowProps.xd RainbowProps.xda RainbowProps.xtr
    (fun _ _ xs => map (fun _ => tt) xs) (fun _ _ => (1 / 2)%R) (fun _ _ _ => true) (fun _ => 1%R) (1 / 2)%R false 1 1 1 (1 / 100)%R 1%R
    3 2 0%R 10%R 1%R 8 VecCoreModel.fresh_logic [(0, 0); (100, 100)] (RainbowModel.rb_init 2 0) (Some 8) None (Some 4) None = XDone s /\
  map (map (fun x => (CoreModel.state x, CoreModel.last x))) (xfits_of (x_ev s)) =
    [[(0, false); (1, true); (100, false); (101, true)]; [(2, false); (3, true); (102, false); (103, true)]] /\
  held (RainbowModel.r_tree (x_ag s)) = [] /\ RainbowModel.r_w (x_ag s) = 0.
Proof.
  destruct ex_never as (s & HD & _ & H1 & H2 & _). exists s. split; [exact HD|]. split; [|split; assumption].
  clear H1 H2. revert HD. unfold vb_learn. set (ft := vb_fit _ _ _ _ _ _ _ _ _ _ _ _ _ _ _ _ _ _ _). clearbody ft. intros HD.
  assert (G : exists s', xlearn 2 None (fun _ _ _ => false) yreset ystep (vb_draw (fun _ _ xs => map (fun _ : nat => tt) xs)) ft 8 VecCoreModel.fresh_logic [(0, 0); (100, 100)]
      (RainbowModel.rb_init 2 0) (Some 8) None (Some 4) None = XDone s' /\
    map (map (fun x => (CoreModel.state x, CoreModel.last x))) (xfits_of (x_ev s')) =
    [[(0, false); (1, true); (100, false); (101, true)]; [(2, false); (3, true); (102, false); (103, true)]]).
  { eexists. split; [lazy -[IZR]; reflexivity|]. reflexivity. }
  destruct G as (s' & G1 & G2). change (2 * 2) with 4 in HD. rewrite G1 in HD. injection HD as <-. exact G2.
Qed.

Print Assumptions vec_windows_by_env.
Print Assumptions vec_replay_agent.
Print Assumptions vec_replay_call.
Print Assumptions vec_rainbow_updates.
Print Assumptions vec_rainbow_memory.
Print Assumptions vec_rainbow_rows.
Print Assumptions vec_rainbow_never_learns_refuted.

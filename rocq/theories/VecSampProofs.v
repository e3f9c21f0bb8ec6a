(** Proofs for C119: expectations. *)
From Coq Require Import List Arith Lia Bool Reals Lra Permutation.
From Verif Require Import Common EpisodeSpec PgExpSpec PgExpProps SampModel SampSpec SampProofs VecSampSpec.
From Verif Require CoreModel.
Import ListNotations.
Local Open Scope R_scope.

Section Tapes.
Context {Oe Oa : Type}.
Variables (mue : list (R * Oe)) (mua : list (R * Oa)).

Lemma et_ext : forall lens (f g : list (list Oe) -> R), (forall ts, length ts = length lens -> f ts = g ts) -> etapes lens mue f = etapes lens mue g.
Proof.
  induction lens as [|l lens IH]; intros f g H; cbn [etapes]; [apply H; reflexivity|].
  apply mean_ext. intros w t _. apply IH. intros ts L. apply H. cbn. lia.
Qed.
Lemma et_mean : forall lens B (m : list (R * B)) f, etapes lens mue (fun ts => mean m (fun x => f ts x)) = mean m (fun x => etapes lens mue (fun ts => f ts x)).
Proof.
  induction lens as [|l lens IH]; intros B m f; cbn [etapes]; [reflexivity|].
  rewrite (mean_ext _ _ _ (fun t => mean m (fun x => etapes lens mue (fun ts => f (t :: ts) x)))).
  - apply mean_swap.
  - intros w t _. apply (IH B m (fun ts => f (t :: ts))).
Qed.
Notation Ev lens na := (vtapes lens na mue mua).

Lemma Ev_ext : forall lens na f g, (forall ts ta, length ts = length lens -> f ts ta = g ts ta) -> Ev lens na f = Ev lens na g.
Proof. intros lens na f g H. unfold vtapes. apply et_ext. intros ts L. apply mean_ext. intros. apply H. exact L. Qed.
Lemma Ev_mean : forall lens na B (m : list (R * B)) f, Ev lens na (fun ts ta => mean m (fun x => f ts ta x)) = mean m (fun x => Ev lens na (fun ts ta => f ts ta x)).
Proof.
  intros. unfold vtapes. rewrite <- et_mean. apply et_ext. intros ts _. apply mean_swap.
Qed.
Lemma Ev_cons : forall l lens na f, Ev (l :: lens) na f = mean (batches l mue) (fun t => Ev lens na (fun ts ta => f (t :: ts) ta)).
Proof. reflexivity. Qed.
Lemma Ev_pop : forall lens na f, Ev lens (S na) f = mean mua (fun w => Ev lens na (fun ts ta => f ts (w :: ta))).
Proof.
  intros. unfold vtapes. rewrite <- et_mean. apply et_ext. intros ts _. apply mean_batches_S.
Qed.
Lemma Ev_const : forall lens na c, mean mue (fun _ => 1) = 1 -> mean mua (fun _ => 1) = 1 -> Ev lens na (fun _ _ => c) = c.
Proof.
  intros lens na c Me Ma. unfold vtapes. induction lens as [|l lens IH]; cbn [etapes]; [apply mean_const, batches_mass, Ma|].
  rewrite IH. apply mean_const, batches_mass, Me.
Qed.
End Tapes.

Section Slots.
Context {St Ac A0 Oe Oa : Type}.
Variables (de : Oe) (da : Oa).
Variable init : Oe -> St.
Variable out : St -> Ac -> Oe -> St * R * bool.
Variable pol : A0 -> St -> Oa -> Ac.
Notation row := (CoreModel.sample St Ac R unit).
Variable h : nat.

(** An environment: its finished episodes; the steps made in the episode in progress, its state,
    and how many steps are left after the next one. *)
Definition slot := (list (list row) * option (list row * St * nat))%type.
(** What an environment does in an iteration. *)
Inductive what := Stay | Go | Fresh.
Definition fits (a : what) (sl : slot) : Prop :=
  match a, snd sl with Stay, None | Go, Some _ | Fresh, None => True | _, _ => False end.
Definition fresh (acts : list what) : nat := length (filter (fun a => match a with Fresh => true | _ => false end) acts).

Definition goes (g : A0) (d : list (list row)) (pre : list row) (s : St) (k : nat) (wa : Oa) (we : Oe) : slot * bool :=
  let a := pol g s wa in
  let '(s', r, ab) := out s a we in
  if ((match k with O => true | _ => false end) || ab)%bool
  then ((d ++ [pre ++ [CoreModel.mkS s a r s' ab true tt tt]], None), ab)
  else ((d, Some (pre ++ [CoreModel.mkS s a r s' ab false tt tt], s', pred k)), ab).
Definition env1 (g : A0) (a : what) (sl : slot) (wa : Oa) (w1 w2 : Oe) : slot * bool :=
  match a, snd sl with
  | Go, Some (pre, s, k) => goes g (fst sl) pre s k wa w1
  | Fresh, None => goes g (fst sl) [] (init w1) h wa w2
  | _, _ => (sl, false)
  end.
Definition used (a : what) (sl : slot) : nat := match a, snd sl with Go, Some _ => 1 | Fresh, None => 2 | _, _ => 0 end%nat.

Fixpoint pass (g : A0) (acts : list what) (sls : list slot) (tes : list (list Oe)) (ta : list Oa) : list (slot * bool) * list (list Oe) * list Oa :=
  match acts, sls, tes with
  | a :: acts', sl :: sls', te :: tes' =>
      let (wa, ta1) := pop da ta in
      let '(o, ts, ta2) := pass g acts' sls' tes' ta1 in
      (env1 g a sl wa (nth 0 te de) (nth 1 te de) :: o, skipn (used a sl) te :: ts, ta2)
  | _, _, _ => ([], [], ta)
  end.
Inductive reach (g : A0) : list what -> list slot -> list (slot * bool) -> Prop :=
| reach_nil : reach g [] [] []
| reach_cons : forall a sl acts sls o wa w1 w2, reach g acts sls o -> reach g (a :: acts) (sl :: sls) (env1 g a sl wa w1 w2 :: o).

(** Tapes that lead to a result that can be reached. *)
Lemma reach_pass : forall g acts sls o, reach g acts sls o -> forall ts ta, length ts = length sls ->
  exists tes ta0, length tes = length sls /\ pass g acts sls tes ta0 = (o, ts, ta).
Proof.
  intros g acts sls o H. induction H as [|a sl acts sls o wa w1 w2 H IH]; intros ts ta L.
  - destruct ts; [|discriminate]. exists [], ta. split; reflexivity.
  - destruct ts as [|t ts]; [discriminate|]. injection L as L. destruct (IH ts ta L) as (tes & ta0 & L' & P).
    exists ((match used a sl with O => t | S O => w1 :: t | _ => w1 :: w2 :: t end) :: tes), (wa :: ta0). split; [cbn; lia|].
    cbn [pass pop]. rewrite P. unfold used, env1. destruct a, (snd sl) as [[[pre s] k]|]; reflexivity.
Qed.
Lemma pass_reach : forall g acts sls tes ta, length acts = length sls -> length tes = length sls ->
  let '(o, ts, ta') := pass g acts sls tes ta in reach g acts sls o /\ length ts = length sls.
Proof.
  induction acts as [|a acts IH]; destruct sls as [|sl sls]; destruct tes as [|te tes]; intros ta L1 L2; try discriminate; cbn [pass].
  - split; [constructor|reflexivity].
  - destruct (pop da ta) as [wa ta1]. specialize (IH sls tes ta1 ltac:(cbn in *; lia) ltac:(cbn in *; lia)). destruct (pass g acts sls tes ta1) as [[o ts] ta2].
    destruct IH as [IH1 IH2]. split; [constructor; exact IH1|cbn; lia].
Qed.
Lemma reach_len : forall g acts sls o, reach g acts sls o -> length o = length sls.
Proof. intros g acts sls o H. induction H; cbn; lia. Qed.

(** * Expectation *)
Variable acts : list Ac.
Variable kern : St -> Ac -> list (R * St * R * bool).
Variable starts : list (R * St).
Variable pi : A0 -> St -> Ac -> R.
Variables (mue : list (R * Oe)) (mua : list (R * Oa)).
Hypothesis Me : mean mue (fun _ => 1) = 1.
Hypothesis Ma : mean mua (fun _ => 1) = 1.
Hypothesis Hpol : forall g s f, mean mua (fun w => f (pol g s w)) = rsum (map (fun a => pi g s a * f a) acts).
Hypothesis Hout : forall s a f, mean mue (fun w => f (out s a w)) = rsum (map (fun k => let '(p, s', r, ab) := k in p * f (s', r, ab)) (kern s a)).
Hypothesis Hinit : forall f, mean mue (fun w => f (init w)) = mean starts f.
Notation Ev lens na := (vtapes lens na mue mua).
Notation paths := (paths acts kern pi).
Notation epis := (epis acts kern starts pi).

(** The episodes an environment will have contributed when the one in progress is over. *)
Definition fin (g : A0) (sl : slot) : list (R * list (list row)) :=
  match snd sl with
  | None => [(1, fst sl)]
  | Some (pre, s, k) => map (fun we => (fst we, fst sl ++ [pre ++ snd we])) (paths g k s)
  end.
Fixpoint V (g : A0) (sls : list slot) (Rm : nat) (F : list (list row) -> R) : R :=
  match sls with
  | [] => mean (batches Rm (epis g h)) F
  | sl :: sls' => mean (fin g sl) (fun e => V g sls' Rm (fun es => F (e ++ es)))
  end.

Lemma mean_fin : forall g d c f, mean (fin g (d, c)) f = match c with None => f d | Some (pre, s, k) => mean (paths g k s) (fun e => f (d ++ [pre ++ e])) end.
Proof.
  intros g d c f. unfold fin. cbn [fst snd]. destruct c as [[[pre s] k]|]; [|rewrite mean_one; ring].
  unfold mean. rewrite map_map. reflexivity.
Qed.
Lemma V_ext : forall g sls Rm F G, (forall es, F es = G es) -> V g sls Rm F = V g sls Rm G.
Proof.
  induction sls as [|sl sls IH]; intros Rm F G H; cbn [V]; [apply mean_ext; intros; apply H|].
  apply mean_ext. intros w e _. apply IH. intros es. apply H.
Qed.
Lemma V_mean : forall g sls Rm B (m : list (R * B)) F, V g sls Rm (fun es => mean m (fun x => F es x)) = mean m (fun x => V g sls Rm (fun es => F es x)).
Proof.
  induction sls as [|sl sls IH]; intros Rm B m F; cbn [V]; [apply mean_swap|].
  rewrite mean_swap. apply mean_ext. intros w e _. apply (IH Rm B m (fun es => F (e ++ es))).
Qed.
Lemma V_take : forall g sls Rm F, symmetric F -> V g sls (S Rm) F = mean (epis g h) (fun e => V g sls Rm (fun es => F (e :: es))).
Proof.
  intros g. induction sls as [|sl sls IH]; intros Rm F HF; cbn [V]; [apply mean_batches_S|].
  rewrite mean_swap. apply mean_ext. intros w e _. rewrite IH.
  - apply mean_ext. intros w' e' _. apply V_ext. intros es. apply HF. apply Permutation_sym, Permutation_middle.
  - intros b b' P. apply HF. apply Permutation_app_head. exact P.
Qed.
Lemma V_idle : forall g sls F, Forall (fun sl => snd sl = None) sls -> V g sls 0 F = F (concat (map fst sls)).
Proof.
  intros g. induction sls as [|[d c] sls IH]; intros F H; cbn [V]; [apply mean_batches_0|]. inversion H as [|? ? E H']. cbn [snd] in E. subst c.
  rewrite mean_fin, IH by exact H'. reflexivity.
Qed.

Lemma goes_exp : forall g d pre s k (f : slot * bool -> R) (G : list (list row) -> R), 
  (forall wa we, f (goes g d pre s k wa we) = mean (fin g (fst (goes g d pre s k wa we))) G) ->
  mean mua (fun wa => mean mue (fun we => f (goes g d pre s k wa we))) = mean (fin g (d, Some (pre, s, k))) G.
Proof.
  intros g d pre s k f G HF. rewrite mean_fin, (mean_paths acts kern pi).
  rewrite (mean_ext _ _ _ (fun wa => rsum (map (fun x => let '(p, s', r, ab) := x in p *
    (match k with
    | O => G (d ++ [pre ++ [CoreModel.mkS s (pol g s wa) r s' ab true tt tt]])
    | S k' => if ab : bool then G (d ++ [pre ++ [CoreModel.mkS s (pol g s wa) r s' ab true tt tt]])
              else mean (paths g k' s') (fun e => G (d ++ [pre ++ CoreModel.mkS s (pol g s wa) r s' ab false tt tt :: e]))
    end)) (kern s (pol g s wa))))).
  - exact (Hpol g s (fun a => rsum (map (fun x => let '(p, s', r, ab) := x in p *
    (match k with
    | O => G (d ++ [pre ++ [CoreModel.mkS s a r s' ab true tt tt]])
    | S k' => if ab : bool then G (d ++ [pre ++ [CoreModel.mkS s a r s' ab true tt tt]])
              else mean (paths g k' s') (fun e => G (d ++ [pre ++ CoreModel.mkS s a r s' ab false tt tt :: e]))
    end)) (kern s a)))).
  - intros w wa _. set (a := pol g s wa).
    eapply eq_trans; [|exact (Hout s a (fun o => let '(s', r, ab) := o in match k with
    | O => G (d ++ [pre ++ [CoreModel.mkS s a r s' ab true tt tt]])
    | S k' => if ab : bool then G (d ++ [pre ++ [CoreModel.mkS s a r s' ab true tt tt]])
              else mean (paths g k' s') (fun e => G (d ++ [pre ++ CoreModel.mkS s a r s' ab false tt tt :: e]))
    end))]. apply mean_ext. intros w' we _. rewrite HF. unfold goes. fold a. destruct (out s a we) as [[s' r] ab].
    destruct k as [|k]; cbn [orb]; [cbn [fst]; rewrite mean_fin; reflexivity|].
    destruct ab; cbn [fst]; rewrite mean_fin; [reflexivity|]. cbn [pred]. apply mean_ext. intros w2 e _. rewrite <- app_assoc. reflexivity.
Qed.

(** Dropping entries from the front of a tape. *)
Lemma batch_skip1 : forall l (f : Oe -> list Oe -> R), mean (batches (S l) mue) (fun t => f (nth 0 t de) (skipn 1 t)) = mean mue (fun w => mean (batches l mue) (fun t => f w t)).
Proof. intros. rewrite mean_batches_S. reflexivity. Qed.
Lemma batch_skip2 : forall l (f : Oe -> Oe -> list Oe -> R), mean (batches (S (S l)) mue) (fun t => f (nth 0 t de) (nth 1 t de) (skipn 2 t)) =
  mean mue (fun w1 => mean mue (fun w2 => mean (batches l mue) (fun t => f w1 w2 t))).
Proof. intros. rewrite mean_batches_S. apply mean_ext. intros w x _. rewrite mean_batches_S. reflexivity. Qed.

(** One iteration: what it changes at random and what is fixed cancel out. *)
Theorem pass_exp : forall g ws sls lens na B (Phi : list (slot * bool) -> list (list Oe) -> list Oa -> R) Rm (F : list (list row) -> R),
  length ws = length sls -> length lens = length sls -> Forall (fun l => B + 2 <= l)%nat lens -> (length sls <= na)%nat ->
  symmetric F -> (fresh ws <= Rm)%nat -> Forall2 fits ws sls ->
  (forall o lens' na', reach g ws sls o -> length lens' = length sls -> Forall (fun l => B <= l)%nat lens' -> (na' = na - length sls)%nat ->
     Ev lens' na' (Phi o) = V g (map fst o) (Rm - fresh ws) F) ->
  Ev lens na (fun tes ta => let '(o, ts, ta') := pass g ws sls tes ta in Phi o ts ta') = V g sls Rm F.
Proof.
  intros g. induction ws as [|a ws IH]; intros [|sl sls] [|l lens] na B Phi Rm F L1 L2 HB Hna HF Hf Hfit K; try discriminate.
  - cbn [V]. specialize (K [] [] na (reach_nil g) eq_refl (Forall_nil _) ltac:(cbn; lia)). cbn [map V fresh filter length] in K. rewrite Nat.sub_0_r in K. rewrite <- K.
    apply Ev_ext. intros ts ta L. destruct ts; [reflexivity|discriminate].
  - destruct na as [|na]; [cbn in Hna; lia|]. cbn in Hna. rewrite Ev_pop. inversion HB as [|? ? Bl HB']. subst x l0.
    inversion Hfit as [|? ? ? ? Fa Hfit']. subst x y l0 l'.
    (* the rest of the environments, this one having made its step *)
    assert (REST : forall wa w1 w2 l' Rt, let s' := env1 g a sl wa w1 w2 in
      (B <= l')%nat -> (Rt - fresh ws = Rm - fresh (a :: ws))%nat -> (fresh ws <= Rt)%nat ->
      mean (batches l' mue) (fun t' => Ev lens na (fun tes ta => let '(o, ts, ta') := pass g ws sls tes ta in Phi (s' :: o) (t' :: ts) ta')) =
      mean (fin g (fst s')) (fun e => V g sls Rt (fun es => F (e ++ es)))).
    { intros wa w1 w2 l' Rt s' Hl' HR HR2. rewrite <- Ev_mean. rewrite <- V_mean.
      rewrite (Ev_ext _ _ _ _ _ (fun tes ta => let '(o, ts, ta') := pass g ws sls tes ta in mean (batches l' mue) (fun t' => Phi (s' :: o) (t' :: ts) ta')))
        by (intros ts ta _; destruct (pass g ws sls ts ta) as [[o ts'] ta']; reflexivity).
      apply (IH sls lens na B (fun o ts ta' => mean (batches l' mue) (fun t' => Phi (s' :: o) (t' :: ts) ta')) Rt (fun es => mean (fin g (fst s')) (fun e => F (e ++ es))));
        try assumption; try (cbn in *; lia).
      - intros b b' P. apply mean_ext. intros w e _. apply HF, Permutation_app_head, P.
      - intros o lens' na' HR' HL HBl Hn. rewrite Ev_mean. rewrite V_mean, HR.
        change (mean (batches l' mue) (fun x => Ev lens' na' (fun ts ta => Phi (s' :: o) (x :: ts) ta))) with (Ev (l' :: lens') na' (Phi (s' :: o))).
        rewrite (K (s' :: o) (l' :: lens') na'); [reflexivity|constructor; exact HR'|cbn; lia|constructor; assumption|cbn; lia]. }
    assert (PASS : forall wa tes ta t, (let '(o, ts, ta') := pass g (a :: ws) (sl :: sls) (t :: tes) (wa :: ta) in Phi o ts ta') =
       (let '(o, ts, ta') := pass g ws sls tes ta in Phi (env1 g a sl wa (nth 0 t de) (nth 1 t de) :: o) (skipn (used a sl) t :: ts) ta')).
    { intros wa tes ta t. cbn [pass pop]. destruct (pass g ws sls tes ta) as [[o ts] ta']. reflexivity. }
    cbn [V]. destruct sl as [d c]. unfold fits in Fa. cbn [snd] in Fa.
    destruct a; (destruct c as [[[pre s] k]|]; [try contradiction|try contradiction]).
    + (* takes no part *)
      eapply eq_trans; [|apply (mean_const _ mua _ Ma)]. apply mean_ext. intros w wa _. rewrite Ev_cons.
      eapply eq_trans; [|apply (REST wa de de l Rm); first [reflexivity|unfold fresh in *; cbn [filter length] in *; lia]].
      apply mean_ext. intros w' t _. apply Ev_ext. intros ts ta _. exact (PASS wa ts ta t).
    + (* goes on *)
      rewrite <- (goes_exp g d pre s k (fun x => mean (fin g (fst x)) (fun e => V g sls Rm (fun es => F (e ++ es)))) _ (fun _ _ => eq_refl)).
      apply mean_ext. intros w wa _. rewrite Ev_cons. destruct l as [|l]; [lia|].
      rewrite (mean_ext _ _ _ (fun t => Ev lens na (fun tes ta => let '(o, ts, ta') := pass g ws sls tes ta in Phi (goes g d pre s k wa (nth 0 t de) :: o) (skipn 1 t :: ts) ta')))
        by (intros w' t _; apply Ev_ext; intros ts ta _; exact (PASS wa ts ta t)).
      rewrite (batch_skip1 l (fun w1 t => Ev lens na (fun tes ta => let '(o, ts, ta') := pass g ws sls tes ta in Phi (goes g d pre s k wa w1 :: o) (t :: ts) ta'))).
      apply mean_ext. intros w1 we _. apply (REST wa we de l Rm); first [reflexivity|unfold fresh in *; cbn [filter length] in *; lia].
    + (* starts an episode *)
      cbn in Hf. destruct Rm as [|Rm]; [unfold fresh in Hf; cbn in Hf; lia|]. rewrite mean_fin.
      rewrite V_take by (intros b b' P; apply HF, Permutation_app_head, P).
      rewrite (mean_epis acts kern starts pi), <- Hinit.
      eapply eq_trans; [|apply mean_ext; intros w1 we _; eapply eq_trans; [exact (goes_exp g d [] (init we) h (fun x => mean (fin g (fst x)) (fun e => V g sls Rm (fun es => F (e ++ es)))) _ (fun _ _ => eq_refl))|rewrite mean_fin; apply mean_ext; intros w2 e _; apply V_ext; intros es; rewrite <- app_assoc; reflexivity]].
      rewrite mean_swap. apply mean_ext. intros w wa _. rewrite Ev_cons. destruct l as [|[|l]]; [lia|lia|].
      rewrite (mean_ext _ _ _ (fun t => Ev lens na (fun tes ta => let '(o, ts, ta') := pass g ws sls tes ta in Phi (goes g d [] (init (nth 0 t de)) h wa (nth 1 t de) :: o) (skipn 2 t :: ts) ta')))
        by (intros w' t _; apply Ev_ext; intros ts ta _; exact (PASS wa ts ta t)).
      rewrite (batch_skip2 l (fun w1 w2 t => Ev lens na (fun tes ta => let '(o, ts, ta') := pass g ws sls tes ta in Phi (goes g d [] (init w1) h wa w2 :: o) (t :: ts) ta'))).
      apply mean_ext. intros v1 w1 _. apply mean_ext. intros v2 w2 _.
      apply (REST wa w1 w2 l Rm); unfold fresh in *; cbn in *; try lia; reflexivity.
Qed.
End Slots.

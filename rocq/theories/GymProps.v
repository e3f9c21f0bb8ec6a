(** Theorems about the wrappers of external simulators (C85). *)
From Coq Require Import List Arith Lia Reals Lra Bool.
From Verif Require Import Common GymModel.
Import ListNotations.
Local Open Scope R_scope.

Section GymProps.
Context {S A O : Type}.
Variable core_reset : S -> S * O.
Variable core_step : S -> A -> S * O * R * bool.
Notation gstep := (gym_step core_step).
Notation nstep := (gymnasium_step core_step).
Notation greset := (gym_reset core_reset).

Definition limit_of (l : layer S) : option limit := match l with Limit m _ _ => Some m | Plain _ => None end.
(** the time limits around the simulator, outermost first *)
Fixpoint limits (ls : list (layer S)) : list limit :=
  match ls with [] => [] | l :: r => match limit_of l with Some m => m :: limits r | None => limits r end end.

(** observations, rewards and flags the bare simulator would return *)
Fixpoint core_run (s : S) (acts : list A) : list (O * R * bool) :=
  match acts with [] => [] | a :: r => let '(s', o, x, d) := core_step s a in (o, x, d) :: core_run s' r end.
Fixpoint env_run (step : env S -> A -> env S * O * R * bool) (e : env S) (acts : list A) : list (O * R * bool) :=
  match acts with [] => [] | a :: r => let '(e', o, x, d) := step e a in (o, x, d) :: env_run step e' r end.

Lemma layers_step_limits : forall ls, limits (fst (layers_step ls)) = limits ls.
Proof. induction ls as [|[w|m e w] ls IH]; simpl; [reflexivity| |]; destruct (layers_step ls); simpl in *; congruence. Qed.
Lemma layers_step_inf : forall ls, Forall (fun m => m = None) (limits ls) -> snd (layers_step ls) = false.
Proof.
  induction ls as [|[w|m e w] ls IH]; simpl; intros H; [reflexivity| |].
  - specialize (IH H). destruct (layers_step ls). exact IH.
  - inversion H; subst. specialize (IH H3). destruct (layers_step ls). simpl in *. rewrite IH. reflexivity.
Qed.
Lemma gym_run_core : forall acts ls c, Forall (fun m => m = None) (limits ls) -> env_run gstep (mkE ls c) acts = core_run c acts.
Proof.
  induction acts as [|a acts IH]; intros ls c H; simpl; [reflexivity|]. unfold gym_step. cbn [e_core e_layers].
  destruct (core_step c a) as [[[c' o] x] d]. pose proof (layers_step_inf ls H) as F. pose proof (layers_step_limits ls) as L.
  destruct (layers_step ls) as [ls' t]. simpl in F, L. subst t. rewrite orb_false_r. f_equal. apply IH. rewrite L. exact H.
Qed.

Lemma set_horizon_limits : forall ls h H ls', gym_set_horizon ls h = Some (H, ls') ->
  match limits ls with
  | [] => h = Some H /\ limits ls' = []
  | m :: r => H = match h with Some H => H | None => m end /\ limits ls' = None :: r
  end.
Proof.
  induction ls as [|[w|m e w] ls IH]; intros h H ls' E; [discriminate| |].
  - destruct ls as [|l ls].
    + simpl in *. destruct h; inversion E; subst. auto.
    + change (gym_set_horizon (Plain w :: l :: ls) h) with (match gym_set_horizon (l :: ls) h with Some (H, r') => Some (H, Plain w :: r') | None => None end) in E.
      destruct (gym_set_horizon (l :: ls) h) as [[H' r']|] eqn:E'; [|discriminate]. inversion E; subst. apply IH in E'. exact E'.
  - simpl in E. inversion E; subst. simpl. auto.
Qed.

(** With at most one time limit among the wrappers, the horizon is the one that was asked for, or else that time limit, and the wrapped
    environment never ends an episode on its own account: whatever the actions, it returns the observations, rewards
    and flags of the simulator. *)
Theorem gym_horizon : forall ls h H ls' c acts, gym_set_horizon ls h = Some (H, ls') -> (length (limits ls) <= 1)%nat ->
  (h = Some H \/ (h = None /\ limits ls = [H])) /\ env_run gstep (mkE ls' c) acts = core_run c acts.
Proof.
  intros ls h H ls' c acts E L. apply set_horizon_limits in E. destruct (limits ls) as [|m [|m' r]]; [| |simpl in L; lia].
  - destruct E as [-> E]. split; [auto|]. apply gym_run_core. rewrite E. constructor.
  - destruct E as [-> E]. split; [destruct h; auto|]. apply gym_run_core. rewrite E. constructor; [reflexivity|constructor].
Qed.
(** The constructor raises exactly when nothing is wrapped, or when neither a horizon nor a time limit is there. *)
Theorem gym_horizon_raises : forall ls h, gym_set_horizon ls h = None <-> ls = [] \/ (h = None /\ limits ls = []).
Proof.
  induction ls as [|[w|m e w] ls IH]; intros h; [simpl; tauto| |].
  - destruct ls as [|l ls].
    + simpl. destruct h; split; intro Q; try discriminate; auto. destruct Q as [Q|[Q _]]; discriminate.
    + change (gym_set_horizon (Plain w :: l :: ls) h) with (match gym_set_horizon (l :: ls) h with Some (H, r') => Some (H, Plain w :: r') | None => None end).
      change (limits (Plain w :: l :: ls)) with (limits (l :: ls)). specialize (IH h).
      destruct (gym_set_horizon (l :: ls) h) as [[H r']|].
      * split; [discriminate|]. intros [Q|Q]; [discriminate|]. destruct IH as [_ IH]. specialize (IH (or_intror Q)). discriminate.
      * split; [|reflexivity]. intros _. destruct IH as [IH _]. destruct (IH eq_refl) as [Q|Q]; [discriminate|auto].
  - simpl. split; [discriminate|]. intros [Q|[_ Q]]; discriminate.
Qed.
(** A second time limit below the first one is not removed: the environment then reports absorbing states the simulator does not have,
    before the horizon. *)
Theorem gym_inner_limit_refuted : forall c a n m, (1 <= n)%nat ->
  let ls := [Limit (Some m) 0 None; Limit (Some n) (n - 1) None] in
  snd (core_step c a) = false ->
  exists ls' , gym_set_horizon ls None = Some (Some m, ls') /\ snd (gstep (mkE ls' c) a) = true.
Proof.
  intros c a n m Hn ls D. eexists. split; [reflexivity|]. unfold gym_step. cbn [e_core e_layers]. destruct (core_step c a) as [[[c' o] x] d]. simpl in D. subst d.
  simpl. rewrite Bool.orb_false_r. apply Nat.leb_le. lia.
Qed.

(** Gymnasium: no wrapper ever ends an episode, because truncation is ignored; the default horizon is finite, and the outermost time limit
    becomes the horizon while the inner ones stay. *)
Theorem gymnasium_horizon : forall ls h H ls' c acts, gymnasium_set_horizon ls h = Some (H, ls') ->
  (h = Some H \/ (h = None /\ exists m r, limits ls = m :: r /\ H = match m with Some k => Some k | None => Some (Z.to_nat 10000) end)) /\
  (h = None -> H <> None) /\
  limits ls' = match limits ls with [] => [] | _ :: r => H :: r end /\
  env_run nstep (mkE ls' c) acts = core_run c acts.
Proof.
  intros ls h H ls' c acts E.
  assert (R : forall acts ls c, env_run nstep (mkE ls c) acts = core_run c acts).
  { clear. induction acts as [|a acts IH]; intros ls c; simpl; [reflexivity|]. unfold gymnasium_step. cbn [e_core e_layers].
    destruct (core_step c a) as [[[c' o] x] d]. destruct (layers_step ls). f_equal. apply IH. }
  assert (Q : h = Some H \/ (h = None /\ exists m r, limits ls = m :: r /\ H = match m with Some k => Some k | None => Some (Z.to_nat 10000) end)).
  { revert h H ls' E. clear. induction ls as [|[w|m e w] ls IH]; intros h H ls' E; [discriminate| |].
    - destruct ls as [|l ls].
      + simpl in *. destruct h; inversion E; subst; auto.
      + change (gymnasium_set_horizon (Plain w :: l :: ls) h) with (match gymnasium_set_horizon (l :: ls) h with Some (H, r') => Some (H, Plain w :: r') | None => None end) in E.
        destruct (gymnasium_set_horizon (l :: ls) h) as [[H' r']|] eqn:E'; [|discriminate]. inversion E; subst. apply IH in E'. exact E'.
    - simpl in E. inversion E; subst. destruct h; [auto|]. right. split; [reflexivity|]. exists m, (limits ls). split; reflexivity. }
  assert (L : limits ls' = match limits ls with [] => [] | _ :: r => H :: r end).
  { revert h H ls' E Q. clear. induction ls as [|[w|m e w] ls IH]; intros h H ls' E Q; [discriminate| |].
    - destruct ls as [|l ls].
      + simpl in *. destruct h; inversion E; subst; auto.
      + change (gymnasium_set_horizon (Plain w :: l :: ls) h) with (match gymnasium_set_horizon (l :: ls) h with Some (H, r') => Some (H, Plain w :: r') | None => None end) in E.
        destruct (gymnasium_set_horizon (l :: ls) h) as [[H' r']|] eqn:E'; [|discriminate]. inversion E; subst. apply IH in E'; [exact E'|]. exact Q.
    - simpl in E. inversion E; subst. reflexivity. }
  split; [exact Q|]. split; [|split; [exact L|apply R]].
  intros ->. destruct Q as [Q|(_ & m & r & _ & ->)]; [discriminate|]. destruct m; discriminate.
Qed.

(** reset(state) on a wrapped simulator returns the given state, but leaves the simulator where an ordinary reset leaves it: every
    later step is that of an ordinary reset. Both interfaces are affected. *)
Theorem gym_reset_state_refuted : forall e s acts, e_layers e <> [] ->
  snd (greset e (Some s)) = Given s /\
  e_core (fst (greset e (Some s))) = fst (core_reset (e_core e)) /\
  env_run gstep (fst (greset e (Some s))) acts = env_run gstep (fst (greset e None)) acts /\
  env_run nstep (fst (greset e (Some s))) acts = env_run nstep (fst (greset e None)) acts.
Proof.
  intros [ls c] s acts NE. simpl in NE. unfold gym_reset. cbn [e_core e_layers]. destruct (core_reset c) as [c' o]. cbn [fst snd].
  assert (X : forall ls, ls <> [] -> e_core (set_state (mkE ls c') s) = c') by (intros [|[w|m k w] r] H; [congruence|reflexivity|reflexivity]).
  (* only the flags of the layers matter for the run *)
  set (same := fun l1 l2 : layer S => match l1, l2 with Plain _, Plain _ => True | Limit m e _, Limit m' e' _ => m = m' /\ e = e' | _, _ => False end).
  assert (LS : forall l1 l2, Forall2 same l1 l2 -> Forall2 same (fst (layers_step l1)) (fst (layers_step l2)) /\ snd (layers_step l1) = snd (layers_step l2)).
  { induction 1 as [|x y l1 l2 Hxy F IH]; [split; [constructor|reflexivity]|]. destruct IH as [IH1 IH2].
    destruct x as [w|m e w], y as [w'|m' e' w']; simpl in Hxy; try contradiction; simpl; destruct (layers_step l1), (layers_step l2); simpl in *.
    - split; [constructor; [exact I|exact IH1]|exact IH2].
    - destruct Hxy as [-> ->]. split; [constructor; [split; reflexivity|exact IH1]|rewrite IH2; reflexivity]. }
  assert (RG : forall acts l1 l2 c, Forall2 same l1 l2 -> env_run gstep (mkE l1 c) acts = env_run gstep (mkE l2 c) acts /\ env_run nstep (mkE l1 c) acts = env_run nstep (mkE l2 c) acts).
  { clear - LS. induction acts as [|a acts IH]; intros l1 l2 c F; [split; reflexivity|]. simpl. unfold gym_step, gymnasium_step. cbn [e_core e_layers].
    destruct (core_step c a) as [[[c' o] x] d]. destruct (LS l1 l2 F) as [F' T]. destruct (layers_step l1) as [l1' t1], (layers_step l2) as [l2' t2]. simpl in F', T. subst t2.
    destruct (IH l1' l2' c' F') as [I1 I2]. split; f_equal; [exact I1|exact I2]. }
  assert (RF : forall l, Forall2 same l l) by (induction l as [|[w|m e w] l IHl]; constructor; simpl; auto).
  assert (NE' : map layer_reset ls <> []) by (destruct ls; [congruence|discriminate]).
  split; [reflexivity|]. split; [apply X; exact NE'|].
  destruct (map layer_reset ls) as [|[w|m k w] r]; [congruence| |]; unfold set_state; cbn [e_layers e_core]; apply RG; constructor; simpl; auto.
Qed.
(** An ordinary reset shows the first observation of the simulator and restarts every time limit. *)
Theorem gym_reset_plain : forall e, snd (greset e None) = Obs (snd (core_reset (e_core e))) /\
  e_core (fst (greset e None)) = fst (core_reset (e_core e)) /\ limits (e_layers (fst (greset e None))) = limits (e_layers e) /\
  forall m k w, In (Limit m k w) (e_layers (fst (greset e None))) -> k = 0%nat.
Proof.
  intros [ls c]. unfold gym_reset. cbn [e_core e_layers]. destruct (core_reset c) as [c' o]. simpl. split; [reflexivity|]. split; [reflexivity|]. split.
  - induction ls as [|[w|m e w] ls IH]; simpl; congruence.
  - intros m k w Hin. apply in_map_iff in Hin. destruct Hin as ([w'|m' k' w'] & E & _); inversion E. reflexivity.
Qed.
End GymProps.

(** * MiniGrid *)
Section MiniGridProps.
Context {S F P : Type}.
Variable mg_raw : S -> nat -> S * F * R * bool.
Variable mg_new : S -> S * F.
Variable prep : F -> P.
Variable h : nat.
Notation reset := (mg_reset mg_new prep h).
Notation step := (mg_step mg_raw prep h).
Fixpoint mg_run (e : minigrid S P) (acts : list nat) : minigrid S P :=
  match acts with [] => e | a :: r => mg_run (fst (fst (step e a))) r end.
(** the screens the grid world shows *)
Fixpoint mg_screens (s : S) (acts : list nat) : list F :=
  match acts with [] => [] | a :: r => let '(s', f, _, _) := mg_raw s a in f :: mg_screens s' r end.

Lemma mg_run_count : forall acts e, m_count (mg_run e acts) = (m_count e + length acts)%nat /\ m_max (mg_run e acts) = m_max e /\ 
  m_frames (mg_run e acts) = (if acts then m_frames e else lastn h (m_frames e ++ map prep (mg_screens (m_core e) acts))).
Proof.
  induction acts as [|a acts IH]; intros e; simpl; [split; [lia|auto]|]. unfold mg_step. destruct (mg_raw (m_core e) a) as [[[s f] r] d]. cbn [fst].
  destruct (IH (mkM s (m_count e + 1) (m_max e) (m_outer e) (lastn h (m_frames e ++ [prep f])) (m_seed e)))%nat as (I1 & I2 & I3).
  rewrite I1, I2, I3. cbn [m_count m_max m_frames m_core]. split; [lia|]. split; [reflexivity|].
  destruct acts as [|a' acts]; [reflexivity|]. rewrite lastn_app, <- app_assoc. reflexivity.
Qed.
(** After a reset, the observation is the last [h] screens of the first screen repeated [h] times and the screens since. *)
Theorem minigrid_history : forall e acts, 
  m_frames (mg_run (reset e) acts) = lastn h (repeat (prep (snd (mg_new (m_core e)))) h ++ map prep (mg_screens (fst (mg_new (m_core e))) acts)) /\
  length (m_frames (mg_run (reset e) acts)) = h.
Proof.
  intros e acts. destruct (mg_run_count acts (reset e)) as (_ & _ & E).
  assert (Q : m_frames (mg_run (reset e) acts) = lastn h (repeat (prep (snd (mg_new (m_core e)))) h ++ map prep (mg_screens (fst (mg_new (m_core e))) acts))).
  { rewrite E. unfold mg_reset. destruct (mg_new (m_core e)) as [s f]. cbn [m_frames m_core fst snd]. destruct acts; [|reflexivity].
    simpl. rewrite app_nil_r, lastn_all; [reflexivity|]. rewrite repeat_length. lia. }
  split; [exact Q|]. rewrite Q, lastn_length, app_length, repeat_length. lia.
Qed.
(** Any positive reward becomes one, the others are kept. *)
Theorem minigrid_reward : forall e a s f r d, mg_raw (m_core e) a = (s, f, r, d) ->
  (0 < r -> snd (fst (step e a)) = 1) /\ (r <= 0 -> snd (fst (step e a)) = r).
Proof.
  intros e a s f r d E. unfold mg_step. rewrite E. cbn [fst snd]. destruct (Rlt_dec 0 r); split; intros; auto; lra.
Qed.
(** The horizon passed to the constructor does not change the limit of the grid world: step number max_steps is
    reported as absorbing for every horizon, and also when the task goes on. *)
Theorem minigrid_limit_refuted : forall s max horizon seed acts a, (length acts + 1 = max)%nat ->
  let '(e, H) := mg_make s max horizon seed in
  snd (step (mg_run (reset e) acts) a) = true /\ m_outer e = Some (H + 1)%nat /\ H = match horizon with Some H => H | None => max end.
Proof.
  intros s max horizon seed acts a L. unfold mg_make. split; [|split; reflexivity].
  set (e := mkM s 0 max _ _ seed). destruct (mg_run_count acts (reset e)) as (I1 & I2 & _). unfold mg_step.
  destruct (mg_raw _ a) as [[[s' f] r] d]. cbn [snd]. rewrite I1, I2. unfold mg_reset. destruct (mg_new (m_core e)). cbn [m_count m_max e].
  rewrite (proj2 (Nat.leb_le max (0 + length acts + 1))) by lia. apply orb_true_r.
Qed.
(** Before that step the flag of every step is the one of the grid world, whatever happened before the reset. *)
Theorem minigrid_flags : forall e acts a s f r d, (length acts + 1 < m_max e)%nat ->
  mg_raw (m_core (mg_run (reset e) acts)) a = (s, f, r, d) -> snd (step (mg_run (reset e) acts) a) = d.
Proof.
  intros e acts a s f r d L E. destruct (mg_run_count acts (reset e)) as (I1 & I2 & _). unfold mg_step. rewrite E. cbn [snd]. rewrite I1, I2.
  unfold mg_reset. destruct (mg_new (m_core e)). cbn [m_count m_max]. rewrite (proj2 (Nat.leb_gt _ _)) by lia. apply orb_false_r.
Qed.
End MiniGridProps.
(** A discrete action handed over as an array reaches the simulator as its first entry, and the call raises exactly for an empty array;
    a continuous action reaches it unchanged. *)
Theorem gym_action : forall A (a : list A), 
  (forall x, convert_action true a = Some (inl x) <-> hd_error a = Some x) /\ (convert_action true a = None <-> a = []) /\ convert_action false a = Some (inr a).
Proof.
  intros A [|x a]; unfold convert_action; simpl; repeat split; intros; try congruence; try discriminate.
Qed.
(** fixed_seed is stored and never used: a grid world that generates another layout at each reset does so with a fixed seed. *)
Theorem minigrid_seed_refuted : forall seed, exists (mg_new : nat -> nat * nat) (e : minigrid nat nat),
  m_seed e = Some seed /\ m_frames (mg_reset mg_new (fun f : nat => f) 1 (mg_reset mg_new (fun f : nat => f) 1 e)) <> m_frames (mg_reset mg_new (fun f : nat => f) 1 e) /\
  forall other, m_frames (mg_reset mg_new (fun f : nat => f) 1 (mkM (m_core e) (m_count e) (m_max e) (m_outer e) (m_frames e) other)) = m_frames (mg_reset mg_new (fun f : nat => f) 1 e).
Proof.
  intros seed. exists (fun g => (g + 1, g)%nat), (mkM 0%nat 0 10 None [] (Some seed)). split; [reflexivity|]. split; [discriminate|reflexivity].
Qed.

(** * dm_control *)
(** Observations that match the specification flatten to vectors of the declared size. *)
Theorem dm_observation_size : forall {V} spec (obs : list (list nat * list V)),
  map fst obs = spec -> Forall (fun x => length (snd x) = fold_left Nat.mul (fst x) 1%nat) obs -> length (dm_vector obs) = dm_size spec.
Proof.
  intros V spec obs <- F. unfold dm_vector, dm_size.
  assert (G : forall n, (n + length (concat (map snd obs)))%nat = fold_left (fun n sh => n + fold_left Nat.mul sh 1)%nat (map fst obs) n).
  { induction F as [|x obs Hx F IH]; intros n; simpl; [lia|]. rewrite <- IH, app_length, Hx. lia. }
  apply (G 0%nat).
Qed.
(** and each array is found again at the offset given by the sizes before it *)
Theorem dm_observation_parts : forall {V} (o1 : list (list nat * list V)) x o2,
  firstn (length (snd x)) (skipn (length (dm_vector o1)) (dm_vector (o1 ++ x :: o2))) = snd x.
Proof.
  intros V o1 x o2. unfold dm_vector. rewrite map_app, concat_app. simpl.
  rewrite skipn_app, skipn_all, Nat.sub_diag. simpl. rewrite firstn_app, firstn_all, Nat.sub_diag. simpl. apply app_nil_r.
Qed.
Fixpoint dm_run (e : dm) (ends : list bool) : list bool :=
  match ends with [] => [] | x :: r => let '(e', d) := dm_step e x in d :: dm_run e' r end.
(** Without pixels the step limit is lifted: absorbing is exactly the end of the task. With pixels it is not: the step at the limit
    is absorbing whatever the task and the horizon. *)
Theorem dm_limit_vector : forall lim horizon ends, dm_run (fst (dm_make false lim horizon)) ends = ends.
Proof.
  intros lim horizon ends. unfold dm_make. cbn [fst]. generalize 0%nat. induction ends as [|x ends IH]; intros n; [reflexivity|]. simpl. rewrite orb_false_r. f_equal. apply IH.
Qed.
Theorem dm_limit_pixels_refuted : forall n horizon ends, (1 <= n <= length ends)%nat ->
  nth (n - 1) (dm_run (fst (dm_make true (Some n) horizon)) ends) false = true.
Proof.
  intros n horizon ends H. unfold dm_make. cbn [fst].
  assert (G : forall ends k, (k < n <= k + length ends)%nat -> nth (n - 1 - k) (dm_run (mkDM (Some n) k) ends) false = true).
  { induction ends0 as [|x r IH]; intros k Hk; simpl in Hk; [lia|]. simpl. destruct (Nat.eq_dec (k + 1) n) as [E|E].
    - replace (n - 1 - k)%nat with 0%nat by lia. rewrite E, Nat.leb_refl. apply orb_true_r.
    - replace (n - 1 - k)%nat with (Datatypes.S (n - 1 - (k + 1))) by lia. apply IH. lia. }
  specialize (G ends 0%nat ltac:(lia)). rewrite Nat.sub_0_r in G. exact G.
Qed.

(** * Examples *)
Definition walk (s a : nat) : nat * nat * R * bool := ((s + a)%nat, (s + a)%nat, 1, Nat.leb 10 (s + a)).
Definition walk_new (s : nat) : nat * nat := (0%nat, 0%nat).
Example walk_limit : gym_set_horizon [Plain None; Limit (Some 3%nat) 0 None] (None : option limit) = Some (Some 3%nat, [Plain (S := nat) None; Limit None 0 None]) /\
  env_run (gym_step walk) (mkE [Plain None; Limit None 0 None] 0%nat) [2; 3; 1; 5; 1]%nat = [(2%nat, 1, false); (5%nat, 1, false); (6%nat, 1, false); (11%nat, 1, true); (12%nat, 1, true)].
Proof. split; reflexivity. Qed.
Example walk_reset : let '(e, o) := gym_reset walk_new (mkE [Limit None 4 None] 7%nat) (Some 9%nat) in
  o = Given 9%nat /\ env_run (gym_step walk) e [2]%nat = [(2%nat, 1, false)].
Proof. split; reflexivity. Qed.
Example gymnasium_infinite : exists ls, gymnasium_set_horizon [Limit None 0 None] None = Some (Some (Z.to_nat 10000), ls : list (layer nat)).
Proof. eexists. reflexivity. Qed.
Example dm_flat : dm_vector [([2; 2], [1; 2; 3; 4]); ([], [5]); ([3], [6; 7; 8])]%nat = [1; 2; 3; 4; 5; 6; 7; 8]%nat /\ dm_size [[2; 2]; []; [3]]%nat = 8%nat.
Proof. split; reflexivity. Qed.
Example grid_end : let raw := fun (s a : nat) => ((s + 1)%nat, s, 0.5, false) in
  let e := mg_reset (fun s => (s, s)) (fun f : nat => f) 2 (fst (mg_make 0%nat 2 (Some 100%nat) None)) in
  let '(e1, r1, d1) := mg_step raw (fun f : nat => f) 2 e 0 in let '(e2, r2, d2) := mg_step raw (fun f : nat => f) 2 e1 0 in
  d1 = false /\ d2 = true /\ m_frames e2 = [0; 1]%nat.
Proof. cbv -[Rlt_dec IZR Rdiv]. repeat split; reflexivity. Qed.
Print Assumptions gym_horizon.
Print Assumptions gym_horizon_raises.
Print Assumptions gym_inner_limit_refuted.
Print Assumptions gymnasium_horizon.
Print Assumptions gym_reset_state_refuted.
Print Assumptions gym_reset_plain.
Print Assumptions minigrid_history.
Print Assumptions minigrid_reward.
Print Assumptions minigrid_limit_refuted.
Print Assumptions minigrid_flags.
Print Assumptions gym_action.
Print Assumptions minigrid_seed_refuted.
Print Assumptions dm_observation_size.
Print Assumptions dm_observation_parts.
Print Assumptions dm_limit_vector.
Print Assumptions dm_limit_pixels_refuted.

(** Theorems about the Atari environments (C84). *)
From Coq Require Import List Arith Lia Reals Lra Bool.
From Verif Require Import Common AtariModel.
Import ListNotations.
Local Open Scope R_scope.

Section AtariProps.
Context {G F P : Type}.
Variable raw : G -> nat -> G * obs F.
Variable newgame : G -> G * F.
Variable pool : F -> F -> F.
Variable prep : F -> P.
Variable black : F.
Variables (noframeskip ends_at_life has_fire : bool) (max_lives h : nat).
Notation reset := (atari_reset newgame prep has_fire max_lives h).
Notation step := (atari_step raw pool prep black noframeskip ends_at_life has_fire h).
Notation estep := (env_step raw pool black noframeskip h).
Notation mskip := (max_skip raw pool black h).

(** * Action repetition *)
(** What the emulator shows when action [a] is held for at most [n] frames, stopping at game over. *)
Fixpoint play (n : nat) (g : G) (a : nat) : list (obs F) :=
  match n with
  | O => []
  | S n' => let '(g', o) := raw g a in o :: if o_done o then [] else play n' g' a
  end.
Fixpoint play_end (n : nat) (g : G) (a : nat) : G :=
  match n with O => g | S n' => let '(g', o) := raw g a in if o_done o then g' else play_end n' g' a end.

Lemma play_length : forall n g a, (length (play n g a) <= n)%nat.
Proof. induction n; intros; simpl; [lia|]. destruct (raw g a) as [g' o]. simpl. destruct (o_done o); simpl; [lia|]. specialize (IHn g' a). lia. Qed.
Lemma play_nonempty : forall n g a, (1 <= n)%nat -> play n g a <> [].
Proof. intros [|n] g a H; [lia|]. simpl. destruct (raw g a). discriminate. Qed.

Definition dummy : obs F := {| o_frame := black; o_rew := 0; o_done := false; o_lives := 0 |}.
Lemma nth_last_eq : forall (l : list (obs F)), l <> [] -> last l dummy = nth (length l - 1) l dummy.
Proof. induction l as [|x [|y l] IH]; intros H; [congruence|reflexivity|]. change (last (x :: y :: l) dummy) with (last (y :: l) dummy). rewrite IH by discriminate. simpl. rewrite Nat.sub_0_r. reflexivity. Qed.
Lemma play_short : forall n g a, (length (play n g a) < n)%nat -> o_done (last (play n g a) dummy) = true.
Proof.
  induction n as [|n IH]; intros g a H; [simpl in H; lia|]. simpl in H |- *. destruct (raw g a) as [g' o]. destruct (o_done o) eqn:D; [exact D|].
  simpl in H. assert (H' : (length (play n g' a) < n)%nat) by lia. specialize (IH g' a H').
  destruct (play n g' a) as [|x os] eqn:P1; [|exact IH]. destruct n; [simpl in H'; lia|]. exfalso. exact (play_nonempty (S n) g' a ltac:(lia) P1).
Qed.
Lemma skip_loop_run : forall todo i g a b0 b1 tot l, exists b,
  skip_loop raw h i todo g a b0 b1 tot l = (play_end todo g a, b, tot + rsum (map o_rew (play todo g a)), last (play todo g a) l).
Proof.
  induction todo as [|todo IH]; intros i g a b0 b1 tot l.
  - simpl. rewrite Rplus_0_r. eauto.
  - simpl. destruct (raw g a) as [g' o]. destruct (o_done o) eqn:D.
    + simpl. rewrite Rplus_0_r. eauto.
    + edestruct IH as [b E]. rewrite E. exists b. f_equal; [f_equal; simpl; ring|].
      clear. simpl. generalize o. induction (play todo g' a) as [|x os IH]; intros o'; simpl; [reflexivity|]. destruct os; [reflexivity|]. apply IH.
Qed.
Definition buf_of (r : G * (F * F) * R * obs F) : F * F := snd (fst (fst r)).
Lemma skip_loop_full : forall todo i g a b0 b1 tot l, (i + todo = h)%nat -> (2 <= todo)%nat -> length (play todo g a) = todo ->
  buf_of (skip_loop raw h i todo g a b0 b1 tot l) = (o_frame (nth (todo - 2) (play todo g a) dummy), o_frame (nth (todo - 1) (play todo g a) dummy)).
Proof.
  induction todo as [|todo IH]; intros i g a b0 b1 tot l Hi H2 HL; [lia|].
  simpl in *. destruct (raw g a) as [g' o]. destruct (o_done o) eqn:D; [simpl in HL; lia|]. simpl in HL.
  destruct todo as [|[|todo]]; [lia| |].
  - clear IH. cbn -[Nat.eqb] in *. destruct (raw g' a) as [g2 o2]. replace (Nat.eqb (i + 2) h) with true by (symmetry; apply Nat.eqb_eq; lia).
    replace (Nat.eqb (S (i + 2)) h) with false by (symmetry; apply Nat.eqb_neq; lia). replace (Nat.eqb (S (i + 1)) h) with true by (symmetry; apply Nat.eqb_eq; lia).
    destruct (o_done o2); reflexivity.
  - rewrite IH by lia. replace (S (S todo) - 0)%nat with (S (S (S todo) - 1))%nat by lia. replace (S (S todo) - 1)%nat with (S (S (S todo) - 2))%nat at 2 by lia. reflexivity.
Qed.
Lemma skip_loop_early : forall todo i g a b0 b1 tot l, (i + todo = h)%nat -> (length (play todo g a) + 1 < todo)%nat ->
  buf_of (skip_loop raw h i todo g a b0 b1 tot l) = (b0, b1).
Proof.
  induction todo as [|todo IH]; intros i g a b0 b1 tot l Hi HL; [lia|].
  simpl in *. destruct (raw g a) as [g' o].
  replace (Nat.eqb (i + 2) h) with false by (symmetry; apply Nat.eqb_neq; destruct (o_done o); simpl in HL; lia).
  replace (Nat.eqb (i + 1) h) with false by (symmetry; apply Nat.eqb_neq; destruct (o_done o); simpl in HL; lia).
  destruct (o_done o); [reflexivity|]. simpl in HL. apply IH; lia.
Qed.

(** The wrapped step holds the action until the skip is over or the game ends: reward and flags are those of the
    frames played. Played in full, the screen is pooled from the last two frames. *)
Theorem frame_skip : forall g a b, (1 <= h)%nat ->
  let '(g', b', o) := mskip g a b in
  let os := play h g a in
  (1 <= length os <= h)%nat /\ (forall k, (k + 1 < length os)%nat -> o_done (nth k os dummy) = false) /\
  g' = play_end h g a /\ o_rew o = rsum (map o_rew os) /\ o_done o = o_done (last os dummy) /\ o_lives o = o_lives (last os dummy) /\
  (length os < h -> o_done o = true)%nat /\
  ((2 <= h)%nat -> length os = h -> o_frame o = pool (o_frame (nth (h - 2) os dummy)) (o_frame (last os dummy))).
Proof.
  intros g a b Hh. unfold max_skip.
  destruct (skip_loop_run h 0 g a (fst b) (snd b) 0 dummy) as [b' E]. fold dummy. rewrite E. cbv zeta. cbn [o_rew o_done o_lives o_frame].
  pose proof (play_length h g a) as L. pose proof (play_nonempty h g a Hh) as NE.
  assert (L1 : (1 <= length (play h g a))%nat) by (destruct (play h g a); [congruence|simpl; lia]).
  split; [lia|]. split.
  { clear. generalize h g. induction h0 as [|n IH]; intros g0 k Hk; simpl in *; [lia|]. destruct (raw g0 a) as [g' o]. simpl in *. destruct (o_done o) eqn:D; simpl in *; [lia|].
    destruct k; [exact D|]. apply IH. lia. }
  split; [reflexivity|]. split; [ring|]. split; [reflexivity|]. split; [reflexivity|]. split.
  { apply play_short. }
  intros H2 HL. pose proof (skip_loop_full h 0 g a (fst b) (snd b) 0 dummy ltac:(lia) H2 HL) as B. rewrite E in B. unfold buf_of in B. cbn [fst snd] in B. rewrite B. cbn [fst snd].
  rewrite (nth_last_eq (play h g a)), HL; [reflexivity|exact NE].
Qed.
(** A game that ends before the last two frames of the skip shows the screen of an earlier action: the
    terminal screens never reach the observation. *)
Theorem frame_skip_stale_refuted : forall g a b, (length (play h g a) + 1 < h)%nat ->
  let '(g', b', o) := mskip g a b in b' = b /\ o_frame o = pool (fst b) (snd b).
Proof.
  intros g a b HL. unfold max_skip. destruct (skip_loop_run h 0 g a (fst b) (snd b) 0 dummy) as [b' E]. fold dummy. rewrite E.
  pose proof (skip_loop_early h 0 g a (fst b) (snd b) 0 dummy ltac:(lia) HL) as B. rewrite E in B. unfold buf_of in B. cbn [fst snd] in B. rewrite B. cbn. split; [destruct b; reflexivity|reflexivity].
Qed.

(** * Frame history *)
(** [game f0 fs st]: [st] is reachable after a reset of the game that showed [f0] and steps that returned
    the screens [fs], with resets after lost lives in between. *)
Inductive game : F -> list F -> atari (G := G) -> Prop :=
| game_new : forall st d g f, a_real st = true -> newgame (a_g st) = (g, f) -> game f [] (reset st d)
| game_life : forall f0 fs st d, game f0 fs st -> a_real st = false -> game f0 fs (reset st d)
| game_step : forall f0 fs st a st' r ab g b o, game f0 fs st -> step st a = (st', r, ab) ->
    estep (noops raw (a_noop st) (if a_fire st then fst (raw (a_g st) 1) else a_g st)) a (a_buf st) = (g, b, o) ->
    game f0 (fs ++ [o_frame o]) st'.

(** An observation is the last [h] screens, in order of time, of the first screen repeated [h] times followed by the screens of
    all steps of the game: lost lives do not interrupt the history, a new game does not see the old one. *)
Theorem atari_history : forall f0 fs st, game f0 fs st ->
  a_frames st = lastn h (repeat (prep f0) h ++ map prep fs) /\ length (a_frames st) = h.
Proof.
  intros f0 fs st H.
  assert (E : a_frames st = lastn h (repeat (prep f0) h ++ map prep fs)).
  { induction H as [st d g f R N|f0 fs st d H IH R|f0 fs st a st' r ab g b o H IH S E].
    - unfold atari_reset. rewrite R, N. simpl. rewrite app_nil_r. unfold lastn. rewrite repeat_length, Nat.sub_diag. reflexivity.
    - unfold atari_reset. rewrite R. simpl. exact IH.
    - unfold atari_step in S. rewrite E in S. inversion S; subst. simpl. unfold push. rewrite IH, lastn_app, map_app, app_assoc. reflexivity. }
  split; [exact E|]. rewrite E. unfold lastn. rewrite skipn_length, app_length, repeat_length. lia.
Qed.

(** * Episodes *)
(** The episode ends at game over, and with ends_at_life also when the number of lives changes; the next reset starts a
    new game exactly after game over, otherwise the game goes on. Stopping the environment forces a new game. *)
Theorem atari_episode : forall st a d st' r ab g b o, step st a = (st', r, ab) ->
  estep (noops raw (a_noop st) (if a_fire st then fst (raw (a_g st) 1) else a_g st)) a (a_buf st) = (g, b, o) ->
  r = o_rew o /\ (ab = true <-> o_done o = true \/ (ends_at_life = true /\ o_lives o <> a_lives st)) /\
  a_lives st' = o_lives o /\ a_g st' = g /\
  (o_done o = false -> a_g (reset st' d) = a_g st' /\ a_frames (reset st' d) = a_frames st' /\ a_lives (reset st' d) = a_lives st') /\
  (o_done o = true -> a_g (reset st' d) = fst (newgame (a_g st')) /\ a_lives (reset st' d) = max_lives) /\
  a_g (reset (atari_stop st') d) = fst (newgame (a_g st')).
Proof.
  intros st a d st' r ab g b o S E. unfold atari_step in S. rewrite E in S. inversion S; subst. clear S.
  split; [reflexivity|]. split; [|split; [|split; [|split; [|split]]]].
  - destruct (Nat.eqb_spec (o_lives o) (a_lives st)) as [Q|Q]; simpl.
    + split; [auto|]. intros [H|[_ H]]; [auto|congruence].
    + rewrite orb_true_iff. intuition.
  - simpl. destruct (Nat.eqb_spec (o_lives o) (a_lives st)); simpl; congruence.
  - reflexivity.
  - intros D. unfold atari_reset. simpl. rewrite D. simpl. auto.
  - intros D. unfold atari_reset. simpl. rewrite D. simpl. destruct (newgame g). simpl. auto.
  - unfold atari_reset, atari_stop. simpl. destruct (newgame g). reflexivity.
Qed.
(** An episode cut off by the horizon is followed by a reset that does not reset the game: the next episode starts
    in the middle of the old game, with its history and its lives. *)
Theorem atari_truncation_refuted : forall st a d st' r, step st a = (st', r, false) -> ends_at_life = false ->
  a_g (reset st' d) = a_g st' /\ a_frames (reset st' d) = a_frames st' /\ a_lives (reset st' d) = a_lives st'.
Proof.
  intros st a d st' r S EL. 
  destruct (estep (noops raw (a_noop st) (if a_fire st then fst (raw (a_g st) 1) else a_g st)) a (a_buf st)) as [[g b] o] eqn:E.
  destruct (atari_episode st a d st' r false g b o S E) as (_ & A & _ & _ & N & _). apply N.
  destruct (o_done o) eqn:D; [|reflexivity]. destruct A as [_ A]. discriminate (A (or_introl eq_refl)).
Qed.
(** GymnasiumAtari raises on every reset that follows a lost life or a truncated episode. *)
Theorem gymnasium_life_refuted : forall st a d st' r ab, step st a = (st', r, ab) ->
  (forall g b o, estep (noops raw (a_noop st) (if a_fire st then fst (raw (a_g st) 1) else a_g st)) a (a_buf st) = (g, b, o) -> o_done o = false) ->
  gymnasium_reset newgame prep has_fire max_lives h st' d = None.
Proof.
  intros st a d st' r ab S H.
  destruct (estep (noops raw (a_noop st) (if a_fire st then fst (raw (a_g st) 1) else a_g st)) a (a_buf st)) as [[g b] o] eqn:E.
  specialize (H g b o eq_refl). unfold atari_step in S. rewrite E in S. inversion S; subst. unfold gymnasium_reset. simpl. rewrite H. reflexivity.
Qed.

(** The pending FIRE and no-op actions are played once, before the first action after a reset, and never again until a life is lost.
    Whatever happens during them is invisible: rewards are lost and a game over is not reported. *)
Theorem start_actions : forall st d a, 
  a_noop (reset st d) = d /\ a_fire (reset st d) = has_fire /\
  a_noop (fst (fst (step st a))) = 0%nat /\
  (a_lives (fst (fst (step st a))) = a_lives st -> a_fire (fst (fst (step st a))) = false).
Proof.
  intros st d a. unfold atari_reset. split; [|split; [|split]].
  - destruct (a_real st); [destruct (newgame (a_g st))|]; reflexivity.
  - destruct (a_real st); [destruct (newgame (a_g st))|]; reflexivity.
  - unfold atari_step. destruct (env_step _ _ _ _ _ _ _ _) as [[g b] o]. reflexivity.
  - unfold atari_step. destruct (env_step _ _ _ _ _ _ _ _) as [[g b] o]. simpl. destruct (Nat.eqb_spec (o_lives o) (a_lives st)); simpl; [reflexivity|congruence].
Qed.
End AtariProps.

(** * Concrete games *)
(** a game whose state counts frames, with a screen showing the count, reward one per frame, and game over at frame [e] *)
Definition counter (e : nat) (g a : nat) : nat * obs nat :=
  (S g, {| o_frame := S g; o_rew := 1; o_done := Nat.eqb (S g) e; o_lives := 3 |}).
Definition cstep (e : nat) := atari_step (counter e) Nat.max (fun f : nat => f) 0%nat true false false 4.
Definition creset := atari_reset (fun _ : nat => (0%nat, 0%nat)) (fun f : nat => f) false 3 4.
Definition cstart : atari (G := nat) (F := nat) (P := nat) := mkA 0%nat (0%nat, 0%nat) [] 3 false 0 true.

Example counter_steps :
  let '(s1, r1, d1) := cstep 100 (creset cstart 2) 5 in
  let '(s2, r2, d2) := cstep 100 s1 5 in
  a_frames s1 = [0; 0; 0; 6]%nat /\ r1 = 4 /\ d1 = false /\ a_frames s2 = [0; 0; 6; 10]%nat /\ a_g s2 = 10%nat.
Proof. cbn. repeat split; try reflexivity; ring. Qed.
Example counter_stale : (* game over at the first of the four frames *)
  let '(s1, r1, d1) := cstep 7 (creset cstart 2) 5 in
  let '(s2, r2, d2) := cstep 7 s1 5 in
  a_frames s1 = [0; 0; 0; 6]%nat /\ a_frames s2 = [0; 0; 6; 6]%nat /\ d2 = true /\ a_frames (creset s2 0) = [0; 0; 0; 0]%nat.
Proof. cbn. repeat split; reflexivity. Qed.

(** A game that is over during the no-op actions is stepped further, and the step reports neither the end nor the rewards. *)
Theorem start_game_over_refuted : exists (raw : nat -> nat -> nat * obs nat) st st' r,
  a_noop st = 1%nat /\ o_done (snd (raw (a_g st) 0%nat)) = true /\ o_rew (snd (raw (a_g st) 0%nat)) = 1 /\
  atari_step raw Nat.max (fun f : nat => f) 0%nat true false false 4 st 5%nat = (st', r, false) /\ r = 4.
Proof.
  exists (counter 1), (creset cstart 1). eexists. eexists. split; [reflexivity|]. split; [reflexivity|]. split; [reflexivity|]. split; [reflexivity|]. cbn. ring.
Qed.

(** * A game with lives: a life is lost at every tenth frame *)
Definition livesgame (g a : nat) : nat * obs nat :=
  (S g, {| o_frame := S g; o_rew := 0; o_done := Nat.leb 30 (S g); o_lives := 3 - (S g) / 10 |}).
Example lives_episode :
  let step := atari_step livesgame Nat.max (fun f : nat => f) 0%nat false true true 2 in
  let reset := atari_reset (fun _ : nat => (0%nat, 0%nat)) (fun f : nat => f) true 3 2 in
  let '(s1, _, d1) := step (mkA 8%nat (0%nat, 0%nat) [7; 8]%nat 3%nat false 0 false) 4%nat in
  let '(s2, _, d2) := step s1 4%nat in
  let '(s3, _, d3) := step (reset s2 1%nat) 4%nat in
  (d1, d2, d3) = (false, true, false) /\ a_frames s2 = [9; 10]%nat /\ a_lives s2 = 2%nat /\ a_frames s3 = [10; 13]%nat /\
  gymnasium_reset (fun _ : nat => (0%nat, 0%nat)) (fun f : nat => f) true 3 2 s2 1%nat = None.
Proof. cbn. repeat split; reflexivity. Qed.
Print Assumptions frame_skip.
Print Assumptions frame_skip_stale_refuted.
Print Assumptions atari_history.
Print Assumptions atari_episode.
Print Assumptions atari_truncation_refuted.
Print Assumptions gymnasium_life_refuted.
Print Assumptions start_actions.
Print Assumptions start_game_over_refuted.

(** C117: what PPO_BPTT computes, on any dataset recorded by its recurrent policy and under [Core]. *)
From Coq Require Import List Arith ZArith Lia Bool Reals Lra Permutation.
From Verif Require Import Common EpisodeSpec BpttModel BpttProps PpoModel CorePpoModel BpttFitModel OnPolicyProps CoreDqnProps CorePgProps CorePpoProps.
From Verif Require CoreModel CoreSpec CoreProofs CoreProps VecCoreModel AdvModel AdvSpec AdvProps PpoProps.
Import ListNotations.
Local Open Scope R_scope.

(** * The window of a sample *)
Section Window.
Context {A : Type} (ends : A -> bool).

(** Going back from a sample: the samples up to the end of the episode before. *)
Fixpoint run_back (l : list A) : list A :=
  match l with
  | [] => []
  | x :: t => if ends x then [] else x :: run_back t
  end.

(** Sample [i] and those of its episode before it, at most [L] in all, in order. *)
Definition window (L : nat) (xs : list A) (i : nat) : list A :=
  match nth_error xs i with
  | None => []
  | Some x => rev (firstn L (x :: run_back (rev (firstn i xs))))
  end.

(** No earlier episode ends among the first [L] samples of the data before sample [i]. *)
Definition clean (L : nat) (xs : list A) (i : nat) : Prop :=
  (L <= i)%nat \/ Forall (fun x => ends x = false) (firstn i xs).

Lemma run_back_app : forall a b, Forall (fun x => ends x = false) a -> run_back (a ++ b) = a ++ run_back b.
Proof. induction a as [|x a IH]; intros b F; auto. inversion F; subst. simpl. rewrite H1, IH; auto. Qed.

Lemma window_unique : forall L xs i b d, (1 <= L)%nat -> (i < length xs)%nat -> (b <= i)%nat -> (i + 1 - b <= L)%nat ->
  (forall j, (b <= j)%nat -> (j < i)%nat -> ends (nth j xs d) = false) ->
  (b = 0%nat \/ (i + 1 - b)%nat = L \/ ((0 < b)%nat /\ ends (nth (b - 1) xs d) = true)) ->
  slice b (i + 1) xs = window L xs i.
Proof.
  intros L xs i b d L1 Hi Hb HL HN HC. unfold window. rewrite (List.nth_error_nth' xs d Hi).
  set (seg := slice b i xs). set (pre := firstn b xs).
  assert (LS : length seg = (i - b)%nat) by (unfold seg, slice; rewrite firstn_length, skipn_length; lia).
  assert (E1 : firstn i xs = pre ++ seg).
  { unfold pre, seg, slice. rewrite <- (firstn_skipn b (firstn i xs)). rewrite firstn_firstn, Nat.min_l by lia. f_equal. rewrite skipn_firstn_comm. reflexivity. }
  assert (E2 : slice b (i + 1) xs = seg ++ [nth i xs d]).
  { unfold seg, slice. replace (i + 1 - b)%nat with (S (i - b)) by lia.
    rewrite <- (firstn_skipn (i - b) (firstn (S (i - b)) (skipn b xs))). rewrite firstn_firstn, Nat.min_l by lia. f_equal.
    rewrite skipn_firstn_comm. replace (S (i - b) - (i - b))%nat with 1%nat by lia. rewrite skipn_skipn'. replace (b + (i - b))%nat with i by lia.
    rewrite (skipn_S_nth _ xs i d Hi). reflexivity. }
  assert (FS : Forall (fun x => ends x = false) seg).
  { apply Forall_nth. intros j d' Hj. rewrite LS in Hj. rewrite (nth_indep seg d' d) by lia. unfold seg. rewrite nth_slice by lia. apply HN; lia. }
  rewrite E1, rev_app_distr, run_back_app by (apply Forall_rev; exact FS). rewrite E2.
  assert (R : firstn L (nth i xs d :: rev seg ++ run_back (rev pre)) = nth i xs d :: rev seg).
  { destruct L as [|L]; [lia|]. cbn [firstn]. f_equal. rewrite firstn_app, rev_length, LS.
    assert (Z : firstn (L - (i - b)) (run_back (rev pre)) = []).
    { destruct HC as [Z|[Z|[Z1 Z2]]].
      - unfold pre. rewrite Z. cbn [firstn rev run_back]. apply firstn_nil.
      - replace (L - (i - b))%nat with 0%nat by lia. reflexivity.
      - assert (EP : pre = slice 0 (b - 1) xs ++ [nth (b - 1) xs d]).
        { unfold pre, slice. rewrite Nat.sub_0_r. cbn [skipn]. rewrite <- (firstn_skipn (b - 1) (firstn b xs)). rewrite firstn_firstn, Nat.min_l by lia. f_equal.
          rewrite skipn_firstn_comm. replace (b - (b - 1))%nat with 1%nat by lia. rewrite (skipn_S_nth _ xs (b - 1) d) by lia. reflexivity. }
        rewrite EP, rev_app_distr. cbn [rev app run_back]. rewrite Z2. apply firstn_nil. }
    rewrite Z, app_nil_r. apply firstn_all2. rewrite rev_length. lia. }
  rewrite R. cbn [rev]. rewrite rev_involutive. reflexivity.
Qed.

Lemma window_last : forall L xs i x, (1 <= L)%nat -> nth_error xs i = Some x -> exists w, window L xs i = w ++ [x].
Proof. intros L xs i x HL E. unfold window. rewrite E. destruct L as [|L]; [lia|]. cbn [firstn rev]. eauto. Qed.

Lemma clean_later : forall L xs i j d, (i <= j)%nat -> (j <= length xs)%nat -> clean L xs i -> (forall k, (i <= k)%nat -> (k < j)%nat -> ends (nth k xs d) = false) -> clean L xs j.
Proof.
  intros L xs i j d Hij HL [C|C] H; [left; lia|right].
  replace (firstn j xs) with (firstn i xs ++ slice i j xs).
  2:{ unfold slice. rewrite <- (firstn_skipn i (firstn j xs)). rewrite firstn_firstn, Nat.min_l by lia. f_equal. rewrite skipn_firstn_comm. reflexivity. }
  apply Forall_app. split; [exact C|]. apply Forall_nth. intros k d' Hk. rewrite slice_length in Hk. rewrite (nth_indep (slice i j xs) d' d) by (rewrite slice_length; lia).
  rewrite nth_slice by lia. apply H; lia.
Qed.
End Window.

(** * One fit *)
Section Fit.
Context {W X Ac H M Pp Cr : Type}.
Variable cell : W -> X -> H -> H.
Variable head : W -> X -> H -> M.
Variable mlogp : M -> Ac -> R.
Variable ent : W -> R.
Variable opt : W -> (W -> R) -> W.
Variable call : Pp -> X -> X.
Variable pupd : Pp -> list X -> Pp.
Variable val : Cr -> list X -> H -> R.
Variable cfit : Cr -> list (list X * H) -> list R -> Cr.
Variable zero : X.
Variable h0 : H.
Variable L : nat.
Hypothesis L1 : (1 <= L)%nat.
Variables gamma lam : R.
Notation csample := (CoreModel.sample X Ac R H).
Notation srow := (list X * H * nat)%type.
Notation ends := (@CoreModel.last X Ac R H).
Notation lp := (seq_logp cell head mlogp zero).

(** The log-probability with which the recurrent policy with weights [w] draws [a] when it sees
    [z] with hidden state [h]. *)
Definition acting_logp (w : W) (z : X) (h : H) (a : Ac) : R := mlogp (head w z (cell w z h)) a.

(** The rows as the recurrent policy of agent [g] records them: each policy state is followed by
    its successor through the network, and inside an episode the next row goes on from there. *)
Definition recorded (g : @agent W Pp Cr) (xs : list csample) : Prop :=
  Forall (fun x => CoreModel.pnext x = cell (a_w g) (prep_all call (a_ps g) (CoreModel.state x)) (CoreModel.pstate x)) xs /\
  forall i x y, nth_error xs i = Some x -> nth_error xs (S i) = Some y -> CoreModel.last x = false ->
    CoreModel.state y = CoreModel.next_state x /\ CoreModel.pstate y = CoreModel.pnext x.

(** first entry of [f] over a window *)
Definition start (f : csample -> H) (w : list csample) : H := match w with [] => h0 | x :: _ => f x end.

(** The value estimates of sample [i]: the critic reads its window, from the policy state at the
    beginning of the window; for the next state it reads the next states of the window, from the
    policy state that followed. *)
Definition w_step (cr : Cr) (ps : list Pp) (xs : list csample) (i : nat) (x : csample) : AdvModel.step :=
  let w := window ends L xs i in
  {| AdvModel.g_v := val cr (map (fun y => prep_all call ps (CoreModel.state y)) w) (start CoreModel.pstate w);
     AdvModel.g_vn := val cr (map (fun y => prep_all call ps (CoreModel.next_state y)) w) (start CoreModel.pnext w);
     AdvModel.g_r := CoreModel.reward x; AdvModel.g_abs := CoreModel.absorbing x; AdvModel.g_last := CoreModel.last x |}.
Definition w_steps (cr : Cr) (ps : list Pp) (xs : list csample) : list AdvModel.step :=
  map (fun p => w_step cr ps xs (fst p) (snd p)) (combine (seq 0 (length xs)) xs).

(** The update PPO_BPTT should make. For every clean row: its advantage is the discounted sum of
    the temporal-difference errors to the end of the episode, or of the data; the critic is
    fitted on its window with target advantage + value; the policy update gets its window, the
    policy state at the beginning of the window, its action, the normalised advantage and the
    log-probability with which the action was drawn. The weights go through one optimizer step
    per minibatch of each epoch; without preprocessors the gradient before the first step is the
    policy gradient through the windows, with the entropy bonus. *)
Definition bptt_step (eps cs : nat -> nat -> R) (bs : nat) (epochs : nat) (f : nat) (g : @agent W Pp Cr) (xs : list csample) (g' : @agent W Pp Cr) : Prop :=
  a_ps g' = upd_all call pupd (a_ps g) (map CoreModel.state xs) /\
  exists adv s vt (ws : list (list X * H)) (qs : list (@prow srow Ac)) (ep : list (list (list (@prow srow Ac)))),
    length adv = length xs /\ length ws = length xs /\ length vt = length xs /\ length qs = length xs /\ 0 < s /\
    (forall i x, nth_error xs i = Some x -> clean ends L xs i ->
       let w := window ends L xs i in
       let seen := map (fun y => prep_all call (a_ps g') (CoreModel.state y)) w in
       nth i adv 0 = AdvSpec.dsum (gamma * lam) (AdvSpec.td_error gamma) (AdvSpec.to_end (skipn i (w_steps (a_cr g) (a_ps g') xs))) /\
       nth_error ws i = Some (seen, start CoreModel.pstate w) /\
       nth i vt 0 = nth i adv 0 + val (a_cr g) seen (start CoreModel.pstate w) /\
       exists pad, length (seen ++ pad) = L /\
         nth_error qs i = Some (mkP (seen ++ pad, start CoreModel.pstate w, length w) (CoreModel.action x) ((nth i adv 0 - rsum adv / INR (length adv)) / s)
           (acting_logp (a_w g) (prep_all call (a_ps g) (CoreModel.state x)) (CoreModel.pstate x) (CoreModel.action x)))) /\
    a_cr g' = cfit (a_cr g) ws vt /\
    length ep = epochs /\
    (forall bl, In bl ep -> Permutation (concat bl) qs /\ (forall b, In b bl -> (1 <= length b <= bs)%nat)) /\
    a_w g' = fold_left (fun w kb => opt w (ppo_loss lp (fun w _ => ent w) (eps f (fst kb)) (cs f (fst kb)) (snd kb))) (combine (seq 0 (length (concat ep))) (concat ep)) (a_w g) /\
    (a_ps g = [] -> forall b e c, incl b qs -> 0 < e ->
       forall (h : R -> W) t0 (score : prow -> R) dent, h t0 = a_w g ->
         (forall q, In q b -> derivable_pt_lim (fun z => lp (h z) (p_x q) (p_a q)) t0 (score q)) ->
         derivable_pt_lim (fun z => ent (h z)) t0 dent ->
         derivable_pt_lim (fun z => ppo_loss lp (fun w _ => ent w) e c b (h z)) t0 (- tmean (map (fun q => p_adv q * score q) b) - c * dent)).

(** ** The sequences *)
Lemma rows_to_spec : forall la ab (xs : list X) (ps : list H) n, (forall i, (i < n)%nat -> row L la ab xs ps zero i <> None) ->
  exists l, rows_to zero L n la ab xs ps = Some l /\ length l = n /\ forall i, (i < n)%nat -> nth_error l i = row L la ab xs ps zero i.
Proof.
  intros la ab xs ps n. induction n as [|n IH]; intros HN; [exists []; repeat split; intros; lia|].
  destruct IH as (l & E & LL & N); [intros; apply HN; lia|]. cbn [rows_to]. rewrite E. cbn [obind].
  destruct (row L la ab xs ps zero n) as [q|] eqn:ER; [|exfalso; exact (HN n (Nat.lt_succ_diag_r n) ER)]. cbn [obind].
  exists (l ++ [q]). split; [reflexivity|]. split; [rewrite app_length; simpl; lia|]. intros i Hi.
  destruct (Nat.eq_dec i n) as [->|NE].
  - rewrite nth_error_app2 by lia. rewrite LL, Nat.sub_diag, ER. reflexivity.
  - rewrite nth_error_app1 by lia. apply N. lia.
Qed.

Lemma sequences_spec : forall (xs : list csample) (f : csample -> X) (h : csample -> H),
  Forall (fun x => CoreModel.absorbing x = true -> CoreModel.last x = true) xs ->
  exists l, sequences zero L (map b_read xs) (map f xs) (map h xs) = Some l /\ length l = length xs /\
    forall i x, nth_error xs i = Some x -> clean ends L xs i ->
      let w := window ends L xs i in
      exists pad, length (map f w ++ pad) = L /\ nth_error l i = Some (map f w ++ pad, start h w, length w).
Proof.
  intros xs f h HA. unfold sequences. rewrite map_length.
  set (la := map _ _). set (ab := map _ (map b_read xs)).
  assert (LA : length la = length xs) by (unfold la; rewrite !map_length; reflexivity).
  assert (LB : length ab = length xs) by (unfold ab; rewrite !map_length; reflexivity).
  assert (EN : forall j d, (j < length xs)%nat -> nth j la false || nth j ab false = CoreModel.last (nth j xs d)).
  { intros j d Hj. unfold la, ab. rewrite !map_map. cbn [b_t b_read t_last t_abs].
    rewrite (nth_indep (map (fun x => CoreModel.last x) xs) false (CoreModel.last d)), (nth_indep (map (fun x => CoreModel.absorbing x) xs) false (CoreModel.absorbing d)) by (rewrite map_length; exact Hj).
    rewrite !map_nth. rewrite Forall_forall in HA. specialize (HA (nth j xs d) (nth_In _ _ Hj)).
    destruct (CoreModel.absorbing (nth j xs d)); [rewrite HA by reflexivity; reflexivity|]. apply orb_false_r. }
  assert (RW : forall i d, (i < length xs)%nat -> let b := begin_seq L la ab i in (b <= i)%nat /\
     row L la ab (map f xs) (map h xs) zero i = Some (map f (slice b (i + 1) xs) ++ repeat zero (L - (i + 1 - b)), h (nth b xs d), (i + 1 - b)%nat)).
  { intros i d Hi b. destruct (begin_spec L la ab la la L1 ltac:(lia) eq_refl eq_refl i ltac:(lia)) as (B1 & B2 & _). split; [exact B1|].
    unfold row. fold b. rewrite (List.nth_error_nth' (map h xs) (h d)) by (rewrite map_length; unfold b; lia). rewrite map_nth.
    assert (SM : slice b (i + 1) (map f xs) = map f (slice b (i + 1) xs)) by (unfold slice; rewrite skipn_map, firstn_map; reflexivity).
    rewrite SM, map_length, slice_length. replace (Nat.min (i + 1 - b) (length xs - b)) with (i + 1 - b)%nat by (unfold b; lia). reflexivity. }
  destruct (rows_to_spec la ab (map f xs) (map h xs) (length xs)) as (l & E & LL & N).
  { intros i Hi. destruct (nth_error xs i) as [d|] eqn:EX; [|apply nth_error_None in EX; lia]. destruct (RW i d Hi) as [_ RE]. rewrite RE. discriminate. }
  exists l. split; [exact E|]. split; [exact LL|]. intros i x HX HC. set (w := window ends L xs i). cbv zeta.
  assert (Hi : (i < length xs)%nat) by (apply nth_error_Some; congruence).
  destruct (begin_spec L la ab la la L1 ltac:(lia) eq_refl eq_refl i ltac:(lia)) as (B1 & B2 & B3 & B4). destruct (RW i x Hi) as [_ RE]. cbv zeta in RE.
  set (b := begin_seq L la ab i) in *.
  assert (WU : slice b (i + 1) xs = w).
  { apply (window_unique ends L xs i b x L1 Hi B1 B2).
    - intros j J1 J2. rewrite <- EN by lia. apply B4; auto. destruct HC as [HC|HC]; [left; exact HC|right].
      intros k Hk. unfold ended. rewrite (EN k x) by lia. rewrite Forall_forall in HC. apply HC. rewrite <- (nth_firstn _ xs i k x Hk). apply nth_In. rewrite firstn_length. lia.
    - destruct B3 as [B3|[B3|[B3 B5]]]; auto. right. right. split; [exact B3|]. rewrite <- EN by lia. exact B5. }
  assert (LW : length w = (i + 1 - b)%nat) by (rewrite <- WU, slice_length; lia).
  exists (repeat zero (L - (i + 1 - b))). split; [rewrite app_length, map_length, repeat_length; lia|].
  rewrite N by exact Hi. rewrite RE, WU, LW. do 3 f_equal. unfold start.
  destruct w as [|y w'] eqn:EW; [simpl in LW; lia|]. f_equal.
  transitivity (nth 0 (slice b (i + 1) xs) x); [rewrite nth_slice by lia; f_equal; lia|]. rewrite WU. reflexivity.
Qed.

(** ** Replaying a window *)
Fixpoint chained (w : W) (z : csample -> X) (l : list csample) : Prop :=
  match l with
  | [] => True
  | x :: t => match t with [] => True | y :: _ => CoreModel.pstate y = cell w (z x) (CoreModel.pstate x) end /\ chained w z t
  end.

Lemma replay : forall w (z : csample -> X) s x, chained w z (s ++ [x]) ->
  fold_left (fun h y => cell w y h) (map z s) (start CoreModel.pstate (s ++ [x])) = CoreModel.pstate x.
Proof.
  intros w z s x. induction s as [|y s IH]; intros C; [reflexivity|].
  cbn [app map fold_left start]. destruct s as [|y2 s]; cbn [app] in *.
  - cbn [map fold_left]. cbn in C. symmetry. apply C.
  - destruct C as [C1 C2]. rewrite <- C1. exact (IH C2).
Qed.

Lemma chained_slice : forall w z (xs : list csample) n b d,
  (forall j, (b <= j)%nat -> (S j < b + n)%nat -> (S j < length xs)%nat -> CoreModel.pstate (nth (S j) xs d) = cell w (z (nth j xs d)) (CoreModel.pstate (nth j xs d))) ->
  chained w z (firstn n (skipn b xs)).
Proof.
  intros w z xs n. induction n as [|n IH]; intros b d HJ; [exact I|].
  destruct (le_lt_dec (length xs) b) as [G|Lt]; [rewrite skipn_all2 by lia; exact I|].
  rewrite (skipn_S_nth _ xs b d Lt). cbn [firstn].
  destruct n as [|n]; [split; exact I|]. destruct (le_lt_dec (length xs) (S b)) as [G|Lt2]; [rewrite (skipn_all2 xs (n := S b)) by lia; split; exact I|].
  assert (IHS := IH (S b) d ltac:(intros j J1 J2 J3; apply HJ; lia)).
  rewrite (skipn_S_nth _ xs (S b) d Lt2) in *. cbn [firstn] in *. split; [apply HJ; lia|exact IHS].
Qed.

Lemma window_chained : forall (g : @agent W Pp Cr) (xs : list csample) i x, recorded g xs -> nth_error xs i = Some x ->
  chained (a_w g) (fun y => prep_all call (a_ps g) (CoreModel.state y)) (window ends L xs i).
Proof.
  intros g xs i x [R1 R2] HX.
  assert (Hi : (i < length xs)%nat) by (apply nth_error_Some; congruence).
  assert (exists b, (b <= i)%nat /\ window ends L xs i = slice b (i + 1) xs /\ forall j, (b <= j)%nat -> (j < i)%nat -> CoreModel.last (nth j xs x) = false) as (b & B1 & EW & BN).
  { (* the window is the block that begins after the last end, cut to L *)
    set (la := map (@CoreModel.last X Ac R H) xs).
    assert (EX : exists b, (b <= i)%nat /\ (b = 0%nat \/ ((0 < b)%nat /\ CoreModel.last (nth (b - 1) xs x) = true)) /\ forall j, (b <= j)%nat -> (j < i)%nat -> CoreModel.last (nth j xs x) = false).
    { clear HX R1 R2. induction i as [|i IH]; [exists 0%nat; repeat split; auto; lia|].
      destruct (CoreModel.last (nth i xs x)) eqn:EL.
      - exists (S i). replace (S i - 1)%nat with i by lia. repeat split; auto; [right; split; [lia|exact EL]|intros; lia].
      - destruct IH as (b & B1 & B2 & B3); [lia|]. exists b. split; [lia|]. split; [exact B2|]. intros j J1 J2. destruct (Nat.eq_dec j i) as [->|]; [exact EL|apply B3; lia]. }
    destruct EX as (b & B1 & B2 & B3). exists (Nat.max b (i + 1 - L)). split; [lia|]. split.
    - symmetry. apply (window_unique ends L xs i _ x L1 Hi); try lia.
      + intros j J1 J2. apply B3; lia.
      + destruct (le_lt_dec (i + 1 - L) b) as [G|G].
        * rewrite Nat.max_l by exact G. destruct B2 as [B2|B2]; auto.
        * right. left. lia.
    - intros j J1 J2. apply B3; lia. }
  rewrite EW. unfold slice. apply chained_slice with (d := x). intros j J1 J2 J3.
  assert (N1 : nth_error xs j = Some (nth j xs x)) by (apply List.nth_error_nth'; lia).
  assert (N2 : nth_error xs (S j) = Some (nth (S j) xs x)) by (apply List.nth_error_nth'; lia).
  destruct (R2 j _ _ N1 N2) as [_ P]; [apply BN; lia|]. rewrite P. rewrite Forall_forall in R1. apply R1. apply nth_In. lia.
Qed.

(** The log-probability computed by fit on the stored window is the one the action was drawn with. *)
Lemma window_logp : forall (g : @agent W Pp Cr) (xs : list csample) i x pad, recorded g xs -> nth_error xs i = Some x ->
  let w := window ends L xs i in
  lp (a_w g) (map (fun y => prep_all call (a_ps g) (CoreModel.state y)) w ++ pad, start CoreModel.pstate w, length w) (CoreModel.action x) =
  acting_logp (a_w g) (prep_all call (a_ps g) (CoreModel.state x)) (CoreModel.pstate x) (CoreModel.action x).
Proof.
  intros g xs i x pad HR HX w. pose proof (window_chained g xs i x HR HX) as C. fold w in C.
  destruct (window_last ends L xs i x L1 HX) as (s & EW). fold w in EW.
  unfold seq_logp, net. cbn [fst snd].
  set (z := fun y => prep_all call (a_ps g) (CoreModel.state y)) in *.
  replace (firstn (length w) (map z w ++ pad)) with (map z w).
  2:{ rewrite firstn_app, map_length, Nat.sub_diag. cbn [firstn]. rewrite app_nil_r. symmetry. apply firstn_all2. rewrite map_length. lia. }
  rewrite EW in *. rewrite map_app. cbn [map]. rewrite last_last, fold_left_app, replay by exact C. reflexivity.
Qed.

(** ** The fit *)
Lemma nth_error_combine : forall {A B} (l1 : list A) (l2 : list B) i a b, nth_error l1 i = Some a -> nth_error l2 i = Some b -> nth_error (combine l1 l2) i = Some (a, b).
Proof. induction l1 as [|x l1 IH]; intros [|y l2] [|i] a b H1 H2; try discriminate; cbn in *; [congruence|auto]. Qed.

Lemma to_end_ext : forall (d : AdvModel.step) l1 l2, length l1 = length l2 ->
  (forall j, (j < length l1)%nat -> (forall k, (k < j)%nat -> AdvModel.g_last (nth k l2 d) = false) -> nth j l1 d = nth j l2 d) ->
  AdvSpec.to_end l1 = AdvSpec.to_end l2.
Proof.
  intros d l1. induction l1 as [|x l1 IH]; intros [|y l2] EL HJ; try discriminate; [reflexivity|].
  assert (E : x = y) by (apply (HJ 0%nat); [simpl; lia|intros; lia]). subst y. cbn [AdvSpec.to_end].
  destruct (AdvModel.g_last x) eqn:EX; [reflexivity|]. f_equal. apply IH; [simpl in EL; lia|].
  intros j Hj HK. apply (HJ (S j)); [simpl; lia|]. intros [|k] Hk; [exact EX|apply HK; lia].
Qed.

Lemma nth_error_w_steps : forall cr ps xs i x, nth_error xs i = Some x -> nth_error (w_steps cr ps xs) i = Some (w_step cr ps xs i x).
Proof.
  intros cr ps xs i x HX. unfold w_steps. rewrite nth_error_map. assert (Hi : (i < length xs)%nat) by (apply nth_error_Some; congruence).
  erewrite nth_error_combine; [|rewrite (List.nth_error_nth' (seq 0 (length xs)) 0%nat) by (rewrite seq_length; exact Hi); reflexivity|exact HX].
  rewrite seq_nth by exact Hi. reflexivity.
Qed.

Lemma seen_pad : forall (f : csample -> X) (w : list csample) pad (h : H), seen (map f w ++ pad, h, length w) = (map f w, h).
Proof.
  intros f w pad h. unfold seen. cbn [fst snd]. f_equal. rewrite firstn_app, map_length, Nat.sub_diag. cbn [firstn]. rewrite app_nil_r. apply firstn_all2. rewrite map_length. lia.
Qed.

Theorem bptt_fit_correct_partial : forall eps cs bs d perms f (g g' : @agent W Pp Cr) (xs : list csample) epochs,
  (1 <= bs)%nat -> (forall f n, length (perms f n) = epochs /\ forall perm, In perm (perms f n) -> Permutation perm (seq 0 n)) ->
  Forall (fun x => CoreModel.absorbing x = true -> CoreModel.last x = true) xs -> recorded g xs ->
  bptt_upd cell head mlogp ent opt call pupd val cfit zero L gamma lam eps cs bs d perms f g (map b_read xs) = Some g' -> bptt_step eps cs bs epochs f g xs g'.
Proof.
  intros eps cs bs d perms f g g' xs epochs HB HP HA HR HU. unfold bptt_upd, bptt_fit, bptt_rows in HU.
  rewrite !map_map in HU. cbn [b_t b_h b_hn b_read t_s t_ns] in HU.
  set (ps' := upd_all call pupd (a_ps g) (map (fun x => CoreModel.state x) xs)) in *.
  destruct (sequences_spec xs (fun x => prep_all call (a_ps g) (CoreModel.state x)) (fun x => CoreModel.pstate x) HA) as (so & ESO & LSO & NSO).
  destruct (sequences_spec xs (fun x => prep_all call ps' (CoreModel.state x)) (fun x => CoreModel.pstate x) HA) as (s & ES & LS & NS).
  destruct (sequences_spec xs (fun x => prep_all call ps' (CoreModel.next_state x)) (fun x => CoreModel.pnext x) HA) as (sn & ESN & LSN & NSN).
  rewrite ESO, ES, ESN in HU. cbn [obind] in HU.
  set (st := map (gae_row val (a_cr g)) (combine (map b_read xs) (combine s sn))) in *.
  assert (LST : length st = length xs) by (unfold st; rewrite map_length, !combine_length, map_length; lia).
  assert (NST : forall i x, nth_error xs i = Some x -> exists v vn, nth_error st i = Some {| AdvModel.g_v := v; AdvModel.g_vn := vn; AdvModel.g_r := CoreModel.reward x;
       AdvModel.g_abs := CoreModel.absorbing x; AdvModel.g_last := CoreModel.last x |}).
  { intros i x HX. assert (Hi : (i < length xs)%nat) by (apply nth_error_Some; congruence).
    destruct (nth_error s i) as [q|] eqn:E1; [|apply nth_error_None in E1; lia]. destruct (nth_error sn i) as [qn|] eqn:E2; [|apply nth_error_None in E2; lia].
    unfold st. rewrite nth_error_map. erewrite nth_error_combine; [|apply map_nth_error; exact HX|apply nth_error_combine; [exact E1|exact E2]].
    cbn [option_map gae_row b_t b_read t_r t_abs t_last]. eauto. }
  assert (CST : forall i x, nth_error xs i = Some x -> clean ends L xs i -> nth_error st i = Some (w_step (a_cr g) ps' xs i x)).
  { intros i x HX HC. destruct (NS i x HX HC) as (pad & _ & E1). destruct (NSN i x HX HC) as (padn & _ & E2).
    unfold st. rewrite nth_error_map. erewrite nth_error_combine; [|apply map_nth_error; exact HX|apply nth_error_combine; [exact E1|exact E2]].
    cbn [option_map]. unfold gae_row. rewrite !seen_pad. reflexivity. }
  assert (AL : AdvSpec.absorbing_is_last st).
  { unfold AdvSpec.absorbing_is_last. apply Forall_forall. intros y Hy. apply In_nth_error in Hy as (i & Hy).
    destruct (nth_error xs i) as [x|] eqn:EX. 2:{ apply nth_error_None in EX. assert (i < length st)%nat by (apply nth_error_Some; congruence). lia. }
    destruct (NST i x EX) as (v & vn & EY). rewrite EY in Hy. injection Hy as <-. cbn. rewrite Forall_forall in HA. apply HA. apply nth_error_In in EX. exact EX. }
  pose proof (AdvProps.gae_is_discounted_td_errors gamma lam st AL) as G.
  destruct (AdvModel.compute_gae gamma lam st) as [vt adv] eqn:EC. destruct G as (GL & GT & GN). rewrite LST in GL, GT, GN.
  destruct (normalise adv) as [adv'|] eqn:EN; [|discriminate HU]. cbn [obind] in HU. injection HU as <-.
  set (qs := map _ (combine (combine (map b_read xs) adv') (combine s so))).
  unfold bptt_step. cbn [a_ps a_cr a_w]. split; [reflexivity|].
  unfold normalise in EN. destruct (tstd adv) as [sd|] eqn:ESD; [|discriminate]. injection EN as EN.
  assert (SP : 0 < sd + / 10 ^ 8).
  { unfold tstd in ESD. destruct (Nat.ltb (length adv) 2); [discriminate|]. injection ESD as <-. 
    pose proof (sqrt_pos (rsum (map (fun x : R => (x - tmean adv) * (x - tmean adv)) adv) / (INR (length adv) - 1))).
    assert (0 < / 10 ^ 8) by (apply Rinv_0_lt_compat, pow_lt; lra). lra. }
  assert (LA' : length adv' = length xs) by (rewrite <- EN, map_length; exact GL).
  assert (LQ : length qs = length xs) by (unfold qs; rewrite map_length, !combine_length, map_length; lia).
  assert (NQ : forall i x q qo, nth_error xs i = Some x -> nth_error s i = Some q -> nth_error so i = Some qo ->
     nth_error qs i = Some (mkP q (CoreModel.action x) ((nth i adv 0 - rsum adv / INR (length adv)) / (sd + / 10 ^ 8)) (lp (a_w g) qo (CoreModel.action x)))).
  { intros i x q qo HX E1 E2. assert (Hi : (i < length xs)%nat) by (apply nth_error_Some; congruence). unfold qs. rewrite nth_error_map.
    assert (A1 : nth_error adv' i = Some ((nth i adv 0 - rsum adv / INR (length adv)) / (sd + / 10 ^ 8))).
    { rewrite <- EN, nth_error_map. rewrite (List.nth_error_nth' adv 0) by lia. reflexivity. }
    erewrite nth_error_combine; [|apply nth_error_combine; [apply map_nth_error; exact HX|exact A1]|apply nth_error_combine; [exact E1|exact E2]]. reflexivity. }
  assert (PF : forall perm, In perm (perms f (length (map (@b_read X Ac H) xs))) -> Permutation perm (seq 0 (length qs))).
  { intros perm Hp. rewrite LQ. rewrite map_length in Hp. apply (proj2 (HP _ _) _ Hp). }
  destruct (PpoProps.ppo_epochs d bs _ qs HB PF) as (ep & E1 & E2 & E3 & _).
  exists adv, (sd + / 10 ^ 8), vt, (map seen s), qs, ep.
  split; [exact GL|]. split; [rewrite map_length; exact LS|]. split; [exact GT|]. split; [exact LQ|]. split; [exact SP|]. split.
  { intros i x HX HC. cbv zeta. set (w := window ends L xs i). assert (Hi : (i < length xs)%nat) by (apply nth_error_Some; congruence).
    destruct (GN i Hi) as [GA GV]. split.
    { rewrite GA. f_equal. apply (to_end_ext (w_step (a_cr g) ps' xs i x)).
      { rewrite !skipn_length, LST. unfold w_steps. rewrite map_length, combine_length, seq_length. lia. }
      intros j Hj HK. rewrite skipn_length, LST in Hj. rewrite !nth_skipn.
      assert (WN : forall k, (k < length xs)%nat -> nth k (w_steps (a_cr g) ps' xs) (w_step (a_cr g) ps' xs i x) = w_step (a_cr g) ps' xs k (nth k xs x)).
      { intros k Hk. apply nth_error_nth. apply nth_error_w_steps. apply List.nth_error_nth'. exact Hk. }
      rewrite WN by lia. apply nth_error_nth. apply CST; [apply List.nth_error_nth'; lia|].
      apply (clean_later ends L xs i (i + j) x); [lia|lia|exact HC|].
      intros k K1 K2. specialize (HK (k - i)%nat ltac:(lia)). rewrite nth_skipn in HK. replace (i + (k - i))%nat with k in HK by lia. rewrite WN in HK by lia. exact HK. }
    destruct (NS i x HX HC) as (pad & LP & E4). destruct (NSO i x HX HC) as (pado & _ & E5). fold w in LP, E4, E5.
    split; [rewrite nth_error_map, E4; cbn [option_map]; rewrite seen_pad; reflexivity|]. split.
    { rewrite (GV (w_step (a_cr g) ps' xs i x)). f_equal. rewrite (nth_error_nth _ _ _ (CST i x HX HC)). reflexivity. }
    exists pad. split; [exact LP|]. rewrite (NQ i x _ _ HX E4 E5). do 2 f_equal. apply window_logp; assumption. }
  split; [reflexivity|]. split; [rewrite E2; apply HP|].
  split. { intros bl Hb. destruct (E3 bl Hb) as (A & _ & B). split; assumption. }
  split. { unfold update_policy. rewrite E1. reflexivity. }
  intros EMP b e c HI He h t0 score dent Hg Hs Hd.
  assert (EPS : ps' = a_ps g) by (unfold ps'; rewrite EMP; reflexivity).
  assert (ESS : s = so) by (rewrite EPS in ES; rewrite ESO in ES; injection ES as ES; symmetry; exact ES).
  assert (R1 : forall q, In q b -> ratio lp (a_w g) q = 1).
  { intros q Hq. apply HI, In_nth_error in Hq. destruct Hq as (i & Hq).
    assert (Hi : (i < length xs)%nat) by (rewrite <- LQ; apply nth_error_Some; congruence).
    destruct (nth_error xs i) as [x|] eqn:EX; [|apply nth_error_None in EX; lia].
    destruct (nth_error s i) as [r|] eqn:ER; [|apply nth_error_None in ER; lia].
    assert (ER2 := ER). rewrite ESS in ER2. rewrite (NQ i x r r EX ER ER2) in Hq. injection Hq as <-. unfold ratio. cbn [p_x p_a p_old].
    rewrite Rminus_diag_eq by reflexivity. apply exp_0. }
  pose proof (PpoProps.ppo_loss_gradient lp (fun w _ => ent w) h t0 e c b score dent (Rlt_le _ _ He) Hs Hd) as T. rewrite Hg in T.
  assert (K : forall q, In q b -> ratio lp (a_w g) q <> 1 - e /\ ratio lp (a_w g) q <> 1 + e) by (intros q Hq; rewrite (R1 q Hq); split; lra).
  specialize (T K).
  match goal with |- derivable_pt_lim _ _ (- ?a - _) => match type of T with derivable_pt_lim _ _ (- ?b - _) => replace a with b end end; auto.
  f_equal. apply map_ext_in. intros q Hq. rewrite (R1 q Hq). destruct (PpoProps.stopped_dec _ _ _) as [[S|S]|_]; lra.
Qed.

Lemma bptt_defined : forall eps cs bs d perms f (g : @agent W Pp Cr) (xs : list csample), (2 <= length xs)%nat ->
  Forall (fun x => CoreModel.absorbing x = true -> CoreModel.last x = true) xs ->
  bptt_upd cell head mlogp ent opt call pupd val cfit zero L gamma lam eps cs bs d perms f g (map b_read xs) <> None.
Proof.
  intros eps cs bs d perms f g xs HL HA E. unfold bptt_upd, bptt_fit, bptt_rows in E.
  rewrite !map_map in E. cbn [b_t b_h b_hn b_read t_s t_ns] in E.
  set (ps' := upd_all call pupd (a_ps g) (map (fun x => CoreModel.state x) xs)) in *.
  destruct (sequences_spec xs (fun x => prep_all call (a_ps g) (CoreModel.state x)) (fun x => CoreModel.pstate x) HA) as (so & ESO & LSO & NSO).
  destruct (sequences_spec xs (fun x => prep_all call ps' (CoreModel.state x)) (fun x => CoreModel.pstate x) HA) as (s & ES & LS & NS).
  destruct (sequences_spec xs (fun x => prep_all call ps' (CoreModel.next_state x)) (fun x => CoreModel.pnext x) HA) as (sn & ESN & LSN & NSN).
  rewrite ESO, ES, ESN in E. cbn [obind] in E. unfold AdvModel.compute_gae in E.
  match type of E with obind (obind (normalise ?a) _) _ = _ => destruct (normalise a) as [adv'|] eqn:N end; [discriminate E|].
  apply (proj1 (PpoProps.advantage_normalised _)) in N.
  assert (LG : forall l, length (AdvModel.gae gamma lam l) = length l) by (induction l; simpl; auto).
  rewrite LG, map_length, !combine_length, map_length in N. lia.
Qed.
End Fit.

(** * Under Core *)
Section Chain.
Context {En Ag Ob Ac Rw Ps Th : Type}.
Variable W : CoreModel.world En Ag Ob Ac Rw Ps Th.

(** In an execution the row that follows a row inside an episode goes on from its next state and
    next policy state, also across a fit. *)
Lemma trace_chain : forall p l q, CoreSpec.trace W p l q ->
  (forall i x y, nth_error (CoreModel.samples_of l) i = Some x -> nth_error (CoreModel.samples_of l) (S i) = Some y -> CoreModel.last x = false ->
     CoreModel.state y = CoreModel.next_state x /\ CoreModel.pstate y = CoreModel.pnext x) /\
  (forall s x, CoreModel.samples_of l = s ++ [x] -> CoreModel.last x = false ->
     exists e a n, q = CoreSpec.Inside e a (CoreModel.next_state x) (CoreModel.pnext x) n).
Proof.
  intros p l q T. induction T as [|l q1 ev q2 T [IH1 IH2] ES].
  { split; [intros [|i] x y A; discriminate A|intros [|s0 s] x A; discriminate A]. }
  rewrite samples_app. inversion ES; subst; cbn [CoreModel.samples_of flat_map app] in *; rewrite ?app_nil_r.
  - split; [exact IH1|]. intros s x A B. destruct (IH2 s x A B) as (e1 & a3 & n1 & Z). discriminate Z.
  - split.
    + intros i x0 y A B C.
      destruct (Nat.lt_ge_cases (S i) (length (CoreModel.samples_of l))) as [Lt|Ge].
      { rewrite nth_error_app1 in A, B by lia. exact (IH1 i x0 y A B C). }
      rewrite nth_error_app2 in B by lia. destruct (S i - length (CoreModel.samples_of l))%nat as [|k] eqn:EK; [|destruct k; discriminate B].
      cbn in B. injection B as <-. rewrite nth_error_app1 in A by lia.
      assert (EL : CoreModel.samples_of l = firstn i (CoreModel.samples_of l) ++ [x0]).
      { rewrite <- (firstn_skipn i (CoreModel.samples_of l)) at 1. f_equal. rewrite (skipn_S_nth _ _ i x0) by lia.
        rewrite (nth_error_nth _ _ _ A). rewrite skipn_all2 by lia. reflexivity. }
      destruct (IH2 _ _ EL C) as (e1 & a3 & n1 & Z). injection Z as _ _ Z1 Z2 _. auto.
    + intros s y A B. apply app_inj_tail in A as [_ <-]. rewrite B. eauto.
  - split; [exact IH1|]. intros s x A B. destruct (IH2 s x A B) as (e1 & a3 & n1 & Z). discriminate Z.
  - split; [exact IH1|]. intros s x A B. destruct (IH2 s x A B) as (e1 & a3 & n1 & Z). injection Z as _ _ -> -> _. eauto.
Qed.
End Chain.

Section Core.
Context {En W X Ac H M Pp Cr : Type}.
Variable cell : W -> X -> H -> H.
Variable head : W -> X -> H -> M.
Variable mlogp : M -> Ac -> R.
Variable ent : W -> R.
Variable opt : W -> (W -> R) -> W.
Variable call : Pp -> X -> X.
Variable pupd : Pp -> list X -> Pp.
Variable val : Cr -> list X -> H -> R.
Variable cfit : Cr -> list (list X * H) -> list R -> Cr.
Variable zero : X.
Variable h0 : H.
Variable L : nat.
Hypothesis L1 : (1 <= L)%nat.
Variables gamma lam : R.
Variable pol : M -> nat -> Ac.
Variable env_reset : En -> option X -> En * X.
Variable env_step : En -> Ac -> En * X * R * bool.
Variable hor : option nat.
Hypothesis Hhor : hor <> Some 0%nat.
Notation cag := (@cagent W Pp Cr).

(** Every fit works with the transitions made since the fit before, at least [k] of them; the
    policy states of the rows go on from each other through the network with the weights and
    preprocessors the agent still has at the fit, and each action was drawn from the output of
    that network; the agent that goes on is the result of the update. *)
Definition b_fresh (Wo : CoreModel.world En cag X Ac R H unit) (e : En) (a : cag) (k : nat) (l : list (CoreModel.event X Ac R H unit))
    (step : nat -> @agent W Pp Cr -> list (CoreModel.sample X Ac R H) -> @agent W Pp Cr -> Prop) : Prop :=
  forall u d v, l = u ++ CoreModel.EvFit d :: v ->
  exists u0 w p p',
    u = u0 ++ w /\ (u0 = [] \/ exists u1 d1, u0 = u1 ++ [CoreModel.EvFit d1]) /\ CoreModel.fits_of w = [] /\
    CoreModel.rows d = CoreModel.samples_of w /\ (k <= length (CoreModel.rows d))%nat /\
    CoreSpec.trace Wo (CoreSpec.Between e a) u p /\ CoreSpec.trace Wo (CoreSpec.Between e a) (u ++ [CoreModel.EvFit d]) p' /\
    let g := c_ag (agent_of p) in
    recorded cell call g (CoreModel.rows d) /\
    Forall (fun x => let z := prep_all call (a_ps g) (CoreModel.state x) in
       exists n, CoreModel.action x = pol (head (a_w g) z (cell (a_w g) z (CoreModel.pstate x))) n) (CoreModel.rows d) /\
    step (c_fits (agent_of p)) g (CoreModel.rows d) (c_ag (agent_of p')).

Theorem core_ppo_bptt_updates_partial : forall eps cs bs d perms epochs fuel e a l ns ne k spf epf r,
  let U := bptt_upd cell head mlogp ent opt call pupd val cfit zero L gamma lam eps cs bs d perms in
  let Wo := b_world cell head call zero pol h0 U env_reset env_step hor in
  (1 <= bs)%nat -> (forall f n, length (perms f n) = epochs /\ forall perm, In perm (perms f n) -> Permutation perm (seq 0 n)) ->
  (2 <= k)%nat -> every k spf epf ->
  CoreModel.learn Wo fuel e a l ns ne spf epf = CoreModel.Done r ->
  c_ok (CoreModel.r_ag r) = c_ok a /\
  b_fresh Wo e a k (CoreModel.r_log r) (bptt_step cell head mlogp ent opt call pupd val cfit zero h0 L gamma lam eps cs bs epochs).
Proof.
  intros eps cs bs d perms epochs fuel e a l ns ne k spf epf r U Wo HB HP K HE HD.
  assert (K1 : (1 <= k)%nat) by lia.
  pose proof (fit_size Wo Hhor fuel e a l ns ne k spf epf r K1 HE HD) as FS.
  destruct (every_ok k spf epf K1 HE) as [Hs He].
  assert (MAIN : forall u d0 v, CoreModel.r_log r = u ++ CoreModel.EvFit d0 :: v ->
    exists u0 w p p',
    u = u0 ++ w /\ (u0 = [] \/ exists u1 d1, u0 = u1 ++ [CoreModel.EvFit d1]) /\ CoreModel.fits_of w = [] /\
    CoreModel.rows d0 = CoreModel.samples_of w /\ (k <= length (CoreModel.rows d0))%nat /\
    CoreSpec.trace Wo (CoreSpec.Between e a) u p /\ CoreSpec.trace Wo (CoreSpec.Between e a) (u ++ [CoreModel.EvFit d0]) p' /\
    let g := c_ag (agent_of p) in
    recorded cell call g (CoreModel.rows d0) /\
    Forall (fun x => let z := prep_all call (a_ps g) (CoreModel.state x) in
       exists n, CoreModel.action x = pol (head (a_w g) z (cell (a_w g) z (CoreModel.pstate x))) n) (CoreModel.rows d0) /\
    Forall (fun x => CoreModel.absorbing x = true -> CoreModel.last x = true) (CoreModel.rows d0) /\
    agent_of p' = b_fit U (agent_of p) d0).
  { intros u d0 v E.
    destruct (core_fits_on_policy_data Wo Hhor (@c_ag W Pp Cr) (fun _ _ _ => eq_refl) (fun _ _ => eq_refl) (fun _ _ => eq_refl) (fun _ => eq_refl)
       fuel e a l ns ne spf epf r Hs He HD u d0 v E) as (u0 & w & p & p' & ag & EU & C & F & RD & TU & EA & TF & EF & DR).
    assert (FK : (k <= length (CoreModel.rows d0))%nat).
    { rewrite Forall_forall in FS. apply FS. rewrite E, fits_app. apply in_or_app. right. left. reflexivity. }
    exists u0, w, p, p'. subst ag. do 7 (split; [assumption|]). cbv zeta. rewrite EU in TU. destruct (OnPolicyProps.trace_app _ _ _ _ _ TU) as (q0 & _ & TW).
    assert (DR' : Forall (fun x => let z := prep_all call (a_ps (c_ag (agent_of p))) (CoreModel.state x) in
        (exists n, CoreModel.action x = pol (head (a_w (c_ag (agent_of p))) z (cell (a_w (c_ag (agent_of p))) z (CoreModel.pstate x))) n) /\
        CoreModel.pnext x = cell (a_w (c_ag (agent_of p))) z (CoreModel.pstate x)) (CoreModel.rows d0)).
    { eapply Forall_impl; [|exact DR]. cbn beta. intros x (a1 & a2 & EW & ED). cbv zeta. rewrite <- EW. cbn in ED. injection ED as _ ED1 ED2.
      split; [exists (c_draws a1); symmetry; exact ED1|symmetry; exact ED2]. }
    split; [split|split; [|split]].
    - eapply Forall_impl; [|exact DR']. cbn beta. intros x [_ Z]. exact Z.
    - rewrite RD. exact (proj1 (trace_chain Wo _ _ _ TW)).
    - eapply Forall_impl; [|exact DR']. cbn beta. intros x [Z _]. exact Z.
    - rewrite RD. eapply Forall_impl; [|exact (trace_flags Wo _ _ _ TW)]. cbn beta. intros x [Z _]. exact Z.
    - exact EF. }
  assert (FD : Forall (fun d0 => forall f g, U f g (map b_read (CoreModel.rows d0)) <> None) (CoreModel.fits_of (CoreModel.r_log r))).
  { apply Forall_forall. intros d0 Hd. unfold CoreModel.fits_of in Hd. apply in_flat_map in Hd as (ev & Hev & Hd). destruct ev as [| |d1]; try (destruct Hd; fail).
    cbn in Hd. destruct Hd as [->|[]]. apply in_split in Hev as (u & v & E). destruct (MAIN u d0 v E) as (u0 & w & p & p' & _ & _ & _ & _ & LK & _ & _ & _ & _ & FA & _).
    intros f g. apply bptt_defined; [exact h0|exact L1|lia|exact FA]. }
  split.
  - destruct (learn_agent Wo Hhor fuel e a l ns ne spf epf r Hs He HD) as (pe & TR & EA). rewrite <- EA. clear EA MAIN FS HD.
    revert TR FD. generalize (CoreModel.r_log r). intros lg TR.
    remember (CoreSpec.Between e a) as p0 eqn:EP0. replace (c_ok a) with (c_ok (agent_of p0)) by (rewrite EP0; reflexivity). clear EP0.
    induction TR as [|lg q1 ev q2 T IH ES]; intros FD; [reflexivity|].
    rewrite fits_app in FD. apply Forall_app in FD as [F1 F2]. rewrite <- (IH F1).
    assert (FF : forall b d0, ev = CoreModel.EvFit d0 -> c_ok (CoreModel.fit Wo b d0) = c_ok b).
    { intros b d0 ->. cbn [CoreModel.fits_of flat_map app] in F2. inversion F2 as [|? ? F3 _]; subst. cbn [CoreModel.fit b_world Wo]. unfold b_fit.
      destruct (U (c_fits b) (c_ag b) (map b_read (CoreModel.rows d0))) as [g|] eqn:EE; [reflexivity|]. destruct (F3 _ _ EE). }
    inversion ES; subst; cbn [agent_of] in *; try (apply FF; reflexivity).
    + repeat match goal with H : CoreModel.prep _ _ _ = _ |- _ => cbn in H; injection H as <- <- | H : CoreModel.ep_start _ _ _ = _ |- _ => cbn in H; injection H as <- <- <- end. reflexivity.
    + match goal with HP : CoreModel.prep _ _ _ = _, HD : CoreModel.draw _ _ _ _ = _ |- _ => cbn in HP; injection HP as <- HP; cbn in HD; injection HD as <- HD1 HD2 end.
      destruct (CoreModel.last x); reflexivity.
  - intros u d0 v E. destruct (MAIN u d0 v E) as (u0 & w & p & p' & H1 & H2 & H3 & H4 & H5 & H6 & H7 & H8 & H9 & H10 & H11).
    exists u0, w, p, p'. do 7 (split; [assumption|]). cbv zeta. split; [exact H8|]. split; [exact H9|].
    rewrite H11. unfold b_fit. destruct (U (c_fits (agent_of p)) (c_ag (agent_of p)) (map b_read (CoreModel.rows d0))) as [g|] eqn:EE.
    + cbn [c_ag]. eapply bptt_fit_correct_partial; try eassumption.
    + exfalso. revert EE. apply bptt_defined; [exact h0|exact L1|lia|exact H10].
Qed.
End Core.

(** * A row that is not clean
    Episodes of one step that all look the same, truncation length 5, a network that adds the
    state to its hidden state, a policy that plays around the result: the second action of a
    dataset was drawn with hidden state 1, but fit replays it on the joined sequence of both
    episodes, with hidden state 2, and compares with that probability. *)
Definition jx_cell (w : nat) (x h : nat) : nat := (h + x)%nat.
Definition jx_head (w : nat) (x h : nat) : R := INR h.
Definition jx_logp (m a : R) : R := - ((a - m) * (a - m)) / 2.
Definition jx_val (c : unit) (s : list nat) (h : nat) : R := 0.
Definition jx_fit (c : unit) (s : list (list nat * nat)) (t : list R) : unit := c.
Definition jx_rows := bptt_rows (W := nat) (Pp := unit) jx_cell jx_head jx_logp (fun (p : unit) x => x) (fun p _ => p) jx_val 0%nat.
Definition jx_upd (L : nat) := bptt_upd (W := nat) (Pp := unit) jx_cell jx_head jx_logp (fun _ => 0) (fun w _ => S w) (fun (p : unit) x => x) (fun p _ => p) jx_val jx_fit 0%nat L
  1 1 (fun _ _ => 1 / 5) (fun _ _ => 0) 1 (mkP (([], 0%nat), 0%nat) 0 0 0) (fun _ n => [rev (seq 0 n)]).
Definition jx_world (L hor : nat) := b_world (En := unit) jx_cell jx_head (fun (p : unit) x => x) 0%nat (fun m _ => m) 0%nat (jx_upd L) (fun e _ => (e, 1%nat)) (fun e _ => (e, 1%nat, 1, false)) (Some hor).
Definition jx_agent : @agent nat unit unit := {| a_w := 0%nat; a_ps := []; a_cr := tt |}.

Theorem bptt_joined_rows_refuted : exists r d ps s vt q0 q1 x0 x1,
  CoreModel.learn (jx_world 5 1) 10 tt (mkCA jx_agent 0 0 true) VecCoreModel.fresh_logic (Some 2%nat) None (Some 2%nat) None = CoreModel.Done r /\
  CoreModel.fits_of (CoreModel.r_log r) = [d] /\ CoreModel.rows d = [x0; x1] /\ recorded jx_cell (fun (p : unit) x => x) jx_agent [x0; x1] /\
  jx_rows 5 1 1 jx_agent (map b_read [x0; x1]) = Some (ps, s, vt, [q0; q1]) /\
  p_old q0 = acting_logp jx_cell jx_head jx_logp 0%nat (CoreModel.state x0) (CoreModel.pstate x0) (CoreModel.action x0) /\
  p_old q1 <> acting_logp jx_cell jx_head jx_logp 0%nat (CoreModel.state x1) (CoreModel.pstate x1) (CoreModel.action x1).
Proof.
  eexists. eexists. eexists. eexists. eexists. eexists. eexists. eexists. eexists.
  split; [lazy -[Rplus Rmult Ropp Rinv Rminus Rdiv IZR INR sqrt exp pow Rmin Rmax]; reflexivity|].
  split; [reflexivity|]. split; [reflexivity|]. split.
  { split; [repeat constructor|]. intros [|[|i]] x y A B C; try discriminate; cbn in A, B; try discriminate; injection A as <-; discriminate C. }
  split; [lazy -[Rplus Rmult Ropp Rinv Rminus Rdiv IZR INR sqrt exp pow Rmin Rmax]; reflexivity|].
  unfold acting_logp, jx_logp, jx_head, jx_cell. cbn -[INR Rdiv]. split; [reflexivity|]. simpl INR. lra.
Qed.

(** Episodes of three steps, truncation length 2, one fit on six rows: no row reaches into
    another episode, and the log-probability of each is the one it was drawn with. *)
Example core_bptt_ex : exists r d ps s vt qs,
  CoreModel.learn (jx_world 2 3) 20 tt (mkCA jx_agent 0 0 true) VecCoreModel.fresh_logic (Some 6%nat) None (Some 6%nat) None = CoreModel.Done r /\
  CoreModel.fits_of (CoreModel.r_log r) = [d] /\
  map CoreModel.pstate (CoreModel.rows d) = [0; 1; 2; 0; 1; 2]%nat /\
  jx_rows 2 1 1 jx_agent (map b_read (CoreModel.rows d)) = Some (ps, s, vt, qs) /\
  map p_x qs = [([1; 0], 0, 1); ([1; 1], 0, 2); ([1; 1], 1, 2); ([1; 0], 0, 1); ([1; 1], 0, 2); ([1; 1], 1, 2)]%nat /\
  map p_old qs = map (fun x => acting_logp jx_cell jx_head jx_logp 0%nat (CoreModel.state x) (CoreModel.pstate x) (CoreModel.action x)) (CoreModel.rows d) /\
  c_ok (CoreModel.r_ag r) = true /\ a_w (c_ag (CoreModel.r_ag r)) = 6%nat.
Proof.
  eexists. eexists. eexists. eexists. eexists. eexists.
  split; [lazy -[Rplus Rmult Ropp Rinv Rminus Rdiv IZR INR sqrt exp pow Rmin Rmax]; reflexivity|].
  split; [reflexivity|]. split; [reflexivity|].
  split; [lazy -[Rplus Rmult Ropp Rinv Rminus Rdiv IZR INR sqrt exp pow Rmin Rmax]; reflexivity|].
  split; [reflexivity|]. split; [reflexivity|]. split; reflexivity.
Qed.

(** A window of an episode that began before the last [L] samples, and one that began after them. *)
Example window_ex : window (fun x => Nat.eqb x 7) 3 [1; 7; 2; 3; 4; 5; 7]%nat 5 = [3; 4; 5]%nat /\
  window (fun x => Nat.eqb x 7) 3 [1; 7; 2; 3; 4; 5; 7]%nat 3 = [2; 3]%nat /\ window (fun x => Nat.eqb x 7) 3 [1; 7; 2; 3; 4; 5; 7]%nat 1 = [1; 7]%nat.
Proof. repeat split. Qed.

Print Assumptions bptt_fit_correct_partial.
Print Assumptions core_ppo_bptt_updates_partial.
Print Assumptions bptt_joined_rows_refuted.

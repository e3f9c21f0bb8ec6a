(** Values of a VectorCore run; see VecPreModel. *)
From Coq Require Import List Arith Lia Bool Reals Lra.
From Verif Require Import Common CoreModel VecCoreModel VecCoreProofs UtilModel UtilProofs VecPreModel.
Import ListNotations.
Local Open Scope list_scope.
Local Open Scope nat_scope.

Section Sched.
Variable W : vworld.
Notation n := (n_envs W).

Definition below (e : nat) : Prop := match vhorizon W with Some h => e < h | None => True end.
Record IV (r : vrun) : Prop := {
  iv_last : length (v_last r) = n; iv_mask : length (v_mask r) = n; iv_es : length (v_esteps r) = n;
  iv_run : length (running (v_log r)) = n;
  iv_cases : v_last r = repeat true n \/
             (running (v_log r) = v_mask r /\ forall j, nth j (v_last r) false = true -> nth j (v_mask r) false = true);
  iv_off : forall j, j < n -> nth j (v_mask r) false = false -> below (nth j (v_esteps r) 0) }.

Lemma get_mask_cases : forall v last m v', length last = n -> length (running v) = n ->
  get_mask W v last = Some (m, v') ->
  running v' = m /\ length m = n /\
  ((cnt (running v) = 0) \/ (forall j, nth j last false = false -> nth j m false = nth j (running v) false)).
Proof.
  intros v last m v' Ll Lr. unfold get_mask.
  set (t0 := cnt (vand last (running v))). set (u := cnt (vand (vnot last) (running v))).
  assert (TU : t0 + u = cnt (running v)) by (apply cnt_split; lia).
  set (term := if (u =? 0) && (t0 =? 0) then n else t0).
  set (mr1 := match n_episodes (vl v) with Some N => Nat.min (N - tot_ep (vl v) - u) term | None => term end).
  set (mr2 := match n_episodes_per_fit (vl v) with Some k => Nat.min (k - cur_ep (vl v) - u) mr1 | None => mr1 end).
  assert (M1 : mr1 <= term) by (unfold mr1; destruct (n_episodes _); lia).
  assert (M2 : mr2 <= mr1) by (unfold mr2; destruct (n_episodes_per_fit _); lia).
  destruct ((u =? 0) && (t0 =? 0)) eqn:FB.
  - intros E. injection E as <- <-. cbn [running]. apply andb_true_iff in FB as [U0 T0].
    apply Nat.eqb_eq in U0, T0. split; [reflexivity|]. split; [|left; lia].
    rewrite app_length, !repeat_length. unfold term in *. lia.
  - destruct (cnt last =? term); [|destruct (term =? 1); [|discriminate]];
      intros E; injection E as <- <-; cbn [running];
      (split; [reflexivity|]; split; [rewrite scatter_length; lia|]; right; intros j Hj; rewrite scatter_keep; auto; lia).
Qed.

Lemma cnt_pos_any : forall l, vany l = true -> exists j, nth j l false = true.
Proof.
  intros l H. unfold vany in H. apply existsb_exists in H as (x & Hx & ->).
  apply (In_nth _ _ false) in Hx as (j & _ & E). eauto.
Qed.

Lemma nth_lt_true : forall (l : list bool) j, nth j l false = true -> j < length l.
Proof. intros l j H. destruct (lt_dec j (length l)); auto. rewrite nth_overflow in H by lia. discriminate. Qed.

Record RV (r r1 : vrun) : Prop := {
  rv_t : v_t r1 = v_t r; rv_mask : length (v_mask r1) = n; rv_es : length (v_esteps r1) = n;
  rv_run : running (v_log r1) = v_mask r1;
  rv_cont : forall j, nth j (v_mask r1) false = true -> nth j (v_last r) false = false -> nth j (v_mask r) false = true;
  rv_off : forall j, j < n -> nth j (v_mask r1) false = false -> below (nth j (v_esteps r1) 0) }.

Lemma vreset_RV : forall r r1, vhorizon W <> Some 0 -> IV r -> vreset W r = Some r1 -> RV r r1.
Proof.
  intros r r1 H0 [L1 L2 L3 L4 C O] E. unfold vreset in E.
  destruct (vany (v_last r)) eqn:V.
  - destruct (get_mask W (v_log r) (v_last r)) as [[m v']|] eqn:G; [|discriminate]. injection E as <-.
    destruct (get_mask_cases _ _ _ _ L1 L4 G) as (R & Lm & K).
    constructor; cbn [v_t v_mask v_esteps v_log v_last]; auto.
    + rewrite map_length, combine_length. lia.
    + intros j M Lj. destruct C as [C|[C1 C2]].
      * pose proof (nth_lt_true _ _ M). rewrite C, nth_repeat_lt in Lj by lia. discriminate.
      * destruct K as [K|K].
        { destruct (cnt_pos_any _ V) as (i & Hi). apply C2 in Hi. rewrite C1 in K.
          rewrite (proj1 (cnt_0 _) K) in Hi. discriminate. }
        { rewrite <- C1, <- K; auto. }
    + intros j Hj M.
      rewrite (nth_map_combine _ _ _ _ _ _ false 0) by lia. cbn [fst snd].
      destruct (nth j (v_last r) false) eqn:Lj.
      { unfold below. destruct (vhorizon W) as [[|h]|]; auto; [congruence|lia]. }
      apply O; auto. destruct C as [C|[C1 C2]].
      { rewrite C, nth_repeat_lt in Lj by lia. discriminate. }
      destruct K as [K|K].
      { destruct (cnt_pos_any _ V) as (i & Hi). apply C2 in Hi. rewrite C1 in K.
        rewrite (proj1 (cnt_0 _) K) in Hi. discriminate. }
      rewrite <- C1, <- K; auto.
  - injection E as <-.
    assert (N : forall j, nth j (v_last r) false = false).
    { intros j. destruct (nth j (v_last r) false) eqn:X; auto. pose proof (nth_lt_true _ _ X) as Y.
      exfalso. assert (vany (v_last r) = true); [|congruence]. unfold vany. apply existsb_exists.
      exists true. split; auto. rewrite <- X. apply nth_In. auto. }
    constructor; auto.
    + destruct C as [C|[C _]]; auto. destruct n as [|k] eqn:En.
      * rewrite (proj1 (length_zero_iff_nil _) L4), (proj1 (length_zero_iff_nil _) L2). reflexivity.
      * specialize (N 0). rewrite C in N. discriminate.
Qed.

Lemma vstep_IV : forall r r1, RV r r1 ->
  length (v_last (vstep W r1)) = n /\ length (v_esteps (vstep W r1)) = n /\
  (forall j, nth j (v_last (vstep W r1)) false = true -> nth j (v_mask r1) false = true) /\
  (forall j, j < n -> nth j (v_mask r1) false = false -> below (nth j (v_esteps (vstep W r1)) 0)).
Proof.
  intros r r1 [T M E R C O]. unfold vstep. cbn [v_last v_esteps].
  repeat split; try (rewrite ?map_length, ?combine_length, ?map_length, ?combine_length, ?seq_length; lia).
  - intros j H.
    assert (Hj : j < n).
    { apply nth_lt_true in H. rewrite map_length, combine_length, !map_length, !combine_length, seq_length in H. lia. }
    rewrite (nth_map_combine _ _ _ _ _ _ false 0) in H
      by (rewrite ?map_length, ?combine_length, ?seq_length; lia).
    cbn [fst snd] in H.
    rewrite (nth_map_combine _ _ _ _ _ _ false 0) in H by (rewrite ?seq_length; lia).
    rewrite (nth_map_combine _ _ _ _ _ _ false 0) in H by lia. cbn [fst snd] in H.
    destruct (nth j (v_mask r1) false) eqn:X; auto. cbn [andb orb] in H. specialize (O j Hj X). unfold below in O.
    destruct (vhorizon W); [|discriminate]. apply Nat.leb_le in H. lia.
  - intros j Hj X. rewrite (nth_map_combine _ _ _ _ _ _ false 0) by lia. cbn [fst snd]. rewrite X. auto.
Qed.

Lemma viterate_IV : forall cap r r', vhorizon W <> Some 0 -> IV r -> viterate W cap r = Some r' ->
  exists r1, vreset W r = Some r1 /\ RV r r1 /\ IV r' /\ v_mask r' = v_mask r1 /\ v_t r' = S (v_t r) /\
    (v_last r' = v_last (vstep W r1) \/ v_last r' = repeat true n).
Proof.
  intros cap r r' H0 I E. unfold viterate in E.
  destruct (vreset W r) as [r1|] eqn:R1; [|discriminate]. cbn [obind] in E.
  destruct (vappend _ _ _ _ _) as [ds|] eqn:VA; [|discriminate]. cbn [obind] in E.
  pose proof (vreset_RV _ _ H0 I R1) as RV1. destruct (vstep_IV _ _ RV1) as (A & B & C & D).
  destruct RV1 as [T M Es R Cc O] eqn:Q. clear Q.
  exists r1. split; [reflexivity|]. split; [constructor; auto|].
  assert (LM : v_mask (vstep W r1) = v_mask r1) by reflexivity.
  assert (LT : v_t (vstep W r1) = S (v_t r)) by (unfold vstep; cbn [v_t]; congruence).
  set (r2 := vstep W r1) in *.
  destruct (fit_required _) as [[]|]; [| |discriminate].
  - destruct (flatten _ _ _) as [flat ds'].
    unfold after_fit_vectorized in E.
    destruct (n_episodes_per_fit _) eqn:NE; injection E as <-; cbn [v_mask v_t v_last];
      (split; [|split; [exact LM|split; [exact LT|]]]).
    + constructor; cbn [v_last v_mask v_esteps v_log running]; rewrite ?repeat_length, ?LM; auto.
    + right; reflexivity.
    + constructor; cbn [v_last v_mask v_esteps v_log running vafter_step]; rewrite ?LM; auto.
      * change (running (v_log r2)) with (running (v_log r1)). congruence.
    + left; reflexivity.
  - injection E as <-. cbn [v_mask v_t v_last].
    split; [|split; [exact LM|split; [exact LT|left; reflexivity]]].
    constructor; cbn [v_last v_mask v_esteps v_log running vafter_step]; rewrite ?LM; auto.
    * change (running (v_log r2)) with (running (v_log r1)). congruence.
Qed.

Lemma vstart_IV : forall cap l, vhorizon W <> Some 0 -> IV (vstart W cap l).
Proof.
  intros cap l H. unfold vstart.
  constructor; cbn [v_last v_mask v_esteps v_log running]; rewrite ?repeat_length; auto.
  intros j Hj _. rewrite nth_repeat_lt by auto. unfold below.
  destruct (vhorizon W) as [[|h]|]; auto; [congruence|lia].
Qed.
End Sched.

Section Vals.
Context {X I T A P : Type}.
Variable W : vworld.
Notation n := (n_envs W).
Variable rst : nat -> nat -> X.
Variable rinfo : nat -> nat -> I.
Variable noinfo : I.
Variable stp : nat -> nat -> A -> X.
Variable draw : nat -> list X -> option (list T) -> list A * option (list T).
Variable start : nat -> list X -> list I -> list bool -> option (list T).
Variable prep : P -> val X I -> option (P * val X I).

Notation xiter := (xiterate W rst rinfo noinfo stp draw start prep).
Notation xlp := (xloop W rst rinfo noinfo stp draw start prep).
Notation xr := (xrun W rst rinfo noinfo stp draw start prep).

(** The agent answers with one action per environment; its policy either has states, one per
    environment, or has none. *)
Definition agent_ok : Prop :=
  (forall t s p, length s = n -> length (fst (draw t s p)) = n) /\
  ((forall t s p, length s = n -> exists l, snd (draw t s p) = Some l /\ length l = n) /\
   (forall t s i m, length s = n -> exists l, start t s i m = Some l /\ length l = n)
   \/
   (forall t s p, snd (draw t s p) = None) /\ (forall t s i m, start t s i m = None)).

Definition vmap (f : X -> X) (v : val X I) : val X I :=
  match v with VArr l => VArr (map f l) | VPair l i => VPair (map f l) i end.

(** The preprocessors apply [f] to every observation, also when they are given the pair. *)
Definition maps (f : X -> X) : Prop := forall p v, exists p', prep p v = Some (p', vmap f v).

Definition polat (j : nat) (o : option (list T)) : option T :=
  match o with Some l => nth_error l j | None => None end.

Definition infos_of (k : nat) (reset : list bool) : list I :=
  map (fun p => if snd p : bool then rinfo k (fst p) else noinfo) (combine (seq 0 n) reset).

Lemma nth_error_map_combine : forall B C D (f : B * C -> D) a b j da db, length a = length b -> j < length a ->
  nth_error (map f (combine a b)) j = Some (f (nth j a da, nth j b db)).
Proof.
  induction a as [|x a IH]; destruct b as [|y b]; simpl; intros; try lia.
  destruct j; simpl; auto. apply IH; lia.
Qed.

Lemma reset_all_at : forall t m buf j d, length m = n -> length buf = n -> j < n ->
  nth_error (fst (reset_all W rst rinfo noinfo t m buf)) j = Some (if nth j m false then rst t j else nth j buf d).
Proof.
  intros t m buf j d Lm Lb Hj. unfold reset_all. cbn [fst].
  rewrite (nth_error_map_combine _ _ _ _ _ _ j 0 (false, d))
    by (rewrite ?seq_length, ?combine_length; lia).
  rewrite combine_nth by lia. rewrite seq_nth by auto. reflexivity.
Qed.
Lemma reset_all_length : forall t m buf, length m = n -> length buf = n ->
  length (fst (reset_all W rst rinfo noinfo t m buf)) = n.
Proof. intros. unfold reset_all. cbn [fst]. rewrite map_length, !combine_length, seq_length. lia. Qed.

Lemma step_all_at : forall t m act buf j d, length m = n -> length buf = n -> length act = n -> j < n ->
  exists a, nth_error act j = Some a /\
  nth_error (step_all W stp t m act buf) j = Some (if nth j m false then stp t j a else nth j buf d).
Proof.
  intros t m act buf j d Lm Lb La Hj. unfold step_all.
  rewrite (nth_error_map_combine _ _ _ _ _ _ j 0 (false, d))
    by (rewrite ?seq_length, ?combine_length; lia).
  rewrite combine_nth by lia. rewrite seq_nth by auto. cbn [fst snd plus].
  destruct (nth_error act j) as [a|] eqn:E; [|apply nth_error_None in E; lia].
  exists a. split; reflexivity.
Qed.
Lemma step_all_length : forall t m act buf, length m = n -> length buf = n ->
  length (step_all W stp t m act buf) = n.
Proof. intros. unfold step_all. rewrite map_length, !combine_length, seq_length. lia. Qed.

Lemma mix_at : forall m (new old : list T) j, length m = n -> length new = n -> length old = n -> j < n ->
  nth_error (mix m new old) j = if nth j m false then nth_error new j else nth_error old j.
Proof.
  intros m new old j Lm Ln Lo Hj. unfold mix.
  destruct (nth_error new j) as [x|] eqn:E1; [|apply nth_error_None in E1; lia].
  destruct (nth_error old j) as [y|] eqn:E2; [|apply nth_error_None in E2; lia].
  rewrite (nth_error_map_combine _ _ _ _ _ _ j false (x, y)) by (rewrite ?combine_length; lia).
  rewrite combine_nth by lia. cbn [fst snd].
  rewrite (nth_error_nth _ _ x E1), (nth_error_nth _ _ y E2). destruct (nth j m false); reflexivity.
Qed.
Lemma mix_length : forall m (new old : list T), length m = n -> length new = n -> length old = n ->
  length (mix m new old) = n.
Proof. intros. unfold mix. rewrite map_length, !combine_length. lia. Qed.

(** Policy states: absent, or one per environment. *)
Definition pol_ok (o : option (list T)) : Prop := match o with Some l => length l = n | None => True end.

Lemma xiterate_row : forall f cap r s r' s' w, vhorizon W <> Some 0 -> agent_ok -> maps f ->
  IV W r -> length (s_buf s) = n -> length (s_state s) = n -> pol_ok (s_pol s) ->
  (s_pol s = None -> v_last r = repeat true n \/ forall t l p, snd (draw t l p) = None) ->
  ((forall t l p, snd (draw t l p) = None) -> s_pol s = None) ->
  xiter cap r s = Some (r', s', w) ->
  IV W r' /\ length (s_buf s') = n /\ s_state s' = w_next w /\ s_pol s' = w_polnext w /\ pol_ok (s_pol s') /\
  (s_pol s' = None -> forall t l p, snd (draw t l p) = None) /\
  ((forall t l p, snd (draw t l p) = None) -> s_pol s' = None) /\
  w_next w = map f (s_buf s') /\ v_t r' = S (v_t r) /\ w_t w = v_t r /\ w_mask w = v_mask r' /\
  (v_last r' = w_last w \/ v_last r' = repeat true n) /\
  w_round w = vany (v_last r) /\
  (w_act w, w_polnext w) = draw (w_t w) (w_state w) (w_pol w) /\
  length (w_state w) = n /\ length (w_mask w) = n /\
  (forall j, nth j (w_mask w) false = true ->
     (exists a, nth_error (w_act w) j = Some a /\ nth_error (w_next w) j = Some (f (stp (w_t w) j a))) /\
     nth j (w_reset w) false = nth j (v_last r) false /\
     if nth j (w_reset w) false
     then nth_error (w_state w) j = Some (f (f (rst (w_t w) j))) /\
          exists st, w_state w = map f st /\
          polat j (w_pol w) = polat j (start (w_t w) st (infos_of (w_t w) (w_reset w)) (w_reset w))
     else nth j (v_mask r) false = true /\
          nth_error (w_state w) j = (if w_round w then option_map (fun x => f (f x)) (nth_error (s_buf s) j)
                                     else nth_error (s_state s) j) /\
          polat j (w_pol w) = polat j (s_pol s)).
Proof.
  intros f cap r s r' s' w H0 [AL AP] HM HI Lb Ls PO PN PS E. unfold xiterate in E.
  destruct (vreset W r) as [r1|] eqn:ER; [|discriminate]. cbn [obind] in E.
  set (round := vany (v_last r)) in *.
  set (rmask := if round then vand (v_last r) (v_mask r1) else repeat false n) in *.
  destruct (if round then _ else Some s) as [s1|] eqn:ES; [|discriminate]. cbn [obind] in E.
  destruct (val_step _ _ _ _ _ _ _ _ _ _) as [[s2 w2]|] eqn:EW; [|discriminate]. cbn [obind] in E.
  destruct (viterate W cap r) as [r2|] eqn:EI; [|discriminate]. cbn [obind fst snd] in E. injection E as <- <- <-.
  destruct (viterate_IV _ _ _ _ H0 HI EI) as (r1' & ER' & RV1 & IV2 & Mk & Tk & Lk).
  assert (r1' = r1) by congruence. subst r1'. clear ER'.
  destruct RV1 as [T1 M1 Es1 Rn1 Cont1 Off1].
  assert (LR : length rmask = n).
  { unfold rmask. destruct round; [rewrite vand_length; rewrite ?(iv_last _ _ HI); lia|apply repeat_length]. }
  assert (RL : forall j, nth j (v_mask r1) false = true -> nth j rmask false = nth j (v_last r) false).
  { intros j Mj. unfold rmask, round. destruct (vany (v_last r)) eqn:V.
    - rewrite nth_vand by (rewrite (iv_last _ _ HI); lia). rewrite Mj, andb_true_r. reflexivity.
    - pose proof (nth_lt_true _ _ Mj). rewrite nth_repeat_lt by lia.
      destruct (nth j (v_last r) false) eqn:Z; auto. exfalso. assert (vany (v_last r) = true); [|congruence].
      unfold vany. apply existsb_exists. exists true. split; auto. rewrite <- Z. apply nth_In, nth_lt_true; auto. }
  (* after the reset *)
  assert (S1 : length (s_buf s1) = n /\ length (s_state s1) = n /\ pol_ok (s_pol s1) /\
    forall j, nth j (v_mask r1) false = true ->
      if nth j rmask false
      then nth_error (s_state s1) j = Some (f (f (rst (v_t r) j))) /\
           exists st, s_state s1 = map f st /\
           polat j (s_pol s1) = polat j (start (v_t r) st (infos_of (v_t r) rmask) rmask)
      else nth_error (s_state s1) j = (if round then option_map (fun x => f (f x)) (nth_error (s_buf s) j)
                                       else nth_error (s_state s) j) /\
           polat j (s_pol s1) = polat j (s_pol s)).
  { destruct round eqn:Rd.
    - unfold val_reset in ES.
      destruct (reset_all W rst rinfo noinfo (v_t r) rmask (s_buf s)) as [buf infos] eqn:RA.
      destruct (HM (s_prep s) (VPair buf infos)) as (p1 & E1). rewrite E1 in ES. cbn [vmap] in ES.
      destruct (HM p1 (VArr (map f buf))) as (p2 & E2). rewrite E2 in ES. cbn [vmap] in ES.
      injection ES as <-. cbn [s_buf s_state s_pol].
      assert (LB : length buf = n).
      { pose proof (reset_all_length (v_t r) rmask (s_buf s) LR Lb) as Z. rewrite RA in Z. exact Z. }
      assert (INF : infos = infos_of (v_t r) rmask).
      { unfold reset_all in RA. injection RA as _ <-. reflexivity. }
      split; [exact LB|]. split; [rewrite !map_length; exact LB|].
      assert (Lf : length (map f buf) = n) by (rewrite map_length; exact LB).
      assert (POL : pol_ok (match s_pol s, start (v_t r) (map f buf) infos rmask with
         | None, _ => start (v_t r) (map f buf) infos rmask
         | _, None => start (v_t r) (map f buf) infos rmask
         | Some old, Some nw => if vany rmask then Some (mix rmask nw old) else Some old end)).
      { destruct AP as [[_ AS]|[_ AS]].
        - destruct (AS (v_t r) (map f buf) infos rmask Lf) as (l & -> & Ll).
          destruct (s_pol s) as [old|]; [|exact Ll]. destruct (vany rmask); [|exact PO].
          simpl. apply mix_length; auto.
        - rewrite AS. destruct (s_pol s); exact Logic.I. }
      split; [exact POL|].
      intros j Mj. pose proof (nth_lt_true _ _ Mj) as Hj. rewrite M1 in Hj.
      destruct (nth_error (s_buf s) j) as [x|] eqn:Ex; [|apply nth_error_None in Ex; lia].
      pose proof (reset_all_at (v_t r) rmask (s_buf s) j x LR Lb Hj) as RAj. rewrite RA in RAj. cbn [fst] in RAj.
      rewrite (nth_error_nth _ _ x Ex) in RAj.
      destruct (nth j rmask false) eqn:Rj.
      + split; [rewrite !nth_error_map, RAj; reflexivity|].
        exists (map f buf). split; [reflexivity|]. rewrite <- INF.
        destruct AP as [[_ AS]|[_ AS]].
        * destruct (AS (v_t r) (map f buf) infos rmask Lf) as (l & -> & Ll).
          destruct (s_pol s) as [old|]; [|reflexivity].
          assert (VA : vany rmask = true).
          { unfold vany. apply existsb_exists. exists true. split; auto. rewrite <- Rj. apply nth_In. lia. }
          rewrite VA. cbn [polat]. rewrite mix_at by auto. rewrite Rj. reflexivity.
        * rewrite !AS. destruct (s_pol s); reflexivity.
      + split; [rewrite !nth_error_map, RAj; reflexivity|].
        destruct AP as [[AD AS]|[AD AS]].
        * destruct (AS (v_t r) (map f buf) infos rmask Lf) as (l & -> & Ll).
          destruct (s_pol s) as [old|] eqn:Ep.
          -- destruct (vany rmask); [|reflexivity]. cbn [polat]. rewrite mix_at by auto. rewrite Rj. reflexivity.
          -- exfalso. destruct (PN eq_refl) as [Z|Z].
             ++ specialize (RL j Mj). rewrite Z, nth_repeat_lt, Rj in RL by auto. discriminate.
             ++ destruct (AD 0 (s_buf s) None Lb) as (q & Eq & _). rewrite Z in Eq. discriminate.
        * rewrite AS. rewrite (PS AD). reflexivity.
    - injection ES as <-. split; [exact Lb|]. split; [exact Ls|]. split; [exact PO|].
      intros j Mj. pose proof (nth_lt_true _ _ Mj) as Hj. rewrite M1 in Hj.
      unfold rmask. rewrite nth_repeat_lt by auto. auto. }
  destruct S1 as (Lb1 & Ls1 & PO1 & S1).
  unfold val_step in EW. destruct (draw (v_t r) (s_state s1) (s_pol s1)) as [act pn] eqn:ED.
  set (buf := step_all W stp (v_t r) (v_mask r1) act (s_buf s1)) in *.
  destruct (HM (s_prep s1) (VArr buf)) as (p' & EP). rewrite EP in EW. cbn [vmap] in EW. injection EW as <- <-.
  cbn [s_buf s_state s_pol w_next w_polnext w_t w_mask w_last w_round w_act w_state w_pol w_reset].
  assert (Lact : length act = n) by (pose proof (AL (v_t r) (s_state s1) (s_pol s1) Ls1) as Z; rewrite ED in Z; exact Z).
  assert (LBuf : length buf = n) by (apply step_all_length; auto).
  assert (PN2 : pol_ok pn /\ (pn = None -> forall t l p, snd (draw t l p) = None) /\
                ((forall t l p, snd (draw t l p) = None) -> pn = None)).
  { destruct AP as [[AD _]|[AD _]].
    - destruct (AD (v_t r) (s_state s1) (s_pol s1) Ls1) as (q & Eq & Lq). rewrite ED in Eq. cbn [snd] in Eq. subst pn.
      split; [exact Lq|]. split; [discriminate|]. intros Z. specialize (Z (v_t r) (s_state s1) (s_pol s1)).
      rewrite ED in Z. exact Z.
    - pose proof (AD (v_t r) (s_state s1) (s_pol s1)) as Z. rewrite ED in Z. cbn [snd] in Z. subst pn.
      split; [exact Logic.I|]. split; auto. }
  destruct PN2 as (Q1 & Q2 & Q3).
  repeat (split; [solve [auto]|]).
  intros j Mj. pose proof (nth_lt_true _ _ Mj) as Hj. rewrite M1 in Hj. split; [|split].
  - destruct (nth_error (s_buf s1) j) as [x|] eqn:Ex; [|apply nth_error_None in Ex; lia].
    destruct (step_all_at (v_t r) (v_mask r1) act (s_buf s1) j x M1 Lb1 Lact Hj) as (a & Ea & Eb).
    exists a. split; [exact Ea|]. fold buf in Eb. rewrite nth_error_map, Eb, Mj. reflexivity.
  - auto.
  - specialize (S1 j Mj). destruct (nth j rmask false) eqn:Rj; [exact S1|].
    split; [|exact S1]. apply Cont1; auto. rewrite <- RL; auto.
Qed.

(** The rows of a run, with the core around them. *)
Definition linked (f : X -> X) (r : vrun) (s : @vals X T P) (prev : option (@row X T A)) : Prop :=
  IV W r /\ length (s_buf s) = n /\ length (s_state s) = n /\ pol_ok (s_pol s) /\
  (s_pol s = None -> v_last r = repeat true n \/ forall t l p, snd (draw t l p) = None) /\
  ((forall t l p, snd (draw t l p) = None) -> s_pol s = None) /\
  match prev with
  | None => v_last r = repeat true n
  | Some a => s_state s = w_next a /\ s_pol s = w_polnext a /\ w_next a = map f (s_buf s) /\
              w_mask a = v_mask r /\ (v_last r = w_last a \/ v_last r = repeat true n) /\ length (w_last a) = n
  end.

(** What a row says about environment j, given the row before it. *)
Definition row_ok (f : X -> X) (k : nat) (prev : option (@row X T A)) (b : @row X T A) : Prop :=
  w_t b = k /\
  (w_act b, w_polnext b) = draw k (w_state b) (w_pol b) /\
  forall j, nth j (w_mask b) false = true ->
    (exists act, nth_error (w_act b) j = Some act /\ nth_error (w_next b) j = Some (f (stp k j act))) /\
    (nth j (w_reset b) false = true /\
       nth_error (w_state b) j = Some (f (f (rst k j))) /\
       (exists st, w_state b = map f st /\
          polat j (w_pol b) = polat j (start k st (infos_of k (w_reset b)) (w_reset b)))
     \/
     nth j (w_reset b) false = false /\
     exists a, prev = Some a /\ nth j (w_mask a) false = true /\ nth j (w_last a) false = false /\
       nth_error (w_state b) j = (if w_round b then option_map f (nth_error (w_next a) j) else nth_error (w_next a) j) /\
       polat j (w_pol b) = polat j (w_polnext a)).

Lemma xloop_rows : forall f, vhorizon W <> Some 0 -> agent_ok -> maps f ->
  forall fuel cap r s prev, linked f r s prev ->
  forall k b, nth_error (fst (fst (xlp fuel cap r s))) k = Some b ->
    row_ok f (v_t r + k) (match k with 0 => prev | S k' => nth_error (fst (fst (xlp fuel cap r s))) k' end) b.
Proof.
  intros f H0 AO HM. induction fuel as [|fuel IH]; intros cap r s prev L k b Hb.
  { exfalso. cbn [xloop] in Hb. destruct (move_required _) as [[]|]; destruct k; discriminate. }
  cbn [xloop] in Hb |- *.
  destruct (move_required _) as [[]|]; [|exfalso; destruct k; discriminate|exfalso; destruct k; discriminate].
  destruct (xiterate W rst rinfo noinfo stp draw start prep cap r s) as [[[r' s'] w]|] eqn:EX; [|exfalso; destruct k; discriminate].
  destruct L as (HI & Lb & Ls & PO & PN & PS & PR).
  destruct (xiterate_row f cap r s r' s' w H0 AO HM HI Lb Ls PO PN PS EX)
    as (I' & Lb' & St' & Po' & PO' & PN' & PS' & Nx & Tr & Tw & Mw & Lw & Rw & Dw & Lst & Lm & Q).
  assert (L' : linked f r' s' (Some w)).
  { split; [exact I'|]. split; [exact Lb'|]. split; [rewrite St', Nx, map_length; exact Lb'|].
    split; [exact PO'|]. split; [intros Z; right; auto|]. split; [exact PS'|].
    split; [exact St'|]. split; [exact Po'|]. split; [exact Nx|]. split; [exact Mw|]. split; [exact Lw|].
    unfold xiterate in EX.
    destruct (vreset W r) as [r1|] eqn:ER; [|discriminate]. cbn [obind] in EX.
    destruct (if vany _ then _ else Some s) as [s1|]; [|discriminate]. cbn [obind] in EX.
    destruct (val_step _ _ _ _ _ _ _ _ _ _) as [[s2 w2]|] eqn:EW; [|discriminate]. cbn [obind] in EX.
    destruct (viterate W cap r) as [r2|] eqn:EI; [|discriminate]. cbn [obind fst snd] in EX. injection EX as _ _ <-.
    unfold val_step in EW. destruct (draw _ _ _). destruct (prep _ _) as [[? []]|]; try discriminate.
    injection EW as _ <-. cbn [w_last].
    apply (vstep_IV W r r1). apply vreset_RV; auto. }
  destruct (xlp fuel cap r' s') as [[ws p] e] eqn:EL. cbn [fst] in Hb |- *.
  destruct k as [|k]; cbn [nth_error] in Hb |- *.
  - injection Hb as <-. rewrite Nat.add_0_r. split; [exact Tw|]. split; [rewrite <- Tw; exact Dw|].
    intros j Mj. destruct (Q j Mj) as (Qa & Qr & Qs). rewrite Tw in Qa, Qs. split; [exact Qa|].
    destruct (nth j (w_reset w) false) eqn:Rj.
    + left. split; [reflexivity|]. exact Qs.
    + right. split; [reflexivity|]. destruct Qs as (Qm & Qst & Qp).
      pose proof (nth_lt_true _ _ Mj) as Hj. rewrite Lm in Hj.
      destruct prev as [a|].
      * destruct PR as (P1 & P2 & P3 & P4 & P5 & P6). exists a. split; [reflexivity|].
        split; [rewrite P4; exact Qm|]. split.
        { destruct P5 as [P5|P5]; rewrite P5 in Qr; auto. rewrite nth_repeat_lt in Qr by auto. discriminate. }
        split; [|rewrite Qp, P2; reflexivity].
        rewrite Qst. destruct (w_round w); [|rewrite P1; reflexivity].
        rewrite P3, nth_error_map. destruct (nth_error (s_buf s) j); reflexivity.
      * rewrite PR, nth_repeat_lt in Qr by auto. discriminate.
  - pose proof (IH cap r' s' (Some w) L' k b) as Z. rewrite EL in Z. cbn [fst] in Z. specialize (Z Hb).
    rewrite Tr in Z. replace (v_t r + S k) with (S (v_t r) + k) by lia.
    destruct k; exact Z.
Qed.

Lemma vstart_linked : forall f cap l buf p, vhorizon W <> Some 0 -> length buf = n ->
  linked f (vstart W cap l) {| s_buf := buf; s_state := buf; s_pol := None; s_prep := p |} None.
Proof.
  intros f cap l buf p H0 Lb. split; [apply vstart_IV; auto|]. cbn [s_buf s_state s_pol].
  split; [exact Lb|]. split; [exact Lb|]. split; [exact Logic.I|]. split; [left; reflexivity|]. split; [auto|]. reflexivity.
Qed.

Definition prev_row (rows : list (@row X T A)) (k : nat) : option row :=
  match k with 0 => None | S k' => nth_error rows k' end.

(** Without core preprocessors the transitions of every environment chain. *)
Theorem vec_transitions_chain : forall fuel cap l buf p rows p' e,
  vhorizon W <> Some 0 -> length buf = n -> agent_ok ->
  (forall q v, prep q v = Some (q, v)) ->
  xr fuel cap l buf p = (rows, p', e) ->
  forall k b j, nth_error rows k = Some b -> nth j (w_mask b) false = true ->
    w_t b = k /\
    (w_act b, w_polnext b) = draw k (w_state b) (w_pol b) /\
    (exists act, nth_error (w_act b) j = Some act /\ nth_error (w_next b) j = Some (stp k j act)) /\
    (nth j (w_reset b) false = true /\
       nth_error (w_state b) j = Some (rst k j) /\
       polat j (w_pol b) = polat j (start k (w_state b) (infos_of k (w_reset b)) (w_reset b))
     \/
     nth j (w_reset b) false = false /\
     exists a, prev_row rows k = Some a /\ nth j (w_mask a) false = true /\ nth j (w_last a) false = false /\
       nth_error (w_state b) j = nth_error (w_next a) j /\
       polat j (w_pol b) = polat j (w_polnext a)).
Proof.
  intros fuel cap l buf p rows p' e H0 Lb AO HP E k b j Hb Mj.
  assert (HM : maps (fun x => x)).
  { intros q v. exists q. rewrite HP. destruct v; cbn [vmap]; rewrite map_id; reflexivity. }
  pose proof (xloop_rows (fun x => x) H0 AO HM fuel cap _ _ None (vstart_linked _ cap l buf p H0 Lb) k b) as Z.
  unfold xrun in E. rewrite E in Z. cbn [fst] in Z. specialize (Z Hb).
  change (v_t (vstart W cap l) + k) with k in Z. destruct Z as (Z1 & Z2 & Z3).
  destruct (Z3 j Mj) as (Z4 & Z5). split; [exact Z1|]. split; [exact Z2|]. split; [exact Z4|].
  destruct Z5 as [(R & S1 & st & S2 & S3)|(R & a & S1 & S2 & S3 & S4 & S5)]; [left|right].
  - rewrite map_id in S2. subst st. auto.
  - split; [exact R|]. exists a. unfold prev_row. destruct k; [discriminate|].
    split; [exact S1|]. split; [exact S2|]. split; [exact S3|]. split; [|exact S5].
    rewrite S4. destruct (w_round b); [|reflexivity]. destruct (nth_error (w_next a) j); reflexivity.
Qed.

(** Preprocessors that accept the pair of reset_all process the observations twice whenever
    some environment starts an episode, including those of the environments that go on. *)
Theorem vec_preprocess_twice_refuted : forall f fuel cap l buf p rows p' e,
  vhorizon W <> Some 0 -> length buf = n -> agent_ok -> maps f ->
  xr fuel cap l buf p = (rows, p', e) ->
  forall k b j, nth_error rows k = Some b -> nth j (w_mask b) false = true ->
    (exists act, nth_error (w_act b) j = Some act /\ nth_error (w_next b) j = Some (f (stp k j act))) /\
    (nth j (w_reset b) false = true /\ nth_error (w_state b) j = Some (f (f (rst k j)))
     \/
     nth j (w_reset b) false = false /\
     exists a, prev_row rows k = Some a /\ nth j (w_mask a) false = true /\ nth j (w_last a) false = false /\
       nth_error (w_state b) j =
         (if w_round b then option_map f (nth_error (w_next a) j) else nth_error (w_next a) j)).
Proof.
  intros f fuel cap l buf p rows p' e H0 Lb AO HM E k b j Hb Mj.
  pose proof (xloop_rows f H0 AO HM fuel cap _ _ None (vstart_linked _ cap l buf p H0 Lb) k b) as Z.
  unfold xrun in E. rewrite E in Z. cbn [fst] in Z. specialize (Z Hb).
  change (v_t (vstart W cap l) + k) with k in Z. destruct Z as (Z1 & Z2 & Z3).
  destruct (Z3 j Mj) as (Z4 & Z5). split; [exact Z4|].
  destruct Z5 as [(R & S1 & _)|(R & a & S1 & S2 & S3 & S4 & S5)]; [left; auto|right].
  split; [exact R|]. exists a. unfold prev_row. destruct k; [discriminate|]. auto.
Qed.

(** Preprocessors that compute with arrays only: the first reset raises. *)
Theorem vec_preprocess_raises_refuted : forall fuel cap l buf p,
  1 <= fuel -> 1 <= n -> move_required l = Some true ->
  (forall q s i, prep q (VPair s i) = None) ->
  xr fuel cap l buf p = ([], p, true).
Proof.
  intros fuel cap l buf p Hf Hn Hm HP. destruct fuel as [|fuel]; [lia|]. unfold xrun. cbn [xloop].
  change (vl (v_log (vstart W cap l))) with l. rewrite Hm.
  assert (X0 : xiter cap (vstart W cap l) {| s_buf := buf; s_state := buf; s_pol := None; s_prep := p |} = None).
  { unfold xiterate. destruct (vreset W (vstart W cap l)) as [r1|]; [|reflexivity]. cbn [obind].
    assert (V : vany (v_last (vstart W cap l)) = true) by (unfold vstart; cbn [v_last]; destruct n; [lia|reflexivity]).
    rewrite V. unfold val_reset. destruct (reset_all _ _ _ _ _ _ _) as [bb ii]. rewrite HP. reflexivity. }
  rewrite X0. reflexivity.
Qed.
End Vals.

(** ** Statistics of the preprocessors *)
Section Stats.
Context {X I T A : Type}.
Variable W : vworld.
Variable rst : nat -> nat -> X.
Variable rinfo : nat -> nat -> I.
Variable noinfo : I.
Variable stp : nat -> nat -> A -> X.
Variable draw : nat -> list X -> option (list T) -> list A * option (list T).
Variable start : nat -> list X -> list I -> list bool -> option (list T).

(** A preprocessor that passes the value on and keeps all it was updated with. *)
Definition recorder (p : list (val X I)) (v : val X I) : option (list (val X I) * val X I) := Some (p ++ [v], v).

(** The statistics are updated with the observations of all environments once per step, and
    twice more (the first time with the pair) whenever an environment starts an episode. *)
Theorem vec_preprocess_updates_refuted : forall fuel cap l buf rows p' e,
  xrun W rst rinfo noinfo stp draw start recorder fuel cap l buf [] = (rows, p', e) ->
  length p' = length rows + 2 * length (filter (fun w => w_round w) rows).
Proof.
  intros fuel cap l buf rows p' e E. unfold xrun in E.
  enough (G : forall fuel cap r s, let '(rows, p', _) := xloop W rst rinfo noinfo stp draw start recorder fuel cap r s in
    length p' = length (s_prep s) + length rows + 2 * length (filter (fun w => w_round w) rows)).
  { specialize (G fuel cap (vstart W cap l) {| s_buf := buf; s_state := buf; s_pol := None; s_prep := [] |}).
    rewrite E in G. exact G. }
  clear. induction fuel as [|fuel IH]; intros cap r s; cbn [xloop].
  { destruct (move_required _) as [[]|]; cbn [length filter]; lia. }
  destruct (move_required _) as [[]|]; [|cbn [length filter]; lia|cbn [length filter]; lia].
  destruct (xiterate W rst rinfo noinfo stp draw start recorder cap r s) as [[[r' s'] w]|] eqn:EX;
    [|cbn [length filter]; lia].
  specialize (IH cap r' s'). destruct (xloop _ _ _ _ _ _ _ _ _ _ r' s') as [[ws p] e].
  unfold xiterate in EX.
  destruct (vreset W r) as [r1|]; [|discriminate]. cbn [obind] in EX.
  destruct (vany (v_last r)) eqn:V.
  - destruct (val_reset _ _ _ _ _ _ _ _ s) as [s1|] eqn:ES; [|discriminate]. cbn [obind] in EX.
    destruct (val_step _ _ _ _ _ _ _ _ _ _) as [[s2 w2]|] eqn:EW; [|discriminate]. cbn [obind] in EX.
    destruct (viterate W cap r) as [r2|]; [|discriminate]. cbn [obind fst snd] in EX. injection EX as <- <- <-.
    unfold val_reset, recorder in ES. destruct (reset_all _ _ _ _ _ _ _) as [bb ii]. injection ES as <-.
    unfold val_step, recorder in EW. cbn [s_prep] in EW. destruct (draw _ _ _). injection EW as <- <-.
    cbn [s_prep] in IH. rewrite !app_length in IH. cbn [length filter w_round] in IH |- *. lia.
  - cbn [obind] in EX.
    destruct (val_step _ _ _ _ _ _ _ _ _ _) as [[s2 w2]|] eqn:EW; [|discriminate]. cbn [obind] in EX.
    destruct (viterate W cap r) as [r2|]; [|discriminate]. cbn [obind fst snd] in EX. injection EX as <- <- <-.
    unfold val_step, recorder in EW. destruct (draw _ _ _). injection EW as <- <-.
    cbn [s_prep] in IH. rewrite !app_length in IH. cbn [length filter w_round] in IH |- *. lia.
Qed.
End Stats.

(** ** MinMaxPreprocessor on a batch *)
Lemma fold_setnth_rows : forall (g : nat -> list R) mask base,
  NoDup mask -> (forall i, In i mask -> i < length base) ->
  forall k, nth_error (fold_left (fun o i => setnth o i (g i)) mask base) k =
            if in_dec Nat.eq_dec k mask then Some (g k) else nth_error base k.
Proof.
  intros g. induction mask as [|i mask IH]; intros base ND HB k; [reflexivity|].
  apply NoDup_cons_iff in ND as [N1 N2]. cbn [fold_left].
  assert (HB' : forall i0, In i0 mask -> i0 < length (setnth base i (g i))).
  { intros i0 H. rewrite setnth_length. apply HB. right; auto. }
  rewrite (IH _ N2 HB'). destruct (in_dec Nat.eq_dec k mask) as [H|H].
  - destruct (in_dec Nat.eq_dec k (i :: mask)) as [H'|H']; [reflexivity|]. exfalso. apply H'. right; auto.
  - destruct (in_dec Nat.eq_dec k (i :: mask)) as [[->|H']|H']; [|contradiction|].
    + apply nth_error_setnth_eq. apply HB. left; reflexivity.
    + apply nth_error_setnth_neq. intros ->. apply H'. left; reflexivity.
Qed.

Lemma forallb_lt : forall n m, forallb (fun i => i <? n) m = true <-> forall i, In i m -> i < n.
Proof.
  intros n m. rewrite forallb_forall. split; intros H i Hi; specialize (H i Hi); [apply Nat.ltb_lt|apply Nat.ltb_lt]; auto.
Qed.

(** On a batch the bounded components select rows: row k is scaled as a whole if component k is
    bounded, and standardised as a whole (left as it is when all components are bounded)
    otherwise. *)
Theorem minmax_batch_rows_refuted : forall bs p c sts obs, mm_init bs = Some p ->
  (mm_call_batch c p sts obs = None <-> exists i, i < length bs /\ nth i bs None <> None /\ length obs <= i) /\
  forall out, mm_call_batch c p sts obs = Some out ->
  forall k o, nth_error obs k = Some o ->
    (nth k bs None <> None -> nth_error out k = Some (mm_scale p o)) /\
    (nth k bs None = None ->
       nth_error out k = Some (if mm_run p then map (fun q => std_call c (fst q) (snd q)) (combine sts o) else o)).
Proof.
  intros bs p c sts obs HI.
  assert (MK : mm_mask p = mm_indices bs).
  { unfold mm_init in HI. destruct (Nat.eqb _ 0); [discriminate|].
    destruct (Nat.eqb (length (mm_indices bs)) 1); [discriminate|]. injection HI as <-. reflexivity. }
  unfold mm_call_batch. rewrite MK.
  destruct (forallb (fun i => i <? length obs) (mm_indices bs)) eqn:F.
  - rewrite forallb_lt in F. split.
    { split; [discriminate|]. intros (i & H1 & H2 & H3). specialize (F i). rewrite mm_indices_In in F.
      specialize (F (conj H1 H2)). lia. }
    intros out E. injection E as <-. intros k o Ho.
    rewrite (fold_setnth_rows (fun i => mm_scale p (nth i obs []))).
    3: { intros i Hi. destruct (mm_run p); rewrite ?map_length; auto. }
    2: apply mm_indices_NoDup.
    rewrite (nth_error_nth _ _ [] Ho).
    assert (HB : nth_error (if mm_run p then map (fun o0 => map (fun q => std_call c (fst q) (snd q)) (combine sts o0)) obs
                            else obs) k
               = Some (if mm_run p then map (fun q => std_call c (fst q) (snd q)) (combine sts o) else o)).
    { destruct (mm_run p); [rewrite nth_error_map, Ho; reflexivity|exact Ho]. }
    destruct (in_dec Nat.eq_dec k (mm_indices bs)) as [H|H].
    + apply mm_indices_In in H as [_ H]. split; [reflexivity|]. intros Z. contradiction.
    + split; [|intros _; exact HB]. intros Z. exfalso. apply H, mm_indices_In. split; auto.
      destruct (lt_dec k (length bs)); auto. rewrite nth_overflow in Z by lia. congruence.
  - split; [|discriminate]. split; [intros _|reflexivity].
    assert (~ forall i, In i (mm_indices bs) -> i < length obs) as N by (rewrite <- forallb_lt; congruence).
    destruct (existsb (fun i => length obs <=? i) (mm_indices bs)) eqn:Q.
    + apply existsb_exists in Q as (i & H1 & H2). apply mm_indices_In in H1 as [H1 H3]. apply Nat.leb_le in H2. eauto.
    + exfalso. apply N. intros i Hi. destruct (lt_dec i (length obs)); auto. exfalso.
      assert (existsb (fun i => length obs <=? i) (mm_indices bs) = true); [|congruence].
      apply existsb_exists. exists i. split; auto. apply Nat.leb_le. lia.
Qed.

(** ** Concrete cases *)
(** Two environments; environment 0 reports an absorbing state at iteration 1.  Observations are
    numbers: resets give 100 + 10 * t + j, steps 10 * t + j; policies without states. *)
Definition W2 : vworld := mkVW 2 (Some 10) (fun t j => (t =? 1) && (j =? 0)) (fun _ _ _ => false).
Definition ex_run (prep : nat -> val nat nat -> option (nat * val nat nat)) :=
  xrun W2 (fun t j => 100 + 10 * t + j) (fun t j => t + j) 0 (fun t j (_ : nat) => 10 * t + j)
       (fun _ s _ => (s, @None (list nat))) (fun _ _ _ _ => @None (list nat)) prep 3 20
       (mkL FitNever MoveSteps (Some 6) None None None 0 0 0 0) [7; 7] 0.

Example chain_ex : map (fun w => (w_state w, w_next w, w_reset w)) (fst (fst (ex_run (fun q v => Some (q, v))))) =
  [([100; 101], [0; 1], [true; true]); ([0; 1], [10; 11], [false; false]); ([120; 11], [20; 21], [true; false])].
Proof. vm_compute. reflexivity. Qed.

(** With a preprocessor that doubles: environment 1 reached 22 in the second row and starts the
    third one from 44. *)
Example twice_ex :
  map (fun w => (w_state w, w_next w))
      (fst (fst (ex_run (fun q v => Some (q, match v with VArr l => VArr (map (Nat.mul 2) l)
                                                        | VPair l i => VPair (map (Nat.mul 2) l) i end))))) =
  [([400; 404], [0; 2]); ([0; 2], [20; 22]); ([480; 44], [40; 42])].
Proof. vm_compute. reflexivity. Qed.

Example raises_ex :
  ex_run (fun q v => match v with VArr l => Some (q, VArr l) | VPair _ _ => None end) = ([], 0, true).
Proof. vm_compute. reflexivity. Qed.

(** Two components with bounds 0 and 4: the third row of a batch is not scaled, although the
    observation [0; 4] on its own becomes [-1; 1]. *)
Example minmax_batch_ex : forall c sts, exists p, mm_init [Some (0, 4); Some (0, 4)]%R = Some p /\
  mm_call_batch c p sts [[0; 4]; [2; 2]; [0; 4]]%R = Some [[-1; 1]; [0; 0]; [0; 4]]%R /\
  fst (mm_call c p sts [0; 4]%R) = [-1; 1]%R.
Proof.
  intros c sts. eexists. split; [reflexivity|].
  unfold mm_call_batch, mm_call, mm_scale.
  cbn [mm_mask mm_run mm_mean mm_delta mm_indices filter seq nth bounded negb Nat.eqb length forallb Nat.ltb Nat.leb
       andb fold_left map combine fst snd setnth].
  split; repeat f_equal; lra.
Qed.

Print Assumptions vec_transitions_chain.
Print Assumptions vec_preprocess_twice_refuted.
Print Assumptions vec_preprocess_raises_refuted.
Print Assumptions vec_preprocess_updates_refuted.
Print Assumptions minmax_batch_rows_refuted.

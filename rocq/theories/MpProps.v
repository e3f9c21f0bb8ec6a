(** Theorems C46. *)
From Coq Require Import List Arith Lia Bool Reals Lra.
From Verif Require Import Common MpModel.
Import ListNotations.

Section Mp.
Variables E A I : Type.
Variable no_info : I.
Variable env_step : E -> A -> E * (list R * R * bool * I).
Variable env_reset : E -> init -> E * (list R * I).
Notation msg := (msg A).
Notation reply := (reply I).
Notation worker := (worker E A I).
Notation config := (config E A I).
Notation op := (op A).
Notation work := (work E A I env_step env_reset).
Notation step := (step E A I env_step env_reset).
Notation run := (run E A I env_step env_reset).

(** * Invariant of a call *)
Section Round.
Variables (n : nat) (ws : nat -> worker) (mask : nat -> bool) (req : nat -> msg).
Hypothesis Q : quiet E A I n ws.

Definition done_env (i : nat) : E := fst (work (w_env E A I (ws i)) (req i)).
Definition done_rep (i : nat) : reply := snd (work (w_env E A I (ws i)) (req i)).

Definition ok_worker (c : config) (i : nat) : Prop :=
  let w := workers E A I c i in
  if mask i then
    (In (Send A i (req i)) (todo E A I c) /\ In (Recv A i) (todo E A I c) /\ w_in E A I w = [] /\ w_out E A I w = [] /\ w_env E A I w = w_env E A I (ws i)) \/
    (~ In (Send A i (req i)) (todo E A I c) /\ In (Recv A i) (todo E A I c) /\
       ((w_in E A I w = [req i] /\ w_out E A I w = [] /\ w_env E A I w = w_env E A I (ws i)) \/
        (w_in E A I w = [] /\ w_out E A I w = [done_rep i] /\ w_env E A I w = done_env i))) \/
    (~ In (Send A i (req i)) (todo E A I c) /\ ~ In (Recv A i) (todo E A I c) /\ w_in E A I w = [] /\ w_out E A I w = [] /\ w_env E A I w = done_env i /\ got E A I c i = Some (done_rep i))
  else w_in E A I w = [] /\ w_out E A I w = [] /\ w_env E A I w = w_env E A I (ws i).

Definition op_ok (o : op) : Prop := match o with Send _ i m => i < n /\ mask i = true /\ m = req i | Recv _ i => i < n /\ mask i = true end.
Definition inv (c : config) : Prop :=
  (forall i, i < n -> ok_worker c i) /\ NoDup (todo E A I c) /\ Forall op_ok (todo E A I c) /\
  exists s r, todo E A I c = map (fun i => Send A i (req i)) s ++ map (Recv A) r.

Lemma inv_start : inv (start E A I ws (round_ops A n mask req)).
Proof.
  assert (MK : forall i, In i (masked n mask) <-> i < n /\ mask i = true) by (intros i; unfold masked; rewrite filter_In, in_seq; intuition lia).
  unfold inv, start. cbn [todo workers got]. split; [|split; [|split]].
  - intros i Hi. unfold ok_worker. cbn [todo workers got]. destruct (Q i Hi) as [A1 A2]. destruct (mask i) eqn:M; [|auto].
    left. split; [|split; [|auto]]; unfold round_ops; apply in_or_app.
    + left. apply (in_map (fun i => Send A i (req i))). apply MK. auto.
    + right. apply in_map. apply MK. auto.
  - unfold round_ops. assert (ND : NoDup (masked n mask)) by (apply NoDup_filter, seq_NoDup).
    revert ND. generalize (masked n mask) as l. intros l ND.
    assert (G : forall s r, NoDup s -> NoDup r -> NoDup (map (fun i => Send A i (req i)) s ++ map (Recv A) r)).
    { induction s as [|x s IH]; intros r N1 N2; simpl.
      - clear N1. induction r; simpl; constructor; inversion N2; subst; auto. intros H. apply in_map_iff in H. destruct H as (y & H & Hy). inversion H; subst. contradiction.
      - inversion N1; subst. constructor; auto. intros H. apply in_app_or in H. destruct H as [H|H]; apply in_map_iff in H; destruct H as (y & H & Hy); inversion H; subst. contradiction. }
    auto.
  - unfold round_ops. apply Forall_app. split; apply Forall_forall; intros o Ho; apply in_map_iff in Ho; destruct Ho as (i & <- & Hi); apply MK in Hi; simpl; tauto.
  - exists (masked n mask), (masked n mask). reflexivity.
Qed.

Lemma inv_step : forall c c', inv c -> step n c c' -> inv c'.
Proof.
  intros c c' (W & ND & F & s & r & SH) ST. inversion ST as [c0 i m rest w T Ew E1 E2|c0 i rest rp out w T Ew Eo E1 E2|c0 i m inb e' rp w Hi Ew Ei Ewk E1 E2]; subst c0 c'.
  - (* send *)
    rewrite T in ND, F. inversion ND as [|? ? N1 N2]; subst. inversion F as [|? ? OK F2]; destruct OK as (Oi & Om & Or); subst.
    unfold inv. cbn [todo workers got]. split; [|split; [auto|split; [auto|]]].
    + intros k Hk. specialize (W k Hk). unfold ok_worker in *. cbn [todo workers got]. unfold upd_w. rewrite T in W.
      destruct (Nat.eqb_spec k i) as [->|NE]; cbn [w_in w_out w_env].
      * rewrite Om in *. right. left. destruct W as [(A1 & A2 & A3 & A4 & A5)|[(A1 & _)|(A1 & _)]].
        -- split; [auto|]. split; [destruct A2 as [A2|A2]; [discriminate|auto]|]. left. rewrite A3, A4, A5. auto.
        -- exfalso. apply A1. left. auto.
        -- exfalso. apply A1. left. auto.
      * assert (X : forall o, (o = Send A k (req k) \/ o = Recv A k) -> (In o (Send A i (req i) :: rest) <-> In o rest)).
        { intros o Ho. simpl. split; [intros [D|D]; auto|auto]. subst o. destruct Ho as [Ho|Ho]; inversion Ho; congruence. }
        destruct (mask k); auto. rewrite !X in W by auto. exact W.
    + destruct s as [|x s]; simpl in SH; rewrite T in SH.
      * destruct r; simpl in SH; discriminate.
      * inversion SH; subst. exists s, r. reflexivity.
  - (* receive *)
    rewrite T in ND, F. inversion ND as [|? ? N1 N2]; subst. inversion F as [|? ? OK F2]; destruct OK as (Oi & Om); subst.
    assert (S0 : s = []). { destruct s; auto. rewrite T in SH. discriminate. } subst s. simpl in SH.
    assert (NS : forall k m, ~ In (Send A k m) rest).
    { intros k m H. assert (H2 : In (Send A k m) (todo E A I c)) by (rewrite T; right; auto). rewrite SH in H2. apply in_map_iff in H2. destruct H2 as (y & H2 & _). discriminate. }
    unfold inv. cbn [todo workers got]. split; [|split; [auto|split; [auto|]]].
    + intros k Hk. specialize (W k Hk). unfold ok_worker in *. cbn [todo workers got]. unfold upd_w. rewrite T in W.
      destruct (Nat.eqb_spec k i) as [->|NE]; cbn [w_in w_out w_env].
      * rewrite Om in *. right. right. destruct W as [(A1 & A2 & A3 & A4 & A5)|[(A1 & A2 & [(A3 & A4 & A5)|(A3 & A4 & A5)])|(A1 & A2 & _)]].
        -- rewrite Eo in A4. discriminate.
        -- rewrite Eo in A4. discriminate.
        -- rewrite Eo in A4. inversion A4; subst. rewrite A3, A5. repeat split; auto.
        -- exfalso. apply A2. left. auto.
      * assert (X : forall o, (o = Send A k (req k) \/ o = Recv A k) -> (In o (Recv A i :: rest) <-> In o rest)).
        { intros o Ho. simpl. split; [intros [D|D]; auto|auto]. subst o. destruct Ho as [Ho|Ho]; inversion Ho; congruence. }
        destruct (mask k); auto. rewrite !X in W by auto. exact W.
    + destruct r as [|x r]; simpl in SH; rewrite T in SH; inversion SH; subst. exists [], r. reflexivity.
  - (* worker *)
    unfold inv. cbn [todo workers got]. split; [|split; [auto|split; [auto|exists s, r; auto]]].
    intros k Hk. specialize (W k Hk). unfold ok_worker in *. cbn [todo workers got]. unfold upd_w.
    destruct (Nat.eqb_spec k i) as [->|NE]; cbn [w_in w_out w_env]; auto. subst w.
    destruct (mask i).
    + destruct W as [(A1 & A2 & A3 & A4 & A5)|[(A1 & A2 & [(A3 & A4 & A5)|(A3 & A4 & A5)])|(A1 & A2 & A3 & _)]]; rewrite A3 in Ei; try discriminate.
      inversion Ei; subst. rewrite A5 in Ewk. right. left. split; auto. split; auto. right. rewrite A4. unfold done_rep, done_env. rewrite Ewk. auto.
    + destruct W as (A3 & _). rewrite A3 in Ei. discriminate.
Qed.

Lemma inv_run : forall c c', run n c c' -> inv c -> inv c'.
Proof. induction 1; auto. intros. apply IHrun. eapply inv_step; eauto. Qed.

(** A call that has returned: the right reply in every slot, environments updated exactly
    where masked in, nothing left in the channels. *)
Theorem call_result : forall c, run n (start E A I ws (round_ops A n mask req)) c -> todo E A I c = [] ->
  quiet E A I n (workers E A I c) /\
  forall i, i < n -> (mask i = true -> got E A I c i = Some (done_rep i) /\ w_env E A I (workers E A I c i) = done_env i) /\
    (mask i = false -> w_env E A I (workers E A I c i) = w_env E A I (ws i)).
Proof.
  intros c R T. pose proof (inv_run _ _ R inv_start) as (W & _). split.
  - intros i Hi. specialize (W i Hi). unfold ok_worker in W. rewrite T in W. destruct (mask i).
    + destruct W as [(A1 & _)|[(_ & A2 & _)|(_ & _ & A3 & A4 & _)]]; [destruct A1|destruct A2|auto].
    + tauto.
  - intros i Hi. specialize (W i Hi). unfold ok_worker in W. rewrite T in W. split; intros M; rewrite M in W.
    + destruct W as [(A1 & _)|[(_ & A2 & _)|(_ & _ & A3 & A4 & A5 & A6)]]; [destruct A1|destruct A2|auto].
    + tauto.
Qed.

(** No deadlock: until the call has returned and every worker is idle, some process can move. *)
Theorem call_progress : forall c, run n (start E A I ws (round_ops A n mask req)) c -> todo E A I c <> [] -> exists c', step n c c'.
Proof.
  intros c R NE. pose proof (inv_run _ _ R inv_start) as (W & ND & F & s & r & SH).
  destruct (todo E A I c) as [|[i m|i] rest] eqn:T; [congruence| |].
  - eexists. eapply step_send; eauto.
  - inversion F as [|? ? OK F2]; destruct OK as (Hi & M); subst. specialize (W i Hi). unfold ok_worker in W. rewrite M, T in W.
    destruct W as [(A1 & A2 & A3 & A4 & A5)|[(A1 & A2 & [(A3 & A4 & A5)|(A3 & A4 & A5)])|(A1 & A2 & _)]].
    + exfalso. destruct s as [|x s]; simpl in SH; [|inversion SH]. rewrite SH in A1. apply in_map_iff in A1. destruct A1 as (y & D & _). discriminate.
    + destruct (work (w_env E A I (workers E A I c i)) (req i)) as [e' rp] eqn:Wk. eexists. eapply step_work; eauto.
    + eexists. eapply step_recv; eauto.
    + exfalso. apply A2. left. auto.
Qed.

(** Every call returns: the number of moves is bounded, whatever the schedule. *)
Definition pending (c : config) : nat := length (concat (map (fun i => w_in E A I (workers E A I c i)) (seq 0 n))).
Definition sends (c : config) : nat := length (filter (fun o => match o with Send _ _ _ => true | Recv _ _ => false end) (todo E A I c)).
Definition measure (c : config) : nat := length (todo E A I c) + sends c + pending c.

Lemma pending_upd : forall (f : nat -> worker) i w, i < n ->
  length (concat (map (fun k => w_in E A I (upd_w f i w k)) (seq 0 n))) + length (w_in E A I (f i)) =
  length (concat (map (fun k => w_in E A I (f k)) (seq 0 n))) + length (w_in E A I w).
Proof.
  intros f i w Hi.
  assert (G : forall m a, (a <= i < a + m -> length (concat (map (fun k => w_in E A I (upd_w f i w k)) (seq a m))) + length (w_in E A I (f i)) =
     length (concat (map (fun k => w_in E A I (f k)) (seq a m))) + length (w_in E A I w)) /\
     (~ a <= i < a + m -> concat (map (fun k => w_in E A I (upd_w f i w k)) (seq a m)) = concat (map (fun k => w_in E A I (f k)) (seq a m)))).
  { induction m as [|m IH]; intros a; simpl; [split; [lia|auto]|]. destruct (IH (S a)) as [P1 P2]. unfold upd_w at 1 3. split.
    - intros H. rewrite !app_length. destruct (Nat.eqb_spec a i) as [->|NE]; [rewrite P2 by lia; lia|]. assert (S a <= i < S a + m) by lia. specialize (P1 H0). lia.
    - intros H. destruct (Nat.eqb_spec a i); [lia|]. rewrite P2 by lia. reflexivity. }
  apply G. lia.
Qed.

Theorem call_terminates : forall c c', run n (start E A I ws (round_ops A n mask req)) c -> step n c c' -> measure c' < measure c.
Proof.
  intros c c' R ST. pose proof (inv_run _ _ R inv_start) as (W & ND & F & _).
  inversion ST as [c0 i m rest w T Ew E1 E2|c0 i rest rp out w T Ew Eo E1 E2|c0 i m inb e' rp w Hi Ew Ei Ewk E1 E2]; subst c0 c'; unfold measure, sends, pending; cbn [todo workers].
  - rewrite T in *. inversion F as [|? ? OK F2]; destruct OK as (Oi & _); subst. simpl.
    pose proof (pending_upd (workers E A I c) i {| w_in := w_in E A I (workers E A I c i) ++ [m]; w_env := w_env E A I (workers E A I c i); w_out := w_out E A I (workers E A I c i) |} Oi) as P.
    cbn [w_in] in P. rewrite app_length in P. simpl in P. lia.
  - rewrite T in *. inversion F as [|? ? OK F2]; destruct OK as (Oi & _); subst. simpl.
    pose proof (pending_upd (workers E A I c) i {| w_in := w_in E A I (workers E A I c i); w_env := w_env E A I (workers E A I c i); w_out := out |} Oi) as P.
    cbn [w_in] in P. lia.
  - subst w. pose proof (pending_upd (workers E A I c) i {| w_in := inb; w_env := e'; w_out := w_out E A I (workers E A I c i) ++ [rp] |} Hi) as P.
    cbn [w_in] in P. rewrite Ei in P. simpl in P. lia.
Qed.
End Round.

(** * C46 *)

(** step_all: row by row, for every schedule. *)
Theorem step_all_rows : forall n ws mask (act : nat -> A) states garbage c, quiet E A I n ws ->
  run n (start E A I ws (round_ops A n mask (fun i => MStep A (act i)))) c -> todo E A I c = [] ->
  quiet E A I n (workers E A I c) /\ forall i, i < n ->
    let '(e', (s, r, ab, inf)) := env_step (w_env E A I (ws i)) (act i) in
    (mask i = true -> w_env E A I (workers E A I c i) = e' /\ out_state I mask (got E A I c) states i = s /\
       out_reward I mask (got E A I c) garbage i = r /\ out_absorbing I mask (got E A I c) i = ab /\ out_info I no_info mask (got E A I c) i = inf) /\
    (mask i = false -> w_env E A I (workers E A I c i) = w_env E A I (ws i) /\ out_state I mask (got E A I c) states i = states i /\
       out_absorbing I mask (got E A I c) i = false /\ out_info I no_info mask (got E A I c) i = no_info).
Proof.
  intros n ws mask act states garbage c Q R T. destruct (call_result n ws mask _ Q c R T) as [Q' H]. split; auto. intros i Hi.
  destruct (H i Hi) as [H1 H2]. unfold done_rep, done_env in H1. cbn [work] in H1. unfold MpModel.work in H1.
  destruct (env_step (w_env E A I (ws i)) (act i)) as [e' [[[s r] ab] inf]]. cbn [fst snd] in H1.
  unfold out_state, out_reward, out_absorbing, out_info. split; intros M; rewrite M.
  - destruct (H1 M) as [-> ->]. auto.
  - split; [apply H2; auto|auto].
Qed.

(** reset_all: the same, except for what the environments are reset to. *)
Theorem reset_all_rows : forall n ws mask st states c, quiet E A I n ws ->
  run n (start E A I ws (round_ops A n mask (reset_req A st))) c -> todo E A I c = [] ->
  quiet E A I n (workers E A I c) /\ forall i, i < n ->
    let arg := match st with Some f => IScalar (nth 0 (f i) 0%R) | None => INone end in
    let '(e', (s, inf)) := env_reset (w_env E A I (ws i)) arg in
    (mask i = true -> w_env E A I (workers E A I c i) = e' /\ out_state I mask (got E A I c) states i = s /\ out_info I no_info mask (got E A I c) i = inf) /\
    (mask i = false -> w_env E A I (workers E A I c i) = w_env E A I (ws i) /\ out_state I mask (got E A I c) states i = states i /\ out_info I no_info mask (got E A I c) i = no_info).
Proof.
  intros n ws mask st states c Q R T. destruct (call_result n ws mask _ Q c R T) as [Q' H]. split; auto. intros i Hi.
  destruct (H i Hi) as [H1 H2]. unfold done_rep, done_env, reset_req, MpModel.work in H1. cbv zeta.
  destruct st as [f|]; cbn in H1; cbv beta iota.
  - destruct (env_reset (w_env E A I (ws i)) (IScalar (nth 0 (f i) 0%R))) as [e' [s inf]]. cbn [fst snd] in H1.
    unfold out_state, out_info. split; intros M; rewrite M; [destruct (H1 M) as [-> ->]; auto|split; [apply H2; auto|auto]].
  - destruct (env_reset (w_env E A I (ws i)) INone) as [e' [s inf]]. cbn [fst snd] in H1.
    unfold out_state, out_info. split; intros M; rewrite M; [destruct (H1 M) as [-> ->]; auto|split; [apply H2; auto|auto]].
Qed.

(** Any sequence of calls: each environment sees exactly the requests of the calls where it
    was masked in, in order, and the stored state is the last answer (or the initial row). *)
Fixpoint alone (e : E) (s : list R) (calls : list ((nat -> bool) * (nat -> msg))) (i : nat) : E * list R :=
  match calls with
  | [] => (e, s)
  | (mask, req) :: calls' =>
      if mask i then let '(e', r) := work e (req i) in alone e' (state_of I r) calls' i else alone e s calls' i
  end.
Theorem session_sequential : forall n ws st calls ws2 st2, quiet E A I n ws -> session E A I env_step env_reset n ws st calls ws2 st2 ->
  quiet E A I n ws2 /\ forall i, i < n -> alone (w_env E A I (ws i)) (st i) calls i = (w_env E A I (ws2 i), st2 i).
Proof.
  intros n ws st calls ws2 st2 Q S. induction S as [ws st|ws st mask req calls c ws2 st2 R T S IH]; [auto|].
  destruct (call_result n ws mask req Q c R T) as [Q' H]. destruct (IH Q') as [Q2 H2]. split; auto. intros i Hi.
  rewrite <- (H2 i Hi). cbn [alone]. destruct (H i Hi) as [H3 H4]. unfold out_state. unfold done_env, done_rep in H3. destruct (mask i).
  - destruct (work (w_env E A I (ws i)) (req i)) as [e' r]. destruct (H3 eq_refl) as [-> ->]. reflexivity.
  - rewrite H4 by auto. reflexivity.
Qed.
End Mp.

(** The initial states passed to reset_all do not reach the environments: with an environment
    that adopts the array it is given, the returned row is not the requested one. *)
Definition adopt (e : unit) (x : init) : unit * (list R * unit) := (tt, (match x with IArr v => v | IScalar v => [v] | INone => [] end, tt)).
Theorem reset_all_initial_states_refuted : exists c, run unit unit unit (fun e _ => (e, ([], 0%R, false, tt))) adopt 1
    (start unit unit unit (fun _ => {| w_in := []; w_env := tt; w_out := [] |}) (round_ops unit 1 (fun _ => true) (reset_req unit (Some (fun _ => [1; 2]%R))))) c /\
  todo _ _ _ c = [] /\ out_state unit (fun _ => true) (got _ _ _ c) (fun _ => []) 0 = [1]%R /\ fst (snd (adopt tt (IArr [1; 2]%R))) = [1; 2]%R.
Proof.
  eexists. split; [|split; [|split]].
  - eapply run_step. { eapply step_send; reflexivity. }
    eapply run_step. { eapply (step_work _ _ _ _ _ 1 _ 0); [lia|reflexivity|reflexivity|reflexivity]. }
    eapply run_step. { eapply step_recv; reflexivity. }
    apply run_refl.
  - reflexivity.
  - reflexivity.
  - reflexivity.
Qed.

(** * Concrete case: two workers, the second one faster than the first. *)
Definition cnt_step (e : nat) (a : nat) : nat * (list R * R * bool * unit) := (e + a, ([INR (e + a)], 0%R, false, tt)).
Definition cnt_reset (e : nat) (x : init) : nat * (list R * unit) := (0, ([0%R], tt)).
Example overtaking_demo : exists c, run nat nat unit cnt_step cnt_reset 2
    (start nat nat unit (fun i => {| w_in := []; w_env := 10 * i; w_out := [] |}) (round_ops nat 2 (fun _ => true) (fun i => MStep nat (i + 1)))) c /\
  todo _ _ _ c = [] /\ out_state unit (fun _ => true) (got _ _ _ c) (fun _ => []) 0 = [INR 1] /\ out_state unit (fun _ => true) (got _ _ _ c) (fun _ => []) 1 = [INR 12].
Proof.
  eexists. split; [|split; [|split]].
  - eapply run_step. { eapply step_send; reflexivity. }
    eapply run_step. { eapply step_send; reflexivity. }
    eapply run_step. { eapply (step_work _ _ _ _ _ 2 _ 1); [lia|reflexivity|reflexivity|reflexivity]. }
    eapply run_step. { eapply (step_work _ _ _ _ _ 2 _ 0); [lia|reflexivity|reflexivity|reflexivity]. }
    eapply run_step. { eapply step_recv; reflexivity. }
    eapply run_step. { eapply step_recv; reflexivity. }
    apply run_refl.
  - reflexivity.
  - reflexivity.
  - reflexivity.
Qed.

Print Assumptions call_result.
Print Assumptions call_progress.
Print Assumptions call_terminates.
Print Assumptions step_all_rows.
Print Assumptions reset_all_rows.
Print Assumptions session_sequential.
Print Assumptions reset_all_initial_states_refuted.

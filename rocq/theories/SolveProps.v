(** C74 and C75: the Car-on-Hill solver and the numerical gradients. *)
From Coq Require Import List Arith Lia Reals Lra Bool ZArith.
From Verif Require Import Common EnvModel SolveModel.
Import ListNotations.
Local Open Scope R_scope.

(** * C74 *)
Section Spec.
Variable ode : pt -> R -> pt.

(** Executions: the state before step [n] and the reward of step [n] when the actions [u] are
    played from [s] (independent of the search). *)
Fixpoint state_at (s : pt) (u : nat -> nat) (n : nat) : pt :=
  match n with O => s | S n' => fst (fst (coh_step ode (state_at s u n') (u n'))) end.
Definition reward_at (s : pt) (u : nat -> nat) (n : nat) : R := snd (fst (coh_step ode (state_at s u n) (u n))).

(** The two actions, the first one is [a] *)
Definition plan (a : nat) (u : nat -> nat) : Prop := u O = a /\ forall n, (1 <= n)%nat -> (u n < 2)%nat.
Definition alive (s : pt) (u : nat -> nat) (n : nat) : Prop := forall i, (i < n)%nat -> reward_at s u i = 0.
(** the episode ends at step [j] with reward [r] *)
Definition ends (s : pt) (u : nat -> nat) (j : nat) (r : R) : Prop := alive s u j /\ reward_at s u j = r /\ r <> 0.
(** the discounted return of the episode *)
Definition returns (g : R) (s : pt) (u : nat -> nat) (v : R) : Prop :=
  (exists j r, ends s u j r /\ v = g ^ j * r) \/ ((forall j, reward_at s u j = 0) /\ v = 0).
End Spec.

Lemma coh_reward : forall ode s a, let r := snd (fst (coh_step ode s a)) in r = 1 \/ r = -1 \/ r = 0.
Proof.
  intros. unfold r, coh_step. destruct (Rlt_dec _ _); simpl; auto. destruct (Rlt_dec _ _); simpl; auto.
  destruct (Rlt_dec _ _); simpl; auto.
Qed.

Definition upd_at (u : nat -> nat) (n x : nat) : nat -> nat := fun i => if Nat.eqb i n then x else u i.

Lemma state_ext : forall ode s u v n, (forall i, (i < n)%nat -> u i = v i) -> state_at ode s u n = state_at ode s v n.
Proof.
  induction n; simpl; intros H; auto. rewrite IHn by (intros; apply H; lia). rewrite (H n) by lia. reflexivity.
Qed.
Lemma reward_ext : forall ode s u v n, (forall i, (i <= n)%nat -> u i = v i) -> reward_at ode s u n = reward_at ode s v n.
Proof.
  intros. unfold reward_at. rewrite (state_ext ode s u v n) by (intros; apply H; lia). rewrite (H n) by lia. reflexivity.
Qed.
Lemma upd_same : forall u n x, upd_at u n x n = x.
Proof. intros. unfold upd_at. rewrite Nat.eqb_refl. reflexivity. Qed.
Lemma upd_other : forall u n x i, i <> n -> upd_at u n x i = u i.
Proof. intros. unfold upd_at. destruct (Nat.eqb_spec i n); congruence. Qed.
Lemma alive_upd : forall ode s u n x, alive ode s u n -> alive ode s (upd_at u n x) n.
Proof.
  intros ode s u n x H i Hi. rewrite (reward_ext ode s (upd_at u n x) u i); auto.
  intros j Hj. apply upd_other. lia.
Qed.
Lemma plan_upd : forall a u n x, plan a u -> (1 <= n)%nat -> (x < 2)%nat -> plan a (upd_at u n x).
Proof.
  intros a u n x [P0 P1] Hn Hx. split.
  - rewrite upd_other by lia. auto.
  - intros m Hm. unfold upd_at. destruct (Nat.eqb_spec m n); auto.
Qed.

(** The frontier at depth [n + 1] *)
Definition frontier_spec (ode : pt -> R -> pt) (s : pt) (a n : nat) (F : list pt) : Prop :=
  forall f, In f F <-> exists u, plan a u /\ alive ode s u n /\ state_at ode s u n = f.

Lemma car_step_spec : forall ode f a, car_step ode f a = (fst (fst (coh_step ode f a)), snd (fst (coh_step ode f a))).
Proof. intros. unfold car_step. destruct (coh_step ode f a) as [[? ?] ?]. reflexivity. Qed.

Lemma expand_None : forall ode F, expand ode F = None <->
  exists f b, In f F /\ (b < 2)%nat /\ snd (fst (coh_step ode f b)) = 1.
Proof.
  induction F as [|f F IH]; simpl.
  - split; [discriminate|]. intros (f & b & [] & _).
  - rewrite !car_step_spec.
    destruct (Req_EM_T _ 1) as [E0|E0].
    { split; auto. intros _. exists f, 0%nat. repeat split; auto. }
    destruct (Req_EM_T _ 1) as [E1|E1].
    { split; auto. intros _. exists f, 1%nat. repeat split; auto. }
    assert (X : match expand ode F with None => True | Some _ => False end <-> exists f' b, In f' (f :: F) /\ (b < 2)%nat /\ snd (fst (coh_step ode f' b)) = 1).
    { split.
      - destruct (expand ode F) eqn:EF; [intros []|intros _]. destruct (proj1 IH eq_refl) as (f' & b & I & B & E).
        exists f', b. simpl. auto.
      - intros (f' & b & [-> | I] & B & E).
        + destruct b as [|[|b]]; [contradiction|contradiction|lia].
        + assert (N : expand ode F = None) by (apply IH; eauto). rewrite N. exact Logic.I. }
    rewrite <- X. destruct (expand ode F); split; intros H; auto; try discriminate; try contradiction.
Qed.

Lemma expand_Some : forall ode F L, expand ode F = Some L ->
  forall g, In g L <-> exists f b, In f F /\ (b < 2)%nat /\ snd (fst (coh_step ode f b)) = 0 /\ fst (fst (coh_step ode f b)) = g.
Proof.
  induction F as [|f F IH]; simpl; intros L H g.
  - inversion H. simpl. split; [intros []|intros (f & b & [] & _)].
  - rewrite !car_step_spec in H.
    destruct (Req_EM_T _ 1) as [E0|E0]; [discriminate|]. destruct (Req_EM_T _ 1) as [E1|E1]; [discriminate|].
    destruct (expand ode F) as [L'|]; [|discriminate]. inversion H as [HL]. clear H HL.
    rewrite !in_app_iff, (IH L' eq_refl g). split.
    + intros [H|[H|(f' & b & I & B & Z & G)]].
      * destruct (Req_EM_T _ 0) as [Z|Z]; [|destruct H]. destruct H as [<-|[]]. exists f, 0%nat. auto.
      * destruct (Req_EM_T (snd (fst (coh_step ode f 1))) 0) as [Z|Z]; [|destruct H]. destruct H as [<-|[]]. exists f, 1%nat. auto.
      * exists f', b. auto.
    + intros (f' & b & [<-|I] & B & Z & G).
      * destruct b as [|[|b]]; [left|right; left|lia]; (destruct (Req_EM_T _ 0); [left; auto|contradiction]).
      * right; right. exists f', b. auto.
Qed.

Lemma frontier_step : forall ode s a n F L, (1 <= n)%nat -> frontier_spec ode s a n F -> expand ode F = Some L ->
  frontier_spec ode s a (S n) L.
Proof.
  intros ode s a n F L Hn HF HE g. rewrite (expand_Some ode F L HE g). split.
  - intros (f & b & I & B & Z & G). apply HF in I. destruct I as (u & Pu & Au & Su).
    exists (upd_at u n b). split; [apply plan_upd; auto|].
    assert (S' : state_at ode s (upd_at u n b) n = f) by (rewrite <- Su; apply state_ext; intros; apply upd_other; lia).
    split.
    + intros i Hi. destruct (Nat.eq_dec i n) as [->|Hne].
      * unfold reward_at. rewrite S', upd_same. auto.
      * apply alive_upd; auto. lia.
    + simpl. rewrite S', upd_same. auto.
  - intros (u & Pu & Au & Su). exists (state_at ode s u n), (u n).
    split; [apply HF; exists u; repeat split; try apply Pu; auto; intros i Hi; apply Au; lia|].
    split; [apply Pu; lia|]. split; [apply (Au n); lia|exact Su].
Qed.

(** What the search has established when it ends *)
Definition found (ode : pt -> R -> pt) (s : pt) (a k : nat) : Prop :=
  (exists u, plan a u /\ ends ode s u (k - 1) 1) /\ (forall u j, plan a u -> ends ode s u j 1 -> (k - 1 <= j)%nat).
Definition none_before (ode : pt -> R -> pt) (s : pt) (a n : nat) : Prop :=
  forall u j, plan a u -> ends ode s u j 1 -> (n <= j)%nat.

Lemma bfs_spec : forall ode s a fuel F n max_k b k, (1 <= n)%nat -> frontier_spec ode s a n F -> none_before ode s a n ->
  bfs ode fuel F (S n) max_k = Some (b, k) ->
  (n < k)%nat /\
  (b = true -> found ode s a k /\ k <> max_k) /\
  (b = false -> none_before ode s a (k - 1) /\
     ((exists u, plan a u /\ alive ode s u (k - 1)) /\ k = max_k \/
      ((forall u, plan a u -> ~ alive ode s u (k - 1)) /\ ((k - 1 = n)%nat \/ exists u, plan a u /\ alive ode s u (k - 2))))).
Proof.
  intros ode s a. induction fuel as [|fuel IH]; intros F n max_k b k Hn HF HN H; destruct F as [|f F]; cbn [bfs] in H.
  1,3: inversion H; subst; split; [lia|]; split; [discriminate|]; intros _; replace (S n - 1)%nat with n by lia;
       split; auto; right; split; auto; intros u Pu Au; apply (proj2 (HF (state_at ode s u n))); exists u; auto.
  all: destruct (Nat.eqb_spec (S n) max_k) as [Ek|Ek].
  1,3: inversion H; subst; split; [lia|]; split; [discriminate|]; intros _; replace (S n - 1)%nat with n by lia;
       split; auto; left; split; auto; destruct (proj1 (HF f) (or_introl eq_refl)) as (u & Pu & Au & _); exists u; auto.
  all: destruct (expand ode (f :: F)) as [L|] eqn:EL; try discriminate.
  2: { assert (HF' := frontier_step ode s a n _ L Hn HF EL).
    assert (HN' : none_before ode s a (S n)).
    { intros u j Pu [Au [Ru Nz]]. destruct (Nat.eq_dec j n) as [->|]; [exfalso|specialize (HN u j Pu (conj Au (conj Ru Nz))); lia].
      assert (X : expand ode (f :: F) = None).
      { apply expand_None. exists (state_at ode s u n), (u n). split; [apply HF; exists u; auto|].
        split; [apply Pu; lia|exact Ru]. }
      congruence. }
    destruct (IH L (S n) max_k b k ltac:(lia) HF' HN' H) as (K & T & Fa). split; [lia|]. split; auto.
    intros Eb. destruct (Fa Eb) as (N & [A|[A B]]); split; auto. right. split; auto. right.
    destruct B as [B|B]; auto. replace (k - 2)%nat with n by lia.
    destruct (proj1 (HF f) (or_introl eq_refl)) as (u & Pu & Au & _). exists u; auto. }
  all: inversion H; subst; split; [lia|]; split; [intros _|discriminate].
  all: replace (S n - 1)%nat with n by lia; split; auto.
  all: unfold found; replace (S n - 1)%nat with n by lia; split; [|exact HN].
  all: apply expand_None in EL; destruct EL as (g & b & I & B & E); apply HF in I; destruct I as (u & Pu & Au & Su);
       exists (upd_at u n b); split; [apply plan_upd; auto|]; split; [apply alive_upd; auto|]; split; [|lra];
       unfold reward_at; rewrite upd_same, (state_ext ode s (upd_at u n b) u n), Su; auto; intros; apply upd_other; lia.
Qed.

Lemma bfs_total : forall ode fuel F k max_k, (k <= max_k)%nat -> (max_k <= k + fuel)%nat -> exists r, bfs ode fuel F k max_k = Some r.
Proof.
  intros ode. induction fuel as [|fuel IH]; intros [|f F] k max_k H1 H2; cbn [bfs]; eauto; destruct (Nat.eqb_spec k max_k); eauto; [lia|].
  destruct (expand ode (f :: F)); eauto. apply IH; lia.
Qed.

Lemma alive0 : forall ode s u, alive ode s u 0.
Proof. intros ode s u i Hi. lia. Qed.

Lemma plan_const : forall a, (a < 2)%nat -> exists u, plan a u.
Proof. intros a Ha. exists (fun _ => a). split; auto. Qed.

Lemma search_spec : forall ode fuel max_k s a b k, car_search ode fuel max_k s a = Some (b, k) -> (a < 2)%nat ->
  (1 <= k)%nat /\
  (b = true -> found ode s a k /\ ((2 <= max_k)%nat -> (k < max_k)%nat)) /\
  (b = false -> none_before ode s a (k - 1) /\
     ((k = 1%nat /\ forall u, plan a u -> ends ode s u 0 (-1)) \/
      ((2 <= k)%nat /\ k = max_k /\ exists u, plan a u /\ alive ode s u (k - 1)) \/
      ((3 <= k)%nat /\ (forall u, plan a u -> ~ alive ode s u (k - 1)) /\ exists u, plan a u /\ alive ode s u (k - 2)))).
Proof.
  intros ode fuel max_k s a b k H Ha. unfold car_search in H. rewrite car_step_spec in H.
  assert (R0 : forall u, plan a u -> reward_at ode s u 0 = snd (fst (coh_step ode s a))).
  { intros u [P0 _]. unfold reward_at. simpl. rewrite P0. reflexivity. }
  destruct (plan_const a Ha) as [u0 P0].
  destruct (Req_EM_T _ 1) as [E1|E1].
  { inversion H; subst. split; [lia|]. split; [intros _|discriminate]. split; [|lia].
    split; [|intros; lia]. exists u0. split; auto. split; [apply alive0|]. split; [rewrite R0 by auto; auto|lra]. }
  destruct (Req_EM_T _ (-1)) as [E2|E2].
  { inversion H; subst. split; [lia|]. split; [discriminate|intros _]. split; [intros u j _ _; lia|]. left. split; auto.
    intros u Pu. split; [apply alive0|]. split; [rewrite R0 by auto; auto|lra]. }
  assert (E0 : snd (fst (coh_step ode s a)) = 0) by (destruct (coh_reward ode s a) as [X|[X|X]]; auto; contradiction).
  assert (HF : frontier_spec ode s a 1 [fst (fst (coh_step ode s a))]).
  { intros f. split.
    - intros [<-|[]]. exists u0. split; auto. split.
      + intros i Hi. replace i with 0%nat by lia. rewrite R0; auto.
      + simpl. rewrite (proj1 P0). reflexivity.
    - intros (u & Pu & _ & Su). left. rewrite <- Su. simpl. rewrite (proj1 Pu). reflexivity. }
  assert (HN : none_before ode s a 1).
  { intros u j Pu (Au & Ru & Nz). destruct j; [|lia]. rewrite R0 in Ru by auto. lra. }
  destruct (bfs_spec ode s a fuel _ 1 max_k b k (le_n 1) HF HN H) as (K & T & Fa). split; [lia|]. split.
  - intros Eb. destruct (T Eb) as [Fo Ne]. split; auto. intros Hm.
    assert (KM : forall fuel F k0 r, (k0 <= max_k)%nat -> bfs ode fuel F k0 max_k = Some (true, r) -> (r < max_k)%nat).
    { clear. induction fuel as [|fuel IH]; intros [|f F] k0 r Hk H; cbn [bfs] in H; try discriminate;
        destruct (Nat.eqb_spec k0 max_k); try discriminate; destruct (expand ode (f :: F)); try discriminate.
      - inversion H; subst. lia.
      - apply IH in H; auto. lia.
      - inversion H; subst. lia. }
    subst b. apply (KM _ _ _ _ Hm H).
  - intros Eb. destruct (Fa Eb) as [N [[A B]|[A B]]]; split; auto.
    right; right. assert (A1 : exists u, plan a u /\ alive ode s u 1).
      { exists u0. split; auto. intros i Hi. replace i with 0%nat by lia. rewrite R0; auto. }
      assert (k <> 2%nat) by (intros ->; destruct A1 as (u & Pu & Au); exact (A u Pu Au)).
      split; [lia|]. split; auto. destruct B as [B|B]; auto. lia.
Qed.

Lemma ends_fun : forall ode s u j r j' r', ends ode s u j r -> ends ode s u j' r' -> j = j' /\ r = r'.
Proof.
  intros ode s u j r j' r' (A & B & C) (A' & B' & C'). destruct (lt_eq_lt_dec j j') as [[L|L]|L].
  - specialize (A' j L). lra.
  - subst. split; auto.
  - specialize (A j' L). lra.
Qed.

Lemma pow_le1 : forall g j k, 0 <= g <= 1 -> (k <= j)%nat -> g ^ j <= g ^ k.
Proof.
  intros g j k Hg H. induction H; [lra|]. simpl. assert (0 <= g ^ m) by (apply pow_le; lra). nra.
Qed.
Lemma pow_01 : forall g j, 0 <= g <= 1 -> 0 <= g ^ j.
Proof. intros. apply pow_le. lra. Qed.

Lemma ends_reward : forall ode s u j r, ends ode s u j r -> r = 1 \/ r = -1.
Proof.
  intros ode s u j r (_ & <- & N). unfold reward_at in *. destruct (coh_reward ode (state_at ode s u j) (u j)) as [X|[X|X]]; auto. contradiction.
Qed.

Lemma alive_or_ends : forall ode s u n, alive ode s u n \/ exists j r, (j < n)%nat /\ ends ode s u j r.
Proof.
  induction n.
  - left. apply alive0.
  - destruct IHn as [A|(j & r & L & E)]; [|right; exists j, r; split; auto].
    destruct (Req_EM_T (reward_at ode s u n) 0) as [Z|Z].
    + left. intros i Hi. destruct (Nat.eq_dec i n); [subst; auto|apply A; lia].
    + right. exists n, (reward_at ode s u n). split; [lia|]. split; auto.
Qed.

Lemma returns_le : forall ode g s a u v n, 0 <= g <= 1 -> plan a u -> none_before ode s a n -> returns ode g s u v -> v <= g ^ n.
Proof.
  intros ode g s a u v n Hg Pu N [(j & r & E & ->)|[_ ->]].
  - destruct (ends_reward _ _ _ _ _ E) as [-> | ->].
    + rewrite Rmult_1_r. apply pow_le1; auto. apply (N u j Pu E).
    + pose proof (pow_01 g j Hg). pose proof (pow_01 g n Hg). lra.
  - apply pow_01; auto.
Qed.

Lemma q_cases : forall ode g fuel max_k s a q, car_q ode g fuel max_k s a = Some q ->
  exists b k, car_search ode fuel max_k s a = Some (b, k) /\ q = (if b then g ^ (k - 1) else - g ^ (k - 1)).
Proof.
  intros ode g fuel max_k s a q H. unfold car_q in H. destruct (car_search ode fuel max_k s a) as [[[|] k]|]; inversion H; subst; eauto.
Qed.

(** A positive value is the largest discounted return that any sequence of actions starting
    with the given one can obtain, and some sequence obtains it. *)
Theorem car_solver_optimal : forall ode g fuel max_k s a q, 0 < g <= 1 -> (a < 2)%nat ->
  car_q ode g fuel max_k s a = Some q -> 0 < q ->
  (exists u, plan a u /\ returns ode g s u q) /\
  (forall u v, plan a u -> returns ode g s u v -> v <= q).
Proof.
  intros ode g fuel max_k s a q Hg Ha H Hq. destruct (q_cases _ _ _ _ _ _ _ H) as (b & k & Hs & ->).
  assert (G : 0 < g ^ (k - 1)) by (apply pow_lt; lra).
  destruct b; [|lra]. destruct (search_spec _ _ _ _ _ _ _ Hs Ha) as (K & T & _). destruct (T eq_refl) as [[(u & Pu & E) N] _]. split.
  - exists u. split; auto. left. exists (k - 1)%nat, 1. split; auto. lra.
  - intros u' v P' R'. apply (returns_le ode g s a u' v (k - 1)); auto. lra.
Qed.

(** A sequence of actions that reaches the hill top in fewer than [max_k] steps is found. *)
Theorem car_solver_complete : forall ode g fuel max_k s a q u j, 0 < g <= 1 -> (a < 2)%nat ->
  car_q ode g fuel max_k s a = Some q -> plan a u -> ends ode s u j 1 -> (j + 1 < max_k)%nat -> g ^ j <= q.
Proof.
  intros ode g fuel max_k s a q u j Hg Ha H Pu E Hj. destruct (q_cases _ _ _ _ _ _ _ H) as (b & k & Hs & ->).
  destruct (search_spec _ _ _ _ _ _ _ Hs Ha) as (K & T & Fa). destruct b.
  - destruct (T eq_refl) as [[_ N] _]. apply pow_le1; [lra|]. apply (N u j Pu E).
  - exfalso. destruct (Fa eq_refl) as [N [[-> A]|[(K2 & -> & _)|(K3 & A & _)]]].
    + destruct (ends_fun _ _ _ _ _ _ _ E (A u Pu)). lra.
    + specialize (N u j Pu E). lia.
    + specialize (N u j Pu E). destruct (alive_or_ends ode s u (k - 1)) as [X|(j' & r & L & E')]; [exact (A u Pu X)|].
      destruct (ends_fun _ _ _ _ _ _ _ E E'). lia.
Qed.

(** A negative value: either the first step already fails, or the search was cut off at depth
    [max_k] and the value is only a bound, or every sequence of actions fails, the best one with
    the return [q / g]. *)
Theorem car_solver_failure : forall ode g fuel max_k s a q, 0 < g <= 1 -> (a < 2)%nat ->
  car_q ode g fuel max_k s a = Some q -> q < 0 ->
  (q = -1 /\ forall u, plan a u -> returns ode g s u (-1)) \/
  (q = - g ^ (max_k - 1) /\ (forall u v, plan a u -> returns ode g s u v -> v <= - q) /\
   exists u, plan a u /\ forall v, returns ode g s u v -> q <= v) \/
  ((forall u, plan a u -> exists v, returns ode g s u v /\ v <= q / g) /\ exists u, plan a u /\ returns ode g s u (q / g)).
Proof.
  intros ode g fuel max_k s a q Hg Ha H Hq. destruct (q_cases _ _ _ _ _ _ _ H) as (b & k & Hs & ->).
  assert (G : 0 < g ^ (k - 1)) by (apply pow_lt; lra). destruct b; [lra|].
  destruct (search_spec _ _ _ _ _ _ _ Hs Ha) as (K & _ & Fa). destruct (Fa eq_refl) as [N [[-> A]|[(K2 & -> & u & Pu & Au)|(K3 & A & u & Pu & Au)]]].
  - left. split; [simpl; lra|]. intros u Pu. left. exists 0%nat, (-1). split; [apply A; auto|]. simpl. lra.
  - right; left. split; auto. split.
    + intros u' v P' R'. rewrite Ropp_involutive. apply (returns_le ode g s a u' v); auto. lra.
    + exists u. split; auto. intros v [(j & r & E & ->)|[_ ->]]; [|lra].
      assert (J : (max_k - 1 <= j)%nat).
      { destruct (le_lt_dec (max_k - 1) j); auto. exfalso. destruct E as (_ & R0 & Nz). specialize (Au j l). lra. }
      pose proof (pow_le1 g j (max_k - 1) ltac:(lra) J). pose proof (pow_01 g j ltac:(lra)).
      destruct (ends_reward _ _ _ _ _ E) as [-> | ->]; lra.
  - right; right.
    assert (Q : - g ^ (k - 1) / g = - g ^ (k - 2)).
    { replace (k - 1)%nat with (S (k - 2)) by lia. simpl. field. lra. }
    rewrite Q.
    assert (F : forall u', plan a u' -> exists j, (j <= k - 2)%nat /\ ends ode s u' j (-1)).
    { intros u' P'. destruct (alive_or_ends ode s u' (k - 1)) as [X|(j & r & L & E)]; [destruct (A u' P' X)|].
      exists j. split; [lia|]. destruct (ends_reward _ _ _ _ _ E) as [-> | ->]; auto.
      specialize (N u' j P' E). lia. }
    split.
    + intros u' P'. destruct (F u' P') as (j & J & E). exists (g ^ j * -1). split; [left; eauto|].
      pose proof (pow_le1 g (k - 2) j ltac:(lra) J). lra.
    + exists u. split; auto. destruct (F u Pu) as (j & J & E).
      assert (j = (k - 2)%nat).
      { destruct (Nat.eq_dec j (k - 2)); auto. destruct E as (_ & R0 & Nz). specialize (Au j ltac:(lia)). lra. }
      subst j. left. exists (k - 2)%nat, (-1). split; auto. lra.
Qed.

(** With [max_k] at least 2 the search ends. *)
Theorem car_solver_total : forall ode g max_k sas, (2 <= max_k)%nat ->
  exists qs, solve_car ode g max_k max_k sas = Some qs /\ Forall2 (fun sa q => car_q ode g max_k max_k (fst sa) (snd sa) = Some q) sas qs.
Proof.
  intros ode g max_k sas Hm. induction sas as [|[s a] sas (qs & IH & F)]; simpl.
  - exists []. split; auto.
  - assert (X : exists q, car_q ode g max_k max_k s a = Some q).
    { unfold car_q, car_search. rewrite car_step_spec. destruct (Req_EM_T _ 1); eauto. destruct (Req_EM_T _ (-1)); eauto.
      destruct (bfs_total ode max_k [fst (fst (coh_step ode s a))] 2 max_k Hm ltac:(lia)) as [[b k] ->]. destruct b; eauto. }
    destruct X as [q X]. rewrite X. cbn [obind]. rewrite IH. cbn [obind]. eexists; split; [reflexivity|]. constructor; auto.
Qed.

(** Refuted: "when every sequence of actions fails, the value is the best return".  After one
    harmless step the car always falls to the left: every sequence has the return -g, the
    solver answers -g^2. *)
Definition ode_fall (s : pt) (f : R) : pt := if Req_EM_T (fst s) 0 then (/ 2, 0) else (-2, 0).

Lemma fall0 : forall a, coh_step ode_fall (0, 0) a = ((/ 2, 0), 0, false).
Proof.
  intros. unfold coh_step, ode_fall. cbn [fst snd]. destruct (Req_EM_T 0 0); [|lra]. cbn [fst snd]. rewrite Rabs_R0.
  destruct (Rlt_dec (/ 2) (-1)); [lra|]. destruct (Rlt_dec 3 0); [lra|]. destruct (Rlt_dec 1 (/ 2)); [lra|]. reflexivity.
Qed.
Lemma fall1 : forall a, coh_step ode_fall (/ 2, 0) a = ((-2, 0), -1, true).
Proof.
  intros. unfold coh_step, ode_fall. cbn [fst snd]. destruct (Req_EM_T (/ 2) 0); [lra|]. cbn [fst snd].
  destruct (Rlt_dec (-2) (-1)); [reflexivity|lra].
Qed.

Lemma bfs_S : forall ode n f F k m, bfs ode (S n) (f :: F) k m =
  if Nat.eqb k m then Some (false, k) else match expand ode (f :: F) with None => Some (true, k) | Some new => bfs ode n new (S k) m end.
Proof. reflexivity. Qed.

Theorem car_solver_depth_refuted : forall g, 0 < g < 1 ->
  car_q ode_fall g 50 50 (0, 0) 0 = Some (- g ^ 2) /\
  (forall u, plan 0 u -> returns ode_fall g (0, 0) u (- g)) /\ - g < - g ^ 2.
Proof.
  intros g Hg. split; [|split].
  - unfold car_q, car_search, car_step. rewrite fall0. cbn [fst]. destruct (Req_EM_T 0 1); [lra|]. destruct (Req_EM_T 0 (-1)); [lra|].
    rewrite bfs_S. change (Nat.eqb 2 50) with false. cbv iota.
    assert (X : expand ode_fall (@cons pt (/ 2, 0) (@nil pt)) = Some (@nil pt)).
    { cbn [expand]. unfold car_step. rewrite !fall1. cbn [fst]. destruct (Req_EM_T (-1) 1); [lra|]. destruct (Req_EM_T (-1) 0); [lra|]. reflexivity. }
    rewrite X. reflexivity.
  - intros u [P0 P1]. left. exists 1%nat, (-1). split; [|simpl; lra].
    split; [|split; [|lra]].
    + intros i Hi. replace i with 0%nat by lia. unfold reward_at. simpl. rewrite fall0. reflexivity.
    + unfold reward_at. simpl. rewrite fall0. simpl. rewrite fall1. reflexivity.
  - simpl. nra.
Qed.

(** Refuted: "the search ends for every [max_k]".  The depth starts at 2 and is compared with
    [max_k] for equality: with [max_k] below 2 a car that never leaves the valley keeps the
    recursion going. *)
Definition ode_stay (s : pt) (f : R) : pt := (0, 0).

Theorem car_solver_bound_refuted : forall g fuel max_k s a, (max_k < 2)%nat -> car_q ode_stay g fuel max_k s a = None.
Proof.
  intros g fuel max_k s a Hm.
  assert (C : forall s a, coh_step ode_stay s a = ((0, 0), 0, false)).
  { intros. unfold coh_step, ode_stay. cbn [fst snd]. rewrite Rabs_R0.
    destruct (Rlt_dec 0 (-1)); [lra|]. destruct (Rlt_dec 3 0); [lra|]. destruct (Rlt_dec 1 0); [lra|]. reflexivity. }
  assert (E : forall F, F <> [] -> exists L, expand ode_stay F = Some L /\ L <> []).
  { induction F as [|f F IH]; intros N; [congruence|]. cbn [expand]. unfold car_step. rewrite !C. cbn [fst].
    destruct (Req_EM_T 0 1); [lra|]. destruct (Req_EM_T 0 0); [|lra].
    destruct F as [|f' F]; [cbn [expand]; eexists; split; [reflexivity|discriminate]|].
    destruct IH as (L & -> & _); [discriminate|]. eexists; split; [reflexivity|discriminate]. }
  assert (B : forall fuel F k, (2 <= k)%nat -> F <> [] -> bfs ode_stay fuel F k max_k = None).
  { clear - E Hm. induction fuel as [|fuel IH]; intros [|f F] k Hk N; try congruence; cbn [bfs];
      destruct (Nat.eqb_spec k max_k); try lia; destruct (E (f :: F) N) as (L & -> & NL); auto. }
  unfold car_q, car_search, car_step. rewrite C. cbn [fst]. destruct (Req_EM_T 0 1); [lra|]. destruct (Req_EM_T 0 (-1)); [lra|].
  rewrite B; auto. discriminate.
Qed.

(** Example: a car that needs two steps to the right. *)
Definition ode_climb (s : pt) (f : R) : pt := if Rlt_dec 0 f then (fst s + 1, 0) else s.
Example car_climb : car_q ode_climb (/ 2) 5 5 (- / 2, 0) 1 = Some (/ 2).
Proof.
  assert (A : coh_step ode_climb (- / 2, 0) 1 = ((- / 2 + 1, 0), 0, false)).
  { unfold coh_step, ode_climb. cbn [fst snd nth]. destruct (Rlt_dec 0 4); [|lra]. cbn [fst snd]. rewrite Rabs_R0.
    destruct (Rlt_dec (- / 2 + 1) (-1)); [lra|]. destruct (Rlt_dec 3 0); [lra|]. destruct (Rlt_dec 1 (- / 2 + 1)); [lra|]. reflexivity. }
  assert (B : coh_step ode_climb (- / 2 + 1, 0) 0 = ((- / 2 + 1, 0), 0, false)).
  { unfold coh_step, ode_climb. cbn [fst snd nth]. destruct (Rlt_dec 0 (-4)); [lra|]. cbn [fst snd]. rewrite Rabs_R0.
    destruct (Rlt_dec (- / 2 + 1) (-1)); [lra|]. destruct (Rlt_dec 3 0); [lra|]. destruct (Rlt_dec 1 (- / 2 + 1)); [lra|]. reflexivity. }
  assert (C : coh_step ode_climb (- / 2 + 1, 0) 1 = ((- / 2 + 1 + 1, 0), 1, true)).
  { unfold coh_step, ode_climb. cbn [fst snd nth]. destruct (Rlt_dec 0 4); [|lra]. cbn [fst snd]. rewrite Rabs_R0.
    destruct (Rlt_dec (- / 2 + 1 + 1) (-1)); [lra|]. destruct (Rlt_dec 3 0); [lra|]. destruct (Rlt_dec 1 (- / 2 + 1 + 1)); [|lra]. reflexivity. }
  unfold car_q, car_search, car_step. rewrite A. cbn [fst]. destruct (Req_EM_T 0 1); [lra|]. destruct (Req_EM_T 0 (-1)); [lra|].
  rewrite bfs_S. change (Nat.eqb 2 5) with false. cbv iota. cbn [expand]. unfold car_step. rewrite B, C. cbn [fst].
  destruct (Req_EM_T 0 1); [lra|]. destruct (Req_EM_T 1 1); [|lra]. simpl. f_equal. lra.
Qed.

(** * C75 *)

(** The reading of the specification: component [i] of the gradient is the central difference
    along coordinate [i] alone. *)
Definition shift (w : list R) (i : nat) (h : R) : list R := map (fun j => nth j w 0 + (if Nat.eqb j i then h else 0)) (seq 0 (length w)).
Definition central (f : list R -> R) (w : list R) (eps : R) (i : nat) : R := (f (shift w i eps) - f (shift w i (- eps))) / (2 * eps).

Lemma combine_unit : forall (op : R -> R -> R) w i e k,
  map (fun p => op (fst p) (snd p)) (combine w (map (fun j => if Nat.eqb j i then e else 0) (seq k (length w)))) =
  map (fun j => op (nth (j - k) w 0) (if Nat.eqb j i then e else 0)) (seq k (length w)).
Proof.
  induction w as [|x w IH]; intros; simpl; auto. f_equal; [rewrite Nat.sub_diag; reflexivity|].
  rewrite IH. apply map_ext_in. intros j Hj. apply in_seq in Hj. replace (j - k)%nat with (S (j - S k)) by lia. reflexivity.
Qed.
Lemma ladd_shift : forall w i e, ladd w (unit_at (length w) i e) = shift w i e.
Proof.
  intros. unfold ladd, unit_at, shift. rewrite (combine_unit Rplus). apply map_ext. intros j. rewrite Nat.sub_0_r. reflexivity.
Qed.
Lemma lsub_shift : forall w i e, lsub w (unit_at (length w) i e) = shift w i (- e).
Proof.
  intros. unfold lsub, unit_at, shift. rewrite (combine_unit Rminus). apply map_ext. intros j. rewrite Nat.sub_0_r.
  destruct (Nat.eqb j i); lra.
Qed.

Section Obj.
Context {P : Type}.
Variable getw : P -> list R.
Variable setw : P -> list R -> P.
Variable eval : P -> R.
(** the contract of get_weights and set_weights: setting overwrites, setting the own weights
    changes nothing *)
Definition lens : Prop := (forall p v w, setw (setw p v) w = setw p w) /\ (forall p, setw p (getw p) = p).

Lemma num_loop_spec : forall eps w p is, lens ->
  snd (num_loop setw eval eps w p is) = map (central (fun v => eval (setw p v)) w eps) is /\
  forall v, setw (fst (num_loop setw eval eps w p is)) v = setw p v.
Proof.
  intros eps w p is [L1 L2]. revert p. induction is as [|i is IH]; intros p; simpl; [split; auto|].
  set (p1 := setw p (lsub w (unit_at (length w) i eps))). set (p2 := setw p1 (ladd w (unit_at (length w) i eps))).
  destruct (num_loop setw eval eps w p2 is) as [p3 g] eqn:E. destruct (IH p2) as [A B]. rewrite E in A, B. simpl in *. split.
  - f_equal.
    + unfold central. rewrite <- ladd_shift, <- lsub_shift. unfold p2, p1. rewrite L1. reflexivity.
    + rewrite A. apply map_ext. intros j. unfold central, p2, p1. rewrite !L1. reflexivity.
  - intros v. rewrite B. unfold p2, p1. rewrite !L1. reflexivity.
Qed.
End Obj.

(** numerical_diff_policy and numerical_diff_dist leave the object as they found it and return
    the central differences of its value along every parameter. *)
Theorem numerical_diff_object : forall P (getw : P -> list R) setw (eval : P -> R) eps p p' g,
  lens getw setw -> num_diff getw setw eval eps p = (p', g) ->
  p' = p /\ length g = length (getw p) /\
  forall i, (i < length (getw p))%nat -> nth i g 0 = central (fun v => eval (setw p v)) (getw p) eps i.
Proof.
  intros P getw setw eval eps p p' g HL H. unfold num_diff in H. destruct (num_loop _ _ _ _ _ _) as [p3 g'] eqn:E.
  inversion H; subst. destruct (num_loop_spec getw setw eval eps (getw p) p (seq 0 (length (getw p))) HL) as [A B].
  rewrite E in A, B. cbn [fst snd] in *. subst g. destruct HL as [L1 L2]. split; [rewrite B; apply L2|].
  split; [rewrite map_length, seq_length; auto|]. intros i Hi.
  rewrite (nth_indep _ 0 (central (fun v => eval (setw p v)) (getw p) eps (length (getw p)))) by (rewrite map_length, seq_length; lia).
  rewrite (map_nth (central (fun v => eval (setw p v)) (getw p) eps) (seq 0 (length (getw p)))).
  destruct (Nat.eq_dec i (length (getw p))) as [->|]; [lia|].
  rewrite seq_nth by lia. reflexivity.
Qed.

(** numerical_diff_function with floating point parameters: the same central differences *)
Lemma num_fun_nth : forall eps f w i, (i < length w)%nat ->
  nth i (num_diff_function false eps f w) 0 = central f w eps i.
Proof.
  intros eps f w i Hi. unfold num_diff_function.
  rewrite (nth_indep _ 0 ((fun i => (f (ladd w (unit_at (length w) i eps)) - f (lsub w (unit_at (length w) i eps))) / (2 * eps)) (length w)))
    by (rewrite map_length, seq_length; lia).
  rewrite (map_nth (fun i => (f (ladd w (unit_at (length w) i eps)) - f (lsub w (unit_at (length w) i eps))) / (2 * eps))).
  rewrite seq_nth by lia. rewrite ladd_shift, lsub_shift. reflexivity.
Qed.

Lemma Rabs_bnd : forall x y, Rabs x <= y -> - y <= x <= y.
Proof. intros x y H. unfold Rabs in H. destruct (Rcase_abs x); lra. Qed.

Lemma grows : forall F F' e, 0 < e -> F 0 = 0 -> (forall t, 0 <= t <= e -> derivable_pt_lim F t (F' t)) ->
  (forall t, 0 <= t <= e -> 0 <= F' t) -> 0 <= F e.
Proof.
  intros F F' e He H0 HD HP. destruct (MVT_cor2 F F' 0 e He HD) as (c & E & C).
  assert (0 <= F' c) by (apply HP; lra). nra.
Qed.

Lemma deriv_mirror : forall f f' t, derivable_pt_lim f (- t) (f' (- t)) -> derivable_pt_lim (fun x => f (- x)) t (- f' (- t)).
Proof.
  intros f f' t H. replace (- f' (- t)) with (f' (- t) * -1) by ring.
  apply (derivable_pt_lim_comp (fun x => - x) f t (-1) (f' (- t))); auto.
  apply (derivable_pt_lim_opp id t 1). apply derivable_pt_lim_id.
Qed.

Lemma central_error : forall (f f1 f2 f3 : R -> R) M eps, 0 < eps ->
  (forall t, - eps <= t <= eps -> derivable_pt_lim f t (f1 t) /\ derivable_pt_lim f1 t (f2 t) /\ derivable_pt_lim f2 t (f3 t) /\ Rabs (f3 t) <= M) ->
  Rabs ((f eps - f (- eps)) / (2 * eps) - f1 0) <= M * eps ^ 2 / 6.
Proof.
  intros f f1 f2 f3 M eps He HD.
  assert (B2 : forall t, 0 <= t <= eps -> Rabs (f2 t - f2 (- t)) <= 2 * t * M).
  { intros t Ht. destruct (Req_dec t 0) as [->|Nt]; [rewrite Ropp_0, Rminus_diag_eq, Rabs_R0 by auto; lra|].
    destruct (MVT_cor2 f2 f3 (- t) t ltac:(lra)) as (c & E & C); [intros c Hc; apply HD; lra|].
    rewrite E, Rabs_mult, (Rabs_right (t - - t)) by lra. assert (Rabs (f3 c) <= M) by (apply HD; lra). nra. }
  assert (D1 : forall t, 0 <= t <= eps -> derivable_pt_lim (fun t => f1 t + f1 (- t) - 2 * f1 0) t (f2 t - f2 (- t))).
  { intros t Ht. replace (f2 t - f2 (- t)) with (f2 t + - f2 (- t) - 0) by ring.
    apply (derivable_pt_lim_minus (fun t => f1 t + f1 (- t)) (fun _ => 2 * f1 0)); [|apply derivable_pt_lim_const].
    apply (derivable_pt_lim_plus f1 (fun t => f1 (- t))); [apply HD; lra|]. apply deriv_mirror. apply HD; lra. }
  assert (D0 : forall t, 0 <= t <= eps -> derivable_pt_lim (fun t => f t - f (- t) - t * (2 * f1 0)) t (f1 t + f1 (- t) - 2 * f1 0)).
  { intros t Ht. replace (f1 t + f1 (- t) - 2 * f1 0) with (f1 t - - f1 (- t) - (1 * (2 * f1 0) + t * 0)) by ring.
    apply (derivable_pt_lim_minus (fun t => f t - f (- t)) (fun t => t * (2 * f1 0))).
    - apply (derivable_pt_lim_minus f (fun t => f (- t))); [apply HD; lra|]. apply deriv_mirror. apply HD; lra.
    - apply (derivable_pt_lim_mult id (fun _ => 2 * f1 0)); [apply derivable_pt_lim_id|apply derivable_pt_lim_const]. }
  assert (P2 : forall t, derivable_pt_lim (fun t => M * t ^ 2) t (M * (2 * t))).
  { intros t. replace (M * (2 * t)) with (0 * t ^ 2 + M * (INR 2 * t ^ 1)) by (simpl; ring).
    apply (derivable_pt_lim_mult (fun _ => M) (fun t => t ^ 2)); [apply derivable_pt_lim_const|apply derivable_pt_lim_pow]. }
  assert (P3 : forall t, derivable_pt_lim (fun t => M / 3 * t ^ 3) t (M * t ^ 2)).
  { intros t. replace (M * t ^ 2) with (0 * t ^ 3 + M / 3 * (INR 3 * t ^ 2)) by (simpl; field).
    apply (derivable_pt_lim_mult (fun _ => M / 3) (fun t => t ^ 3)); [apply derivable_pt_lim_const|apply derivable_pt_lim_pow]. }
  assert (B1 : forall t, 0 <= t <= eps -> Rabs (f1 t + f1 (- t) - 2 * f1 0) <= M * t ^ 2).
  { intros t Ht. destruct (Req_dec t 0) as [->|Nt].
    { rewrite Ropp_0. replace (f1 0 + f1 0 - 2 * f1 0) with 0 by ring. rewrite Rabs_R0. simpl. lra. }
    apply Rabs_le. split.
    - assert (X : 0 <= M * t ^ 2 + (f1 t + f1 (- t) - 2 * f1 0)); [|lra].
      apply (grows (fun t => M * t ^ 2 + (f1 t + f1 (- t) - 2 * f1 0)) (fun t => M * (2 * t) + (f2 t - f2 (- t)))); [lra| | |].
      + rewrite Ropp_0. simpl. ring.
      + intros x Hx. apply (derivable_pt_lim_plus (fun t => M * t ^ 2) (fun t => f1 t + f1 (- t) - 2 * f1 0)); [apply P2|apply D1; lra].
      + intros x Hx. assert (Y := B2 x ltac:(lra)). apply Rabs_bnd in Y. lra.
    - assert (X : 0 <= M * t ^ 2 - (f1 t + f1 (- t) - 2 * f1 0)); [|lra].
      apply (grows (fun t => M * t ^ 2 - (f1 t + f1 (- t) - 2 * f1 0)) (fun t => M * (2 * t) - (f2 t - f2 (- t)))); [lra| | |].
      + rewrite Ropp_0. simpl. ring.
      + intros x Hx. apply (derivable_pt_lim_minus (fun t => M * t ^ 2) (fun t => f1 t + f1 (- t) - 2 * f1 0)); [apply P2|apply D1; lra].
      + intros x Hx. assert (Y := B2 x ltac:(lra)). apply Rabs_bnd in Y. lra. }
  assert (B0 : Rabs (f eps - f (- eps) - eps * (2 * f1 0)) <= M / 3 * eps ^ 3).
  { apply Rabs_le. split.
    - assert (X : 0 <= M / 3 * eps ^ 3 + (f eps - f (- eps) - eps * (2 * f1 0))); [|lra].
      apply (grows (fun t => M / 3 * t ^ 3 + (f t - f (- t) - t * (2 * f1 0))) (fun t => M * t ^ 2 + (f1 t + f1 (- t) - 2 * f1 0))); [lra| | |].
      + rewrite Ropp_0. simpl. ring.
      + intros x Hx. apply (derivable_pt_lim_plus (fun t => M / 3 * t ^ 3) (fun t => f t - f (- t) - t * (2 * f1 0))); [apply P3|apply D0; lra].
      + intros x Hx. assert (Y := B1 x ltac:(lra)). apply Rabs_bnd in Y. lra.
    - assert (X : 0 <= M / 3 * eps ^ 3 - (f eps - f (- eps) - eps * (2 * f1 0))); [|lra].
      apply (grows (fun t => M / 3 * t ^ 3 - (f t - f (- t) - t * (2 * f1 0))) (fun t => M * t ^ 2 - (f1 t + f1 (- t) - 2 * f1 0))); [lra| | |].
      + rewrite Ropp_0. simpl. ring.
      + intros x Hx. apply (derivable_pt_lim_minus (fun t => M / 3 * t ^ 3) (fun t => f t - f (- t) - t * (2 * f1 0))); [apply P3|apply D0; lra].
      + intros x Hx. assert (Y := B1 x ltac:(lra)). apply Rabs_bnd in Y. lra. }
  replace ((f eps - f (- eps)) / (2 * eps) - f1 0) with ((f eps - f (- eps) - eps * (2 * f1 0)) * / (2 * eps)) by (field; lra).
  rewrite Rabs_mult, (Rabs_right (/ (2 * eps))) by (apply Rle_ge, Rlt_le, Rinv_0_lt_compat; lra).
  apply Rmult_le_reg_r with (2 * eps); [lra|]. rewrite Rmult_assoc, Rinv_l by lra. lra.
Qed.

(** Every component of the numerical gradient of a function that is three times differentiable
    along the coordinate, with a third derivative bounded by [M], is within M eps^2 / 6 of the
    partial derivative. *)
Theorem numerical_diff_accuracy : forall f w i eps M f1 f2 f3, (i < length w)%nat -> 0 < eps ->
  (forall t, - eps <= t <= eps ->
     derivable_pt_lim (fun h => f (shift w i h)) t (f1 t) /\ derivable_pt_lim f1 t (f2 t) /\
     derivable_pt_lim f2 t (f3 t) /\ Rabs (f3 t) <= M) ->
  Rabs (nth i (num_diff_function false eps f w) 0 - f1 0) <= M * eps ^ 2 / 6.
Proof.
  intros f w i eps M f1 f2 f3 Hi He HD. rewrite num_fun_nth by auto. unfold central.
  apply (central_error (fun h => f (shift w i h)) f1 f2 f3 M eps He HD).
Qed.

(** It is the exact derivative of a function that is a polynomial of degree two in each
    parameter, whatever the perturbation. *)
Theorem numerical_diff_quadratic : forall f w i eps a b c, (i < length w)%nat -> eps <> 0 ->
  (forall h, f (shift w i h) = a + b * h + c * h ^ 2) ->
  nth i (num_diff_function false eps f w) 0 = b /\ derivable_pt_lim (fun h => f (shift w i h)) 0 b.
Proof.
  intros f w i eps a b c Hi He HQ. split.
  - rewrite num_fun_nth by auto. unfold central. rewrite !HQ. field. auto.
  - intros e Hp. exists (mkposreal (e / (Rabs c + 1)) ltac:(apply Rdiv_lt_0_compat; [lra|pose proof (Rabs_pos c); lra])).
    intros h Nh Hh. simpl in Hh. rewrite Rplus_0_l, !HQ.
    replace ((a + b * h + c * h ^ 2 - (a + b * 0 + c * 0 ^ 2)) / h - b) with (c * h) by (simpl; field; auto).
    rewrite Rabs_mult. pose proof (Rabs_pos c). pose proof (Rabs_pos h).
    apply Rle_lt_trans with ((Rabs c + 1) * Rabs h); [nra|].
    apply Rmult_lt_reg_l with (/ (Rabs c + 1)); [apply Rinv_0_lt_compat; lra|]. rewrite <- Rmult_assoc, Rinv_l by lra. lra.
Qed.

(** Refuted for integer parameters: the array of the result has their type, and the derivative
    1/2 of x^2/4 in 1 is stored as 0. *)
Theorem numerical_diff_integer_refuted : forall eps, 0 < eps ->
  let f v := nth 0 v 0 ^ 2 / 4 in
  num_diff_function true eps f [1] = [0] /\ derivable_pt_lim (fun h => f (shift [1] 0 h)) 0 (/ 2).
Proof.
  intros eps He f. split.
  - unfold num_diff_function. cbn [length seq map]. f_equal. cbv iota.
    replace ((f (ladd [1] (unit_at 1 0 eps)) - f (lsub [1] (unit_at 1 0 eps))) / (2 * eps)) with (/ 2)
      by (unfold f; simpl; field; lra).
    unfold truncate. destruct (Rlt_dec (/ 2) 0); [lra|].
    assert (X : Int_part (/ 2) = 0%Z).
    { unfold Int_part. rewrite <- (tech_up (/ 2) 1); [reflexivity| |]; lra. }
    rewrite X. reflexivity.
  - apply (numerical_diff_quadratic f [1] 0 1 (/ 4) (/ 2) (/ 4)); [simpl; lia|lra|].
    intros h. unfold f. simpl. field.
Qed.

(** Example: a product of the two parameters *)
Example num_diff_product : num_diff_function false 1 (fun v => nth 0 v 0 * nth 1 v 0) [3; 5] = [5; 3].
Proof. unfold num_diff_function. simpl. repeat f_equal; field. Qed.
Example num_diff_obj : num_diff (fun p : list R => p) (fun _ v => v) (fun p => nth 0 p 0 ^ 2) 1 [3] = ([3], [6]).
Proof. unfold num_diff. simpl. repeat f_equal; field. Qed.

Print Assumptions car_solver_optimal.
Print Assumptions car_solver_complete.
Print Assumptions car_solver_failure.
Print Assumptions car_solver_total.
Print Assumptions car_solver_depth_refuted.
Print Assumptions car_solver_bound_refuted.
Print Assumptions numerical_diff_object.
Print Assumptions numerical_diff_accuracy.
Print Assumptions numerical_diff_quadratic.
Print Assumptions numerical_diff_integer_refuted.

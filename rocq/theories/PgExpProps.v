(** C106: what the gradient estimates of REINFORCE and GPOMDP estimate. *)
From Coq Require Import List Arith Lia Reals Bool Lra FunctionalExtensionality.
From Verif Require Import Common EpisodeSpec PgModel PgSpec PgProofs UtilProofs PgExpSpec.
From Verif Require PgProps.
Import ListNotations.
Local Open Scope R_scope.

(** ** Expectations *)
Lemma mean_app : forall A (a b : list (R * A)) f, mean (a ++ b) f = mean a f + mean b f.
Proof. intros. unfold mean. rewrite map_app, rsum_app. reflexivity. Qed.
Lemma mean_flat_map : forall A B (g : B -> list (R * A)) l f, mean (flat_map g l) f = rsum (map (fun b => mean (g b) f) l).
Proof. induction l as [|b l IH]; intros f; [reflexivity|]. cbn [flat_map map rsum]. rewrite mean_app, IH. reflexivity. Qed.
Lemma mean_map : forall A B w (h : A -> B) (l : list (R * A)) f,
  mean (map (fun x => (w * fst x, h (snd x))) l) f = w * mean l (fun x => f (h x)).
Proof. intros. unfold mean. rewrite map_map, <- rsum_map_scal. apply rsum_map_ext. intros. cbn. ring. Qed.
Lemma mean_one : forall A w (x : A) f, mean [(w, x)] f = w * f x.
Proof. intros. unfold mean. cbn. ring. Qed.
Lemma mean_ext : forall A (l : list (R * A)) f g, (forall w x, In (w, x) l -> f x = g x) -> mean l f = mean l g.
Proof. intros A l f g H. unfold mean. apply rsum_map_ext. intros [w x] I. cbn. rewrite (H w x I). reflexivity. Qed.
Lemma mean_plus : forall A (l : list (R * A)) f g, mean l (fun x => f x + g x) = mean l f + mean l g.
Proof. intros. unfold mean. rewrite <- rsum_map_plus. apply rsum_map_ext. intros. ring. Qed.
Lemma mean_scal : forall A (l : list (R * A)) c f, mean l (fun x => c * f x) = c * mean l f.
Proof. intros. unfold mean. rewrite <- rsum_map_scal. apply rsum_map_ext. intros. ring. Qed.
Lemma mean_const : forall A (l : list (R * A)) c, mean l (fun _ => 1) = 1 -> mean l (fun _ => c) = c.
Proof. intros A l c H. rewrite (mean_ext _ l _ (fun x => c * 1)) by (intros; ring). rewrite mean_scal, H. ring. Qed.

Lemma batches_mass : forall A n (l : list (R * A)), mean l (fun _ => 1) = 1 -> mean (batches n l) (fun _ => 1) = 1.
Proof.
  induction n as [|n IH]; intros l H; [cbn; unfold mean; cbn; ring|]. cbn [batches]. rewrite mean_flat_map.
  rewrite (rsum_map_ext _ _ (fun we => fst we * 1)); [exact H|]. intros [w e] _. cbn [fst snd].
  rewrite (mean_map (list A) (list A) w (cons e) (batches n l) (fun _ => 1)). rewrite IH by assumption. reflexivity.
Qed.

(** The sum of a quantity over independent draws. *)
Lemma batches_sum : forall A n (l : list (R * A)) F, mean l (fun _ => 1) = 1 ->
  mean (batches n l) (fun b => rsum (map F b)) = INR n * mean l F.
Proof.
  induction n as [|n IH]; intros l F H; [unfold mean; cbn; ring|]. cbn [batches]. rewrite mean_flat_map.
  rewrite (rsum_map_ext _ _ (fun we => fst we * (F (snd we) + INR n * mean l F))).
  - change (mean l (fun x => F x + INR n * mean l F) = INR (S n) * mean l F). rewrite mean_plus, (mean_const _ _ _ H), S_INR. ring.
  - intros [w e] _. cbn [fst snd]. rewrite (mean_map (list A) (list A) w (cons e) (batches n l)). f_equal. cbn [map rsum].
    rewrite mean_plus, IH by assumption. rewrite mean_const by (apply batches_mass; exact H). reflexivity.
Qed.

Lemma batches_in : forall A n (l : list (R * A)) w b, In (w, b) (batches n l) -> length b = n /\ forall x, In x b -> exists v, In (v, x) l.
Proof.
  induction n as [|n IH]; intros l w b H; cbn [batches] in H.
  - destruct H as [E|[]]. injection E as <- <-. split; [reflexivity|intros x []].
  - apply in_flat_map in H as ([v e] & Hl & H). apply in_map_iff in H as ([v' b'] & E & H). cbn in E. injection E as <- <-.
    destruct (IH _ _ _ H) as [L Q]. split; [cbn; lia|]. intros x [<-|I]; eauto.
Qed.

Lemma deriv_sum : forall A (f : A -> R -> R) df t l, (forall q, In q l -> derivable_pt_lim (f q) t (df q)) ->
  derivable_pt_lim (fun z => rsum (map (fun q => f q z) l)) t (rsum (map df l)).
Proof.
  induction l as [|a l IH]; intros H; cbn [map rsum]; [apply derivable_pt_lim_const|].
  apply (derivable_pt_lim_plus (f a) (fun z => rsum (map (fun q => f q z) l))); [apply H; left; reflexivity|apply IH; intros; apply H; right; assumption].
Qed.

Lemma with_same : forall th i, with_comp th i (th i) = th.
Proof. intros th i. apply functional_extensionality. intros j. unfold with_comp. destruct (Nat.eqb_spec j i); congruence. Qed.

Section Exp.
Context {St Ac : Type}.
Variable acts : list Ac.
Variable kern : St -> Ac -> list (R * St * R * bool).
Variable pi : vec -> St -> Ac -> R.
Variable dlog : vec -> St -> Ac -> vec.
Variable starts : list (R * St).
Definition prob (k : R * St * R * bool) : R := fst (fst (fst k)).
(** Probabilities, and the score function of the policy. *)
Hypothesis PI1 : forall th s, rsum (map (pi th s) acts) = 1.
Hypothesis K1 : forall s a, In a acts -> rsum (map prob (kern s a)) = 1.
Hypothesis S1 : rsum (map fst starts) = 1.
Hypothesis SC : forall th i s a, In a acts -> derivable_pt_lim (fun t => pi (with_comp th i t) s a) (th i) (pi th s a * dlog th s a i).

Notation runs := (runs acts kern pi).
Notation episodes := (episodes acts kern pi starts).
Notation seen := (seen dlog).
Notation objective := (objective acts kern pi starts).

Definition cont (th : vec) (h : nat) (s : St) (a : Ac) (f : list (visit (St := St) (Ac := Ac)) -> R) (k : R * St * R * bool) : R :=
  let '(p, s', r, ab) := k in
  match h with
  | O => f [(s, a, r, true)]
  | S h' => if ab : bool then f [(s, a, r, true)] else mean (runs th h' s') (fun e => f ((s, a, r, false) :: e))
  end.

Lemma mean_runs : forall th h s f,
  mean (runs th h s) f = rsum (map (fun a => pi th s a * rsum (map (fun k => prob k * cont th h s a f k) (kern s a))) acts).
Proof.
  intros th h s f. assert (E : runs th h s = flat_map (fun a => flat_map (fun k =>
    let '(p, s', r, ab) := k in
    match h with
    | O => [(pi th s a * p, [(s, a, r, true)])]
    | S h' => if ab : bool then [(pi th s a * p, [(s, a, r, true)])]
              else map (fun we => (pi th s a * p * fst we, (s, a, r, false) :: snd we)) (runs th h' s')
    end) (kern s a)) acts) by (destruct h; reflexivity).
  rewrite E. clear E. rewrite mean_flat_map. apply rsum_map_ext. intros a _. rewrite mean_flat_map, <- rsum_map_scal. apply rsum_map_ext.
  intros [[[p s'] r] ab] _. unfold prob, cont. cbn [fst]. destruct h as [|h]; [rewrite mean_one; ring|]. destruct ab; [rewrite mean_one; ring|].
  rewrite (mean_map _ _ (pi th s a * p) (cons (s, a, r, false)) (runs th h s') f). apply Rmult_assoc.
Qed.

Lemma runs_mass : forall h th s, mean (runs th h s) (fun _ => 1) = 1.
Proof.
  induction h as [|h IH]; intros th s; rewrite mean_runs; (eapply eq_trans; [|exact (PI1 th s)]); apply rsum_map_ext; intros a Ia;
  rewrite (rsum_map_ext _ _ prob); try (rewrite (K1 s a Ia); ring); intros [[[p s'] r] ab] _; unfold prob, cont; cbn [fst].
  - ring.
  - destruct ab; [ring|]. rewrite IH. ring.
Qed.

Lemma score_cons : forall th s a r l e i, score_of (seen th ((s, a, r, l) :: e)) i = dlog th s a i + score_of (seen th e) i.
Proof. reflexivity. Qed.

(** The derivative of an expectation is the expectation of the product with the score. *)
Lemma runs_deriv : forall th i h s f,
  derivable_pt_lim (fun t => mean (runs (with_comp th i t) h s) f) (th i) (mean (runs th h s) (fun e => f e * score_of (seen th e) i)).
Proof.
  intros th i. induction h as [|h IH]; intros s f.
  - rewrite mean_runs.
    assert (E : (fun t => mean (runs (with_comp th i t) 0 s) f) = (fun t => rsum (map (fun a => pi (with_comp th i t) s a * rsum (map (fun k => prob k * cont th 0 s a f k) (kern s a))) acts)))
      by (apply functional_extensionality; intros t; rewrite mean_runs; reflexivity).
    rewrite E. apply (deriv_sum _ (fun a t => pi (with_comp th i t) s a * rsum (map (fun k => prob k * cont th 0 s a f k) (kern s a)))).
    intros a Ia. set (c := rsum (map (fun k => prob k * cont th 0 s a f k) (kern s a))).
    match goal with |- derivable_pt_lim _ _ ?D => replace D with (pi th s a * dlog th s a i * c + pi (with_comp th i (th i)) s a * 0) end.
    + apply (derivable_pt_lim_mult (fun t => pi (with_comp th i t) s a) (fun _ => c)); [apply SC; exact Ia|apply derivable_pt_lim_const].
    + rewrite Rmult_0_r, Rplus_0_r, Rmult_assoc. f_equal. unfold c. rewrite <- rsum_map_scal. apply rsum_map_ext.
      intros [[[p s'] r] ab] _. unfold prob, cont. cbn [fst]. rewrite score_cons. unfold score_of at 1. cbn. ring.
  - rewrite mean_runs.
    assert (E : (fun t => mean (runs (with_comp th i t) (S h) s) f) = (fun t => rsum (map (fun a => pi (with_comp th i t) s a * rsum (map (fun k => prob k * cont (with_comp th i t) (S h) s a f k) (kern s a))) acts)))
      by (apply functional_extensionality; intros t; rewrite mean_runs; reflexivity).
    rewrite E. apply (deriv_sum _ (fun a t => pi (with_comp th i t) s a * rsum (map (fun k => prob k * cont (with_comp th i t) (S h) s a f k) (kern s a)))).
    intros a Ia.
    set (D := fun k : R * St * R * bool => let '(p, s', r, ab) := k in
       if ab : bool then 0 else p * mean (runs th h s') (fun e => f ((s, a, r, false) :: e) * score_of (seen th e) i)).
    match goal with |- derivable_pt_lim _ _ ?D1 => replace D1 with (pi th s a * dlog th s a i * rsum (map (fun k => prob k * cont (with_comp th i (th i)) (S h) s a f k) (kern s a))
        + pi (with_comp th i (th i)) s a * rsum (map D (kern s a))) end.
    + apply (derivable_pt_lim_mult (fun t => pi (with_comp th i t) s a) (fun t => rsum (map (fun k => prob k * cont (with_comp th i t) (S h) s a f k) (kern s a)))); [apply SC; exact Ia|].
      apply (deriv_sum _ (fun k t => prob k * cont (with_comp th i t) (S h) s a f k)). intros [[[p s'] r] ab] _. unfold prob, cont, D. cbn [fst]. destruct ab.
      * apply derivable_pt_lim_const.
      * apply derivable_pt_lim_scal. apply (IH s' (fun e => f ((s, a, r, false) :: e))).
    + rewrite with_same, Rmult_assoc, <- Rmult_plus_distr_l. f_equal. rewrite <- rsum_map_scal, <- rsum_map_plus. apply rsum_map_ext.
      intros [[[p s'] r] ab] _. unfold prob, cont, D. cbn [fst]. destruct ab.
      * rewrite score_cons. unfold score_of at 1. cbn. ring.
      * rewrite (mean_ext _ (runs th h s') (fun e => f ((s, a, r, false) :: e) * score_of (seen th ((s, a, r, false) :: e)) i)
          (fun e => dlog th s a i * f ((s, a, r, false) :: e) + f ((s, a, r, false) :: e) * score_of (seen th e) i))
          by (intros; rewrite score_cons; ring).
        rewrite mean_plus, mean_scal. ring.
Qed.

Lemma runs_score_zero : forall th i h s, mean (runs th h s) (fun e => score_of (seen th e) i) = 0.
Proof.
  intros th i h s. pose proof (runs_deriv th i h s (fun _ => 1)) as D.
  assert (E : (fun t => mean (runs (with_comp th i t) h s) (fun _ => 1)) = (fun _ => 1)) by (apply functional_extensionality; intros; apply runs_mass).
  rewrite E in D. rewrite (mean_ext _ _ _ (fun e => 1 * score_of (seen th e) i)) by (intros; ring).
  eapply uniqueness_limite; [exact D|apply derivable_pt_lim_const].
Qed.

Lemma mean_episodes : forall th h f, mean (episodes th h) f = rsum (map (fun ws => fst ws * mean (runs th h (snd ws)) f) starts).
Proof.
  intros. unfold PgExpSpec.episodes. rewrite mean_flat_map. apply rsum_map_ext. intros [w s] _. cbn [fst snd].
  exact (mean_map _ _ w (fun e => e) (runs th h s) f).
Qed.

Lemma episodes_mass : forall th h, mean (episodes th h) (fun _ => 1) = 1.
Proof. intros. rewrite mean_episodes. (eapply eq_trans; [|exact S1]). apply rsum_map_ext. intros. rewrite runs_mass. ring. Qed.

Lemma episodes_deriv : forall th i h f,
  derivable_pt_lim (fun t => mean (episodes (with_comp th i t) h) f) (th i) (mean (episodes th h) (fun e => f e * score_of (seen th e) i)).
Proof.
  intros. rewrite mean_episodes.
  assert (E : (fun t => mean (episodes (with_comp th i t) h) f) = (fun t => rsum (map (fun ws => fst ws * mean (runs (with_comp th i t) h (snd ws)) f) starts)))
    by (apply functional_extensionality; intros; apply mean_episodes).
  rewrite E. apply (deriv_sum _ (fun ws t => fst ws * mean (runs (with_comp th i t) h (snd ws)) f)). intros [w s] _. cbn [fst snd].
  apply derivable_pt_lim_scal. apply runs_deriv.
Qed.

Lemma episodes_score_zero : forall th i h, mean (episodes th h) (fun e => score_of (seen th e) i) = 0.
Proof.
  intros. rewrite mean_episodes. rewrite (rsum_map_ext _ _ (fun _ => 0)); [rewrite rsum_map_const; ring|].
  intros. rewrite runs_score_zero. ring.
Qed.

Lemma return_disc : forall gamma th e, return_ gamma (seen th e) = disc gamma e.
Proof.
  intros gamma th. induction e as [|[[[s a] r] l] e IH]; [reflexivity|]. unfold PgExpSpec.seen in *. cbn [map]. rewrite return_cons, IH. reflexivity.
Qed.

(** The gradient of the objective, by the score function. *)
Lemma objective_deriv : forall gamma th i h,
  derivable_pt_lim (fun t => objective gamma h (with_comp th i t)) (th i) (mean (episodes th h) (fun e => disc gamma e * score_of (seen th e) i)).
Proof. intros. apply episodes_deriv. Qed.

(** Rewards are uncorrelated with later scores. *)
Definition gsum (gamma : R) (e : list sample) (i : nat) : R :=
  rsum (map (fun t => score_upto e t i * reward_at gamma e t) (seq 0 (length e))).
Fixpoint gacc (gamma acc d : R) (e : list sample) (i : nat) : R :=
  match e with [] => 0 | x :: e' => (acc + score x i) * (d * rew x) + gacc gamma (acc + score x i) (d * gamma) e' i end.

Lemma gsum_acc : forall gamma i e acc d,
  gacc gamma acc d e i = rsum (map (fun t => (acc + score_upto e t i) * (d * reward_at gamma e t)) (seq 0 (length e))).
Proof.
  intros gamma i. induction e as [|x e IH]; intros acc d; [reflexivity|].
  cbn [gacc length]. rewrite <- cons_seq, <- seq_shift, map_cons, map_map. cbn [rsum]. rewrite IH. f_equal.
  - unfold score_upto, score_of, reward_at. cbn. ring.
  - apply rsum_map_ext. intros t _. unfold score_upto, score_of, reward_at. cbn [firstn map rsum nth pow]. ring.
Qed.

Lemma runs_causal : forall gamma th i h s acc d,
  mean (runs th h s) (fun e => gacc gamma acc d (seen th e) i) = mean (runs th h s) (fun e => d * disc gamma e * (acc + score_of (seen th e) i)).
Proof.
  intros gamma th i. induction h as [|h IH]; intros s acc d; rewrite !mean_runs; apply rsum_map_ext; intros a Ia; f_equal; apply rsum_map_ext;
  intros [[[p s'] r] ab] _; f_equal; unfold cont.
  - unfold score_of. cbn. ring.
  - destruct ab; [unfold score_of; cbn; ring|].
    set (x := dlog th s a i).
    rewrite (mean_ext _ _ (fun e => d * disc gamma ((s, a, r, false) :: e) * (acc + score_of (seen th ((s, a, r, false) :: e)) i))
       (fun e => ((acc + x) * (d * r) + d * r * score_of (seen th e) i) + (d * gamma) * disc gamma e * ((acc + x) + score_of (seen th e) i)))
      by (intros; rewrite score_cons; unfold x; cbn [disc]; ring).
    rewrite (mean_ext _ _ (fun e => gacc gamma acc d (seen th ((s, a, r, false) :: e)) i)
       (fun e => (acc + x) * (d * r) + gacc gamma (acc + x) (d * gamma) (seen th e) i)) by reflexivity.
    rewrite (mean_plus _ _ (fun _ => (acc + x) * (d * r)) (fun e => gacc gamma (acc + x) (d * gamma) (seen th e) i)), IH.
    rewrite (mean_plus _ _ (fun e => (acc + x) * (d * r) + d * r * score_of (seen th e) i)).
    rewrite (mean_plus _ _ (fun _ => (acc + x) * (d * r)) (fun e => d * r * score_of (seen th e) i)).
    rewrite (mean_scal _ (runs th h s') (d * r) (fun e => score_of (seen th e) i)), runs_score_zero. ring.
Qed.

Lemma episodes_causal : forall gamma th i h,
  mean (episodes th h) (fun e => gsum gamma (seen th e) i) = mean (episodes th h) (fun e => disc gamma e * score_of (seen th e) i).
Proof.
  intros. rewrite !mean_episodes. apply rsum_map_ext. intros [w s] _. cbn [fst snd]. f_equal.
  rewrite (mean_ext _ _ _ (fun e => gacc gamma 0 1 (seen th e) i)).
  - rewrite runs_causal. apply mean_ext. intros. ring.
  - intros. rewrite gsum_acc. apply rsum_map_ext. intros. ring.
Qed.

(** ** The datasets made of whole episodes *)
Lemma runs_episode : forall th th' h s w e, In (w, e) (runs th' h s) -> is_episode lst (seen th e).
Proof.
  intros th th'. induction h as [|h IH]; intros s w e H; cbn [PgExpSpec.runs] in H; apply in_flat_map in H as (a & _ & H);
  apply in_flat_map in H as ([[[p s'] r] ab] & _ & H).
  - destruct H as [E|[]]. injection E as <- <-. exists [], {| score := dlog th s a; rew := r; phi_c := [1]; lst := true |}. repeat split. constructor.
  - destruct ab.
    + destruct H as [E|[]]. injection E as <- <-. exists [], {| score := dlog th s a; rew := r; phi_c := [1]; lst := true |}. repeat split. constructor.
    + apply in_map_iff in H as ([w' e'] & E & H). cbn in E. injection E as <- <-. destruct (IH _ _ _ H) as (b & x & EB & L & F).
      exists ({| score := dlog th s a; rew := r; phi_c := [1]; lst := false |} :: b), x. unfold PgExpSpec.seen in *. cbn [map]. rewrite EB. repeat split; auto.
Qed.

Lemma episodes_episode : forall th h w e, In (w, e) (episodes th h) -> is_episode lst (seen th e).
Proof.
  intros th h w e H. unfold PgExpSpec.episodes in H. apply in_flat_map in H as ([w0 s] & _ & H). apply in_map_iff in H as ([w' e'] & E & H).
  cbn in E. injection E as <- <-. eapply runs_episode. exact H.
Qed.

Lemma complete_concat : forall (l : list (list sample)), Forall (is_episode lst) l -> complete lst (concat l) = l /\ unfinished lst (concat l) = [].
Proof.
  induction l as [|e l IH]; intros F; [split; reflexivity|]. inversion F as [|? ? (b & x & -> & L & B) F']; subst. destruct (IH F') as [C U].
  cbn [concat]. rewrite <- app_assoc. cbn [app]. clear F. revert C U. generalize (concat l). intros t C U. clear IH F'.
  unfold complete, unfinished in *. induction b as [|y b IHb].
  - cbn [app split_episodes]. destruct (split_episodes lst t). cbn in *. rewrite L. subst. split; reflexivity.
  - inversion B as [|? ? Ly B']; subst. cbn [app split_episodes]. specialize (IHb B'). destruct (split_episodes lst (b ++ x :: t)) as [eps tl].
    cbn [fst snd] in *. rewrite Ly. destruct IHb as [-> ->]. split; reflexivity.
Qed.

(** The data the agent with weights [th] is fitted on. *)
Definition data (th : vec) (b : list (list (visit (St := St) (Ac := Ac)))) : list sample := concat (map (seen th) b).

Lemma data_episodes : forall th h n w b, In (w, b) (batches n (episodes th h)) ->
  complete lst (data th b) = map (seen th) b /\ unfinished lst (data th b) = [] /\ length b = n.
Proof.
  intros th h n w b H. destruct (batches_in _ _ _ _ _ H) as [L Q]. destruct (complete_concat (map (seen th) b)) as [C U]; [|auto].
  apply Forall_forall. intros x I. apply in_map_iff in I as (e & <- & I). destruct (Q e I) as [v I']. eapply episodes_episode. exact I'.
Qed.

Definition comp (o : option vec) (i : nat) : R := match o with Some v => v i | None => 0 end.

Lemma reinforce_fit : forall gamma th h n w b i, (2 <= n)%nat -> In (w, b) (batches n (episodes th h)) ->
  exists v, snd (pg_fit gamma reinforce rf0 (data th b)) = Some v /\ v i = reinforce_gradient gamma (map (seen th) b) i.
Proof.
  intros gamma th h n w b i N H. destruct (data_episodes _ _ _ _ _ H) as (C & _ & L).
  pose proof (PgProps.reinforce_gradients gamma [data th b]) as G.
  assert (F : Forall (fun ds => (1 < length (complete lst ds))%nat) [data th b]) by (repeat constructor; rewrite C, map_length; lia).
  specialize (G F). cbn [pg_fits] in G. destruct (pg_fit gamma reinforce rf0 (data th b)) as [s' g]. inversion G as [|? ? ? ? (v & E & V) _]; subst.
  exists v. split; [reflexivity|]. rewrite V, C. reflexivity.
Qed.

Lemma gpomdp_fit : forall gamma th h n w b i, (2 <= n)%nat -> In (w, b) (batches n (episodes th h)) ->
  exists v, snd (pg_fit gamma gpomdp gp0 (data th b)) = Some v /\ v i = gpomdp_gradient gamma (map (seen th) b) (map (seen th) b) i.
Proof.
  intros gamma th h n w b i N H. destruct (data_episodes _ _ _ _ _ H) as (C & U & L).
  pose proof (PgProps.gpomdp_gradients_partial gamma [data th b]) as G.
  assert (F : Forall (fun ds => (1 < length (complete lst ds))%nat /\ unfinished lst ds = []) [data th b])
    by (repeat constructor; [rewrite C, map_length; lia|exact U]).
  specialize (G F). cbn [pg_fits] in G. destruct (pg_fit gamma gpomdp gp0 (data th b)) as [s' g]. inversion G as [|? ? ? ? (v & E & V) _]; subst.
  exists v. split; [reflexivity|]. rewrite V, C. reflexivity.
Qed.

(** REINFORCE on [n] independent episodes: the expectation of the gradient it computes is the
    gradient of the expected return minus the expectation of the product of the baseline
    (computed from the same episodes) and the mean score, whose own expectation is zero. *)
Theorem reinforce_expectation_partial : forall gamma th i h n, (2 <= n)%nat ->
  exists D, derivable_pt_lim (fun t => objective gamma h (with_comp th i t)) (th i) D /\
    (forall w b, In (w, b) (batches n (episodes th h)) -> snd (pg_fit gamma reinforce rf0 (data th b)) <> None) /\
    mean (batches n (episodes th h)) (fun b => comp (snd (pg_fit gamma reinforce rf0 (data th b))) i) =
      D - mean (batches n (episodes th h)) (fun b => reinforce_baseline gamma (map (seen th) b) i * (rsum (map (fun e => score_of (seen th e) i) b) / INR n)) /\
    mean (batches n (episodes th h)) (fun b => rsum (map (fun e => score_of (seen th e) i) b) / INR n) = 0.
Proof.
  intros gamma th i h n N. assert (N0 : INR n <> 0) by (apply not_0_INR; lia).
  exists (mean (episodes th h) (fun e => disc gamma e * score_of (seen th e) i)).
  split; [apply objective_deriv|]. split.
  { intros w b H. destruct (reinforce_fit gamma th h n w b 0 N H) as (v & -> & _). discriminate. }
  split.
  - assert (E : mean (batches n (episodes th h)) (fun b => rsum (map (fun e => disc gamma e * score_of (seen th e) i) b) / INR n) =
      mean (episodes th h) (fun e => disc gamma e * score_of (seen th e) i)).
    { rewrite (mean_ext _ _ _ (fun b => / INR n * rsum (map (fun e => disc gamma e * score_of (seen th e) i) b))) by (intros; unfold Rdiv; ring).
      rewrite mean_scal, batches_sum by apply episodes_mass. field. exact N0. }
    rewrite <- E.
    match goal with |- _ = ?X - mean ?l ?g => assert (Z : mean l (fun b => rsum (map (fun e => disc gamma e * score_of (seen th e) i) b) / INR n) =
        mean l (fun b => comp (snd (pg_fit gamma reinforce rf0 (data th b))) i) + mean l g) end; [|rewrite Z; ring].
    rewrite <- mean_plus. apply mean_ext. intros w b H. destruct (reinforce_fit gamma th h n w b i N H) as (v & -> & V). cbn [comp]. rewrite V.
    unfold reinforce_gradient. rewrite map_length, (proj1 (batches_in _ _ _ _ _ H)), map_map. unfold Rdiv.
    set (B := reinforce_baseline gamma (map (seen th) b) i).
    rewrite (rsum_map_ext _ (fun x => score_of (seen th x) i * (return_ gamma (seen th x) - B))
       (fun e => disc gamma e * score_of (seen th e) i + (- B) * score_of (seen th e) i)) by (intros; rewrite return_disc; ring).
    rewrite rsum_map_plus, rsum_map_scal. ring.
  - rewrite (mean_ext _ _ _ (fun b => / INR n * rsum (map (fun e => score_of (seen th e) i) b))) by (intros; unfold Rdiv; ring).
    rewrite mean_scal, batches_sum by apply episodes_mass. rewrite episodes_score_zero. ring.
Qed.

(** GPOMDP: the same with one baseline per step. *)
Theorem gpomdp_expectation_partial : forall gamma th i h n, (2 <= n)%nat ->
  exists D, derivable_pt_lim (fun t => objective gamma h (with_comp th i t)) (th i) D /\
    (forall w b, In (w, b) (batches n (episodes th h)) -> snd (pg_fit gamma gpomdp gp0 (data th b)) <> None) /\
    mean (batches n (episodes th h)) (fun b => comp (snd (pg_fit gamma gpomdp gp0 (data th b))) i) =
      D - mean (batches n (episodes th h)) (fun b => rsum (map (fun e => rsum (map (fun t =>
            gpomdp_baseline gamma (map (seen th) b) t i * score_upto (seen th e) t i) (seq 0 (length e)))) b) / INR n).
Proof.
  intros gamma th i h n N. assert (N0 : INR n <> 0) by (apply not_0_INR; lia).
  exists (mean (episodes th h) (fun e => disc gamma e * score_of (seen th e) i)).
  split; [apply objective_deriv|]. split.
  { intros w b H. destruct (gpomdp_fit gamma th h n w b 0 N H) as (v & -> & _). discriminate. }
  assert (E : mean (batches n (episodes th h)) (fun b => rsum (map (fun e => gsum gamma (seen th e) i) b) / INR n) =
      mean (episodes th h) (fun e => disc gamma e * score_of (seen th e) i)).
  { rewrite (mean_ext _ _ _ (fun b => / INR n * rsum (map (fun e => gsum gamma (seen th e) i) b))) by (intros; unfold Rdiv; ring).
    rewrite mean_scal, batches_sum by apply episodes_mass. rewrite episodes_causal. field. exact N0. }
  rewrite <- E.
  match goal with |- _ = ?X - mean ?l ?g => assert (Z : mean l (fun b => rsum (map (fun e => gsum gamma (seen th e) i) b) / INR n) =
      mean l (fun b => comp (snd (pg_fit gamma gpomdp gp0 (data th b))) i) + mean l g) end; [|rewrite Z; ring].
  rewrite <- mean_plus. apply mean_ext. intros w b H. destruct (gpomdp_fit gamma th h n w b i N H) as (v & -> & V). cbn [comp]. rewrite V.
  unfold gpomdp_gradient. rewrite map_length, (proj1 (batches_in _ _ _ _ _ H)), map_map. unfold Rdiv. rewrite <- Rmult_plus_distr_r. f_equal.
  rewrite <- rsum_map_plus. apply rsum_map_ext. intros e _. unfold gsum. assert (LE : length (seen th e) = length e) by apply map_length.
  rewrite LE, <- rsum_map_plus. apply rsum_map_ext. intros t _. ring.
Qed.
End Exp.

(** ** The estimates are biased *)
(** One state, two actions, the first with reward 1, the other with reward 0; logistic policy. *)
Definition bkern (s : unit) (a : bool) : list (R * unit * R * bool) := [(1, tt, if a then 1 else 0, true)].
Definition sigm (x : R) : R := / (1 + exp (- x)).
Definition bpi (th : vec) (s : unit) (a : bool) : R := if a then sigm (th 0%nat) else 1 - sigm (th 0%nat).
Definition bdlog (th : vec) (s : unit) (a : bool) : vec := fun i => if (i =? 0)%nat then (if a then 1 - sigm (th 0%nat) else - sigm (th 0%nat)) else 0.

Lemma sigm_deriv : forall x, derivable_pt_lim sigm x (sigm x * (1 - sigm x)).
Proof.
  intros x. pose proof (exp_pos (- x)) as P. unfold sigm.
  replace (/ (1 + exp (- x)) * (1 - / (1 + exp (- x)))) with (- (0 + exp (- x) * -1) / Rsqr (1 + exp (- x))) by (unfold Rsqr; field; lra).
  assert (D : derivable_pt_lim (fun y => 1 + exp (- y)) x (0 + exp (- x) * -1)).
  { apply (derivable_pt_lim_plus (fun _ => 1) (fun y => exp (- y))); [apply derivable_pt_lim_const|].
    apply (derivable_pt_lim_comp (fun y => - y) exp); [|apply derivable_pt_lim_exp].
    replace (-1) with (- (1)) by ring. apply (derivable_pt_lim_opp id). apply derivable_pt_lim_id. }
  pose proof (derivable_pt_lim_div (fun _ => 1) (fun y => 1 + exp (- y)) x 0 (0 + exp (- x) * -1) (derivable_pt_lim_const 1 x) D ltac:(cbv beta; lra)) as Q.
  replace (- (0 + exp (- x) * -1) / (1 + exp (- x))²) with ((0 * (1 + exp (- x)) - (0 + exp (- x) * -1) * 1) / (1 + exp (- x))²) by (f_equal; ring).
  eapply derivable_pt_lim_ext; [|exact Q]. intros y. unfold div_fct. field. pose proof (exp_pos (- y)). lra.
Qed.

Lemma bandit_score : forall th i s a, In a [true; false] -> derivable_pt_lim (fun t => bpi (with_comp th i t) s a) (th i) (bpi th s a * bdlog th s a i).
Proof.
  intros th i s a _. destruct i as [|i].
  - unfold bpi, bdlog, with_comp. cbn [Nat.eqb]. destruct a; [apply sigm_deriv|].
    replace ((1 - sigm (th 0%nat)) * - sigm (th 0%nat)) with (0 - sigm (th 0%nat) * (1 - sigm (th 0%nat))) by ring.
    apply (derivable_pt_lim_minus (fun _ => 1) sigm); [apply derivable_pt_lim_const|apply sigm_deriv].
  - unfold bpi, bdlog, with_comp. cbn [Nat.eqb]. rewrite Rmult_0_r. destruct a; apply derivable_pt_lim_const.
Qed.

Lemma sigm_0 : sigm 0 = / 2.
Proof. unfold sigm. rewrite Ropp_0, exp_0. lra. Qed.

(** With two episodes the expected gradient of REINFORCE (and of GPOMDP, the episodes having
    one step) is half the gradient of the expected return. *)
Theorem policy_gradient_bias_refuted : exists D,
  derivable_pt_lim (fun t => objective [true; false] bkern bpi [(1, tt)] 1 0 (with_comp vzero 0 t)) 0 D /\ D = 1 / 4 /\
  mean (batches 2 (episodes [true; false] bkern bpi [(1, tt)] vzero 0)) (fun b => comp (snd (pg_fit 1 reinforce rf0 (data bdlog vzero b))) 0) = 1 / 8 /\
  mean (batches 2 (episodes [true; false] bkern bpi [(1, tt)] vzero 0)) (fun b => comp (snd (pg_fit 1 gpomdp gp0 (data bdlog vzero b))) 0) = 1 / 8.
Proof.
  assert (P1 : forall th s, rsum (map (bpi th s) [true; false]) = 1) by (intros; cbn; unfold bpi; ring).
  assert (K1 : forall s a, In a [true; false] -> rsum (map prob (bkern s a)) = 1) by (intros; cbn; ring).
  eexists. split; [apply (objective_deriv [true; false] bkern bpi bdlog [(1, tt)] bandit_score 1 vzero 0 0)|]. split; [|split].
  - unfold mean, score_of. cbn -[sigm]. unfold bpi, bdlog, vzero. cbn -[sigm]. rewrite sigm_0. lra.
  - rewrite (mean_ext _ _ _ (fun b => reinforce_gradient 1 (map (seen bdlog vzero) b) 0)).
    + unfold mean, reinforce_gradient, reinforce_baseline, score_of, return_, quotient, bpi, bdlog, vzero. cbn -[sigm INR]. unfold bpi. cbn -[sigm INR]. rewrite sigm_0. cbn [INR].
      repeat match goal with |- context [Req_EM_T ?a ?b] => destruct (Req_EM_T a b); try lra end.
    + intros w b H. destruct (reinforce_fit [true; false] bkern bpi bdlog [(1, tt)] 1 vzero 0 2 w b 0 (le_n 2) H) as (v & -> & V). exact V.
  - rewrite (mean_ext _ _ _ (fun b => gpomdp_gradient 1 (map (seen bdlog vzero) b) (map (seen bdlog vzero) b) 0)).
    + unfold mean, gpomdp_gradient, gpomdp_baseline, score_upto, score_of, reward_at, quotient, bpi, bdlog, vzero. cbn -[sigm INR]. unfold bpi. cbn -[sigm INR]. rewrite sigm_0. cbn [INR].
      repeat match goal with |- context [Req_EM_T ?a ?b] => destruct (Req_EM_T a b); try lra end.
    + intros w b H. destruct (gpomdp_fit [true; false] bkern bpi bdlog [(1, tt)] 1 vzero 0 2 w b 0 (le_n 2) H) as (v & -> & V). exact V.
Qed.

Print Assumptions reinforce_expectation_partial.
Print Assumptions gpomdp_expectation_partial.
Print Assumptions policy_gradient_bias_refuted.

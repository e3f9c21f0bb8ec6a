(** Lemmas for VecReplayProps.v: windows of a concatenation; agents along a history of VectorCore. *)
From Coq Require Import List Arith Lia Bool Reals Lra.
From Verif Require Import Common ReplayModel ReplaySpec ReplayProofs VecLearnModel VecLearnSpec.
From Verif Require CoreModel.
Import ListNotations.

Section Windows.
Context {St Ac Ps : Type}.
Notation sample := (sample St Ac Ps).
Variables (n : nat) (g : R).
Hypothesis Hn : 1 <= n.

(** The window at the front. *)
Definition front (d : sample) (ds : list sample) : list sample :=
  if (n <=? length ds) && window_ok ds n 0 then [nstep_sample ds n g d 0] else [].

Lemma nstep_sample_dflt : forall (ds : list sample) d d' i, i + n <= length ds -> nstep_sample ds n g d i = nstep_sample ds n g d' i.
Proof.
  intros ds d d' i H. unfold nstep_sample. rewrite !(nth_indep ds d d') by lia. f_equal. unfold nstep_return. apply rsum_map_ext.
  intros j Hj. apply in_seq in Hj. rewrite (nth_indep ds d d') by lia. reflexivity.
Qed.

Lemma nstep_cons : forall x (ds : list sample), nstep_samples (x :: ds) n g = front x (x :: ds) ++ nstep_samples ds n g.
Proof.
  intros x ds. unfold nstep_samples at 1. unfold front. cbn [length].
  destruct (Nat.leb_spec n (S (length ds))) as [H|H].
  - replace (S (length ds) + 1 - n) with (S (length ds + 1 - n)) by lia. cbn [seq filter andb].
    assert (T : map (nstep_sample (x :: ds) n g x) (filter (window_ok (x :: ds) n) (seq 1 (length ds + 1 - n))) = nstep_samples ds n g).
    { destruct ds as [|y ds'].
      - cbn [length nstep_samples]. replace (0 + 1 - n) with 0 by lia. reflexivity.
      - set (ds := y :: ds') in *. unfold nstep_samples. unfold ds at 4. fold ds. rewrite <- seq_shift.
        assert (F : filter (window_ok (x :: ds) n) (map S (seq 0 (length ds + 1 - n))) = map S (filter (window_ok ds n) (seq 0 (length ds + 1 - n)))).
        { induction (seq 0 (length ds + 1 - n)) as [|i l IH]; [reflexivity|]. cbn [map filter].
          change (window_ok (x :: ds) n (S i)) with (window_ok ds n i). destruct (window_ok ds n i); cbn [map]; rewrite IH; reflexivity. }
        rewrite F, map_map. apply map_ext_in. intros i Hi. apply filter_In in Hi as [Hi _]. apply in_seq in Hi.
        transitivity (nstep_sample ds n g x i); [reflexivity|]. apply nstep_sample_dflt. lia. }
    destruct (window_ok (x :: ds) n 0); cbn [map app]; rewrite T; reflexivity.
  - replace (S (length ds) + 1 - n) with 0 by lia. cbn [andb app]. destruct ds as [|y ds']; [reflexivity|].
    unfold nstep_samples. cbn [length] in *. replace (S (length ds') + 1 - n) with 0 by lia. reflexivity.
Qed.

Lemma front_app : forall x (u v : list sample), n <= length (x :: u) -> front x ((x :: u) ++ v) = front x (x :: u).
Proof.
  intros x u v H. unfold front. rewrite (proj2 (Nat.leb_le _ _) H). rewrite (proj2 (Nat.leb_le n (length ((x :: u) ++ v)))) by (rewrite app_length; lia).
  set (l := x :: u) in *. cbn [andb].
  assert (W : window_ok (l ++ v) n 0 = window_ok l n 0).
  { unfold window_ok, slice. cbn [skipn]. f_equal. rewrite firstn_app. replace (0 + (n - 1) - 0 - length l) with 0 by lia. cbn [firstn]. apply app_nil_r. }
  rewrite W. destruct (window_ok l n 0); [|reflexivity]. f_equal. unfold nstep_sample. rewrite !app_nth1 by lia. f_equal.
  unfold nstep_return. apply rsum_map_ext. intros j Hj. apply in_seq in Hj. rewrite app_nth1 by lia. reflexivity.
Qed.

Lemma front_short : forall x (u : list sample) z v, length (u ++ [z]) < n -> s_last z = true -> front x ((u ++ [z]) ++ v) = [].
Proof.
  intros x u z v H Z. unfold front. destruct (n <=? _); [|reflexivity]. cbn [andb].
  assert (W : window_ok ((u ++ [z]) ++ v) n 0 = false).
  { unfold window_ok, slice. cbn [skipn]. destruct (forallb _ _) eqn:F; [|reflexivity]. exfalso. rewrite forallb_forall in F.
    specialize (F z). rewrite Z in F. cbn in F. assert (In z (firstn (0 + (n - 1) - 0) ((u ++ [z]) ++ v))); [|specialize (F H0); discriminate].
    rewrite firstn_app. apply in_or_app. left. rewrite firstn_all2 by lia. apply in_or_app. right. left. reflexivity. }
  rewrite W. reflexivity.
Qed.

(** Windows do not reach over the end of an episode. *)
Lemma nstep_app : forall u z (v : list sample), s_last z = true ->
  nstep_samples ((u ++ [z]) ++ v) n g = nstep_samples (u ++ [z]) n g ++ nstep_samples v n g.
Proof.
  induction u as [|x u IH]; intros z v Z.
  - cbn [app]. rewrite !nstep_cons. change (nstep_samples [] n g) with (@nil sample). rewrite app_nil_r. f_equal.
    destruct (Nat.le_gt_cases n 1) as [L|L]; [apply (front_app z [] v); cbn; lia|].
    etransitivity; [apply (front_short z [] z v); [cbn; lia|exact Z]|]. symmetry. unfold front. cbn [length]. rewrite (proj2 (Nat.leb_gt _ _)) by lia. reflexivity.
  - cbn [app]. rewrite !nstep_cons, IH by exact Z. rewrite app_assoc. f_equal. f_equal.
    destruct (Nat.le_gt_cases n (length (x :: u ++ [z]))) as [L|L]; [apply (front_app x (u ++ [z]) v L)|].
    etransitivity; [apply (front_short x (x :: u) z v); [exact L|exact Z]|]. symmetry. unfold front. rewrite (proj2 (Nat.leb_gt _ _)) by exact L. reflexivity.
Qed.
End Windows.

(** Whatever survives a batch of actions depends only on the fits. *)
Section History.
Context {E X A Ag : Type}.
Variable n : nat.
Variable e_reset : E -> E * X.
Variable e_step : E -> A -> E * X * R * bool.
Variable draw : Ag -> list X -> Ag * list A.
Variable fitf : Ag -> list (CoreModel.sample X A R unit) -> Ag.

Lemma history_agent : forall (Q : list (list (CoreModel.sample X A R unit)) -> Ag -> Prop) es a,
  Q [] a -> (forall ds b xs, Q ds b -> Q ds (fst (draw b xs))) -> (forall ds b d, Q ds b -> Q (ds ++ [d]) (fitf b d)) ->
  forall l c, history n e_reset e_step draw fitf (es, a) l c -> Q (xfits_of l) (snd c).
Proof.
  intros Q es a H0 HD HF l c H. remember (es, a) as c0 eqn:EC. induction H as [c|c l c1 ev c2 H IH HP]; subst; [exact H0|].
  specialize (IH eq_refl). unfold xfits_of in *. rewrite flat_map_app. cbn [flat_map]. set (ds := flat_map _ l) in *. clearbody ds.
  inversion HP; subst; cbn [snd] in *; rewrite ?app_nil_r.
  - exact IH.
  - match goal with D : draw ?b ?xs = (?b', _) |- _ => pose proof (HD ds b xs IH) as Z; rewrite D in Z; exact Z end.
  - apply HF. exact IH.
Qed.
End History.

(** Theorems C47, C64. *)
From Coq Require Import List Arith Lia Bool Reals Ascii Lra.
From Verif Require Import Common LogModel.
Import ListNotations.

(** * C47 *)
Definition slt (a b : score) : Prop := sge b a = true /\ sge a b = false.
Lemma sge_trans : forall a b c, sge a b = true -> sge b c = true -> sge a c = true.
Proof. intros [| |x|] [| |y|] [| |z|]; simpl; auto; try discriminate. destruct (Rle_dec y x), (Rle_dec z y); try discriminate. intros. destruct (Rle_dec z x); auto. lra. Qed.
Lemma sge_total : forall a b, a <> SNan -> b <> SNan -> sge a b = false -> sge b a = true.
Proof. intros [| |x|] [| |y|] H1 H2; simpl; try congruence; auto. destruct (Rle_dec y x); try discriminate. intros _. destruct (Rle_dec x y); auto. lra. Qed.

(** [a] is saved: it has the largest score of all calls, and the later ones are strictly lower. *)
Definition last_best {A} (calls : list (A * score)) (a : A) : Prop :=
  exists pre J post, calls = pre ++ (a, J) :: post /\ J <> SNan /\
    (forall b K, In (b, K) pre -> K <> SNan -> sge J K = true) /\ (forall b K, In (b, K) post -> K <> SNan -> slt K J).

(** After any sequence of calls the file holds the last agent with the best score so far;
    scores that are not a number are ignored. *)
Theorem best_agent_saved : forall A (file : option A) calls,
  (exists a J, In (a, J) calls /\ J <> SNan) ->
  exists a, log_run file calls = Some a /\ last_best calls a.
Proof.
  intros A file calls. unfold log_run.
  assert (G : forall calls, let st := fold_left log_best calls (SNInf, file) in
    ((forall a J, In (a, J) calls -> J = SNan) /\ st = (SNInf, file)) \/
    (exists a pre J post, st = (J, Some a) /\ calls = pre ++ (a, J) :: post /\ J <> SNan /\
      (forall b K, In (b, K) pre -> K <> SNan -> sge J K = true) /\ (forall b K, In (b, K) post -> K <> SNan -> slt K J))).
  { clear. intros calls. induction calls as [|[b K] calls IH] using rev_ind; [left; split; [intros ? ? []|reflexivity]|].
    rewrite fold_left_app. simpl. destruct IH as [[N ->]|(a & pre & J & post & -> & Ec & NJ & H1 & H2)].
    - unfold log_best. cbn [fst snd]. destruct (sge K SNInf) eqn:G.
      + right. exists b, calls, K, []. split; auto. split; auto. split; [intros ->; discriminate|]. split; [|intros ? ? []].
        intros b0 K0 HI HN. exfalso. apply HN. eapply N; eauto.
      + left. split; auto. intros a J H. apply in_app_or in H. destruct H as [H|[H|[]]]; [eapply N; eauto|]. inversion H; subst. destruct J; simpl in G; try discriminate; auto.
    - unfold log_best. cbn [fst snd]. destruct (sge K J) eqn:G.
      + right. exists b, calls, K, []. assert (NK : K <> SNan) by (intros ->; discriminate). split; auto. split; auto. split; auto. split; [|intros ? ? []].
        intros b0 K0 HI HN. subst calls. apply in_app_or in HI. destruct HI as [HI|[HI|HI]].
        * eapply sge_trans; eauto.
        * inversion HI; subst. auto.
        * destruct (H2 _ _ HI HN) as [L _]. eapply sge_trans; eauto.
      + right. exists a, pre, J, (post ++ [(b, K)]). split; auto. split; [subst calls; rewrite <- app_assoc; reflexivity|]. split; auto. split; auto.
        intros b0 K0 HI HN. apply in_app_or in HI. destruct HI as [HI|[HI|[]]]; [eapply H2; eauto|]. inversion HI; subst. split; auto. apply sge_total; auto. }
  intros (a0 & J0 & HI & HN). destruct (G calls) as [[N _]|(a & pre & J & post & E & Ec & NJ & H1 & H2)].
  - exfalso. apply HN. eapply N; eauto.
  - exists a. rewrite E. split; auto. exists pre, J, post. auto.
Qed.

(** As stated in the property, with the first of several equally good agents, it is false. *)
Theorem best_agent_first_refuted : exists calls : list (nat * score), log_run None calls = Some 1 /\ hd (7, SNan) calls = (0, SFin 5) /\
  forall a J, In (a, J) calls -> sge (SFin 5) J = true.
Proof.
  exists [(0, SFin 5); (1, SFin 5)]. split; [|split; auto].
  - unfold log_run. simpl. unfold log_best. simpl. destruct (Rle_dec 5 5); [|lra]. reflexivity.
  - intros a J [H|[H|[]]]; inversion H; subst; simpl; destruct (Rle_dec 5 5); auto; lra.
Qed.

(** A second logger on the same directory forgets the best score and overwrites the best agent. *)
Theorem best_agent_reopened_refuted : exists c1 c2 : list (nat * score), log_run None c1 = Some 0 /\ In (0, SFin 5) c1 /\
  log_run (log_run None c1) c2 = Some 1 /\ c2 = [(1, SFin 2)].
Proof.
  exists [(0, SFin 5)], [(1, SFin 2)]. repeat split; simpl; auto.
Qed.

(** * C64: appending to numpy logs *)
Lemma dget_dset : forall d k v k', dget (dset d k v) k' = if name_dec k' k then Some v else dget d k'.
Proof.
  induction d as [|[a w] d IH]; intros k v k'; simpl.
  - destruct (name_dec k' k); auto.
  - destruct (name_dec k a) as [->|N]; simpl.
    + destruct (name_dec k' a); auto.
    + destruct (name_dec k' a) as [->|N2]; [destruct (name_dec a k); [congruence|auto]|apply IH].
Qed.
Lemma ends_with_spec : forall s suf, ends_with s suf = true <-> exists p, s = p ++ suf.
Proof.
  intros s suf. unfold ends_with, lastn. split.
  - destruct (name_dec _ _) as [E|]; [|discriminate]. intros _. exists (firstn (length s - length suf) s). rewrite <- E at 2. symmetry. apply firstn_skipn.
  - intros [p ->]. rewrite app_length. replace (length p + length suf - length suf) with (length p) by lia.
    rewrite skipn_app, skipn_all, Nat.sub_diag. simpl. destruct (name_dec suf suf); [|congruence]. apply Nat.leb_le. lia.
Qed.
Lemma span_digits_app : forall ds rest, forallb is_digit ds = true -> match rest with c :: _ => is_digit c = false | [] => True end ->
  span_digits (ds ++ rest) = (ds, rest).
Proof.
  induction ds as [|c ds IH]; intros rest H HR; simpl in *.
  - destruct rest; simpl; auto. rewrite HR. auto.
  - apply andb_prop in H. destruct H as [H1 H2]. rewrite H1, IH; auto.
Qed.
Lemma strip_suffix : forall p ds, ds <> [] -> forallb is_digit ds = true -> strip_seed (p ++ dash :: ds) = p.
Proof.
  intros p ds N D. unfold strip_seed. rewrite rev_app_distr. simpl. rewrite <- app_assoc. simpl.
  assert (DR : forallb is_digit (rev ds) = true) by (apply forallb_forall; intros x Hx; apply in_rev in Hx; rewrite forallb_forall in D; auto).
  rewrite span_digits_app by auto. destruct (rev ds) eqn:E.
  - exfalso. apply N. rewrite <- (rev_involutive ds), E. reflexivity.
  - destruct (ascii_dec dash dash); [|congruence]. apply rev_involutive.
Qed.

Lemma load_get : forall suffix disk ds, suffix = dash :: ds -> ds <> [] -> forallb is_digit ds = true -> NoDup (map fst disk) ->
  forall nm, dget (load_numpy suffix disk) nm = dget disk (nm ++ suffix).
Proof.
  intros suffix disk ds ES N D. unfold load_numpy.
  assert (G : forall disk d nm, NoDup (map fst disk) ->
    dget (fold_left (fun d f => if ends_with (fst f) suffix then dset d (strip_seed (fst f)) (snd f) else d) disk d) nm =
      match dget disk (nm ++ suffix) with Some v => Some v | None => dget d nm end).
  { induction disk0 as [|[f v] disk0 IH]; intros d nm ND; [reflexivity|]. simpl in ND. inversion ND as [|? ? NI ND2]; subst. cbn [fold_left fst snd]. rewrite IH by auto. cbn [dget].
    assert (AB : forall k, ~ In k (map fst disk0) -> dget disk0 k = None).
    { clear. induction disk0 as [|[a w] l IH]; intros k H; simpl in *; auto. destruct (name_dec k a) as [->|]; [tauto|]. apply IH. tauto. }
    destruct (name_dec (nm ++ dash :: ds) f) as [<-|NE].
    - rewrite (AB _ NI). assert (EW : ends_with (nm ++ dash :: ds) (dash :: ds) = true) by (apply ends_with_spec; eauto).
      rewrite EW, dget_dset, strip_suffix by auto. destruct (name_dec nm nm); congruence.
    - destruct (dget disk0 (nm ++ dash :: ds)); auto. destruct (ends_with f (dash :: ds)) eqn:EW; auto.
      apply ends_with_spec in EW. destruct EW as [p ->]. rewrite strip_suffix by auto. rewrite dget_dset. destruct (name_dec nm p); congruence. }
  intros ND nm. rewrite G by auto. destruct (dget disk (nm ++ suffix)); auto.
Qed.

Lemma append_gen : forall suffix disk logs, (forall nm, dget (load_numpy suffix disk) nm = dget disk (nm ++ suffix)) ->
  let final := l_disk (fold_left log_numpy logs (open_append suffix disk)) in
  (forall nm, (exists v, In (nm, v) logs) ->
     dget final (nm ++ suffix) = Some (match dget disk (nm ++ suffix) with Some d => d | None => [] end ++ map snd (filter (fun nv => if name_dec (fst nv) nm then true else false) logs))) /\
  (forall f, (forall nm v, In (nm, v) logs -> f <> nm ++ suffix) -> dget final f = dget disk f).
Proof.
  intros suffix disk logs LG final.
  assert (G : forall logs, let l := fold_left log_numpy logs (open_append suffix disk) in l_suffix l = suffix /\
    (forall nm, match dget (l_data l) nm with Some d => d | None => [] end = match dget disk (nm ++ suffix) with Some d => d | None => [] end ++ map snd (filter (fun nv => if name_dec (fst nv) nm then true else false) logs)) /\
    (forall nm, (exists v, In (nm, v) logs) -> dget (l_disk l) (nm ++ suffix) = Some (match dget disk (nm ++ suffix) with Some d => d | None => [] end ++ map snd (filter (fun nv => if name_dec (fst nv) nm then true else false) logs))) /\
    (forall f, (forall nm v, In (nm, v) logs -> f <> nm ++ suffix) -> dget (l_disk l) f = dget disk f)).
  { induction logs0 as [|[k v] logs0 IH] using rev_ind.
    - simpl. split; auto. split; [|split; [intros nm [? []]|auto]]. intros nm. rewrite LG. rewrite app_nil_r. reflexivity.
    - rewrite fold_left_app. simpl. destruct IH as (S0 & I1 & I2 & I3). set (l := fold_left log_numpy logs0 (open_append suffix disk)) in *.
      assert (APP : forall x y : name, x ++ suffix = y ++ suffix -> x = y) by (intros x y; apply app_inv_tail).
      assert (DT : match dget (l_data l) k with Some d => d ++ [v] | None => [v] end =
        match dget disk (k ++ suffix) with Some d => d | None => [] end ++ map snd (filter (fun nv => if name_dec (fst nv) k then true else false) (logs0 ++ [(k, v)]))).
      { rewrite filter_app, map_app, app_assoc, <- I1. simpl. destruct (name_dec k k); [|congruence]. simpl. destruct (dget (l_data l) k); reflexivity. }
      unfold log_numpy. cbn [fst snd l_suffix l_data l_disk]. rewrite DT. split; auto. rewrite S0. split; [|split].
      + intros nm. rewrite dget_dset. destruct (name_dec nm k) as [->|NE]; auto. rewrite I1, filter_app, map_app, app_assoc. simpl. destruct (name_dec k nm); [congruence|]. simpl. rewrite app_nil_r. reflexivity.
      + intros nm [w Hw]. rewrite dget_dset. destruct (name_dec (nm ++ suffix) (k ++ suffix)) as [E|NE].
        * apply APP in E. rewrite E. reflexivity.
        * assert (nm <> k) by congruence. rewrite I2.
          -- rewrite filter_app, map_app. simpl. destruct (name_dec k nm); [congruence|]. simpl. rewrite app_nil_r. reflexivity.
          -- apply in_app_or in Hw. destruct Hw as [Hw|[Hw|[]]]; [eauto|]. inversion Hw; congruence.
      + intros f Hf. rewrite dget_dset. destruct (name_dec f (k ++ suffix)) as [->|NE].
        * exfalso. apply (Hf k v); auto. apply in_or_app. right. left. auto.
        * apply I3. intros nm w Hw. apply (Hf nm w). apply in_or_app. auto. }
  destruct (G logs) as (_ & _ & A & B). split; [exact A|exact B].
Qed.

(** A logger with a seed, reopened with append=True, continues every series: the file of a
    quantity holds the old values followed by the new ones, in order; files of other
    quantities, of other seeds and of runs without seed are not touched. *)
Theorem numpy_log_append : forall ds disk logs, ds <> [] -> forallb is_digit ds = true -> NoDup (map fst disk) ->
  let suffix := dash :: ds in
  let final := l_disk (fold_left log_numpy logs (open_append suffix disk)) in
  (forall nm, (exists v, In (nm, v) logs) ->
     dget final (nm ++ suffix) = Some (match dget disk (nm ++ suffix) with Some d => d | None => [] end ++ map snd (filter (fun nv => if name_dec (fst nv) nm then true else false) logs))) /\
  (forall f, (forall nm v, In (nm, v) logs -> f <> nm ++ suffix) -> dget final f = dget disk f).
Proof.
  intros ds disk logs N D ND suffix. apply append_gen. apply (load_get suffix disk ds eq_refl N D ND).
Qed.

(** Without a seed the same holds if no file in the directory carries a seed suffix. *)
Definition seeded (f : name) : Prop := exists p ds, ds <> [] /\ forallb is_digit ds = true /\ f = p ++ dash :: ds.

Lemma span_digits_spec : forall l a b, span_digits l = (a, b) -> l = a ++ b /\ forallb is_digit a = true.
Proof.
  induction l as [|c l IH]; intros a b H; simpl in H; [inversion H; auto|].
  destruct (is_digit c) eqn:E; [|inversion H; auto].
  destruct (span_digits l) as [a' b'] eqn:S. inversion H; subst. destruct (IH _ _ eq_refl) as [-> D]. simpl. rewrite E. auto.
Qed.

Lemma strip_unseeded : forall f, ~ seeded f -> strip_seed f = f.
Proof.
  intros f N. unfold strip_seed. destruct (span_digits (rev f)) as [a b] eqn:E. destruct a as [|x a]; auto. destruct b as [|c r]; auto.
  destruct (ascii_dec c dash) as [->|]; auto. exfalso. apply N. apply span_digits_spec in E. destruct E as [E D].
  exists (rev r), (rev (x :: a)). repeat split.
  - intros X. apply (f_equal (@length _)) in X. rewrite rev_length in X. discriminate.
  - apply forallb_forall. intros y Hy. apply in_rev in Hy. rewrite forallb_forall in D. auto.
  - rewrite <- (rev_involutive f), E, rev_app_distr. cbn [rev]. rewrite <- !app_assoc. reflexivity.
Qed.

Theorem numpy_log_append_no_seed : forall disk logs, NoDup (map fst disk) -> (forall f v, In (f, v) disk -> ~ seeded f) ->
  let final := l_disk (fold_left log_numpy logs (open_append [] disk)) in
  (forall nm, (exists v, In (nm, v) logs) ->
     dget final nm = Some (match dget disk nm with Some d => d | None => [] end ++ map snd (filter (fun nv => if name_dec (fst nv) nm then true else false) logs))) /\
  (forall f, (forall nm v, In (nm, v) logs -> f <> nm) -> dget final f = dget disk f).
Proof.
  intros disk logs ND NS.
  assert (LG : forall nm, dget (load_numpy [] disk) nm = dget disk (nm ++ [])).
  { intros nm. rewrite app_nil_r. unfold load_numpy.
    assert (G : forall dk d, NoDup (map fst dk) -> (forall f v, In (f, v) dk -> ~ seeded f) ->
      dget (fold_left (fun d f => if ends_with (fst f) [] then dset d (strip_seed (fst f)) (snd f) else d) dk d) nm = match dget dk nm with Some v => Some v | None => dget d nm end).
    { induction dk as [|[f v] dk IH]; intros d ND' NS'; [reflexivity|]. inversion ND' as [|? ? NI ND2]; subst. cbn [fold_left fst snd].
      assert (EW : ends_with f [] = true) by (apply ends_with_spec; exists f; rewrite app_nil_r; auto).
      rewrite EW, strip_unseeded by (apply (NS' f v); left; auto). rewrite IH by (auto; intros; apply (NS' _ v0); right; auto).
      rewrite dget_dset. cbn [dget]. destruct (name_dec nm f) as [->|]; auto.
      assert (AB : forall l : dict, ~ In f (map fst l) -> dget l f = None).
      { clear. induction l as [|[a w] l IH]; intros H; simpl in *; auto. destruct (name_dec f a) as [->|]; [tauto|]. apply IH. tauto. }
      rewrite AB by auto. reflexivity. }
    rewrite G by auto. destruct (dget disk nm); auto. }
  pose proof (append_gen [] disk logs LG) as [A B]. split.
  - intros nm H. specialize (A nm H). rewrite app_nil_r in A. exact A.
  - intros f H. apply B. intros nm v Hin. rewrite app_nil_r. eauto.
Qed.

(** names with digits at the end and dashes inside are kept *)
Example append_no_seed_demo : dget (l_disk (fold_left log_numpy [(["J"; "2"]%char, 3%R)]
    (open_append [] [(["J"; "2"]%char, [1%R]); (["-"; "7"; "a"]%char, [9%R])]))) ["J"; "2"]%char = Some [1; 3]%R.
Proof. vm_compute. reflexivity. Qed.

(** Without a seed the series of a run with a seed is taken over, and the own data lost. *)
Theorem numpy_log_append_no_seed_refuted : exists (J : name) (disk : dict), NoDup (map fst disk) /\ dget disk J = Some [1; 2]%R /\
  dget (l_disk (log_numpy (open_append [] disk) (J, 3%R))) J = Some [9; 3]%R.
Proof.
  exists ["J"%char], [(["J"%char], [1; 2]%R); (["J"; "-"; "4"]%char, [9%R])]. split; [|split].
  - repeat constructor; simpl; intuition discriminate.
  - reflexivity.
  - vm_compute. reflexivity.
Qed.

Example append_demo : dget (l_disk (fold_left log_numpy [(["J"%char], 3%R); (["R"%char], 8%R); (["J"%char], 4%R)]
    (open_append ["-"; "4"]%char [(["J"%char], [1; 2]%R); (["J"; "-"; "4"]%char, [9%R]); (["J"; "-"; "1"; "4"]%char, [7%R])]))) ["J"; "-"; "4"]%char = Some [9; 3; 4]%R.
Proof. vm_compute. reflexivity. Qed.
Example best_demo : last_best [(0, SFin 1); (1, SNan); (2, SFin 1); (3, SNInf)] 2.
Proof.
  exists [(0, SFin 1); (1, SNan)], (SFin 1), [(3, SNInf)]. split; auto. split; [discriminate|]. split.
  - intros b K [H|[H|[]]] HN; inversion H; subst; [|congruence]. simpl. destruct (Rle_dec 1 1); auto. lra.
  - intros b K [H|[]] HN; inversion H; subst. split; reflexivity.
Qed.

Print Assumptions best_agent_saved.
Print Assumptions best_agent_first_refuted.
Print Assumptions best_agent_reopened_refuted.
Print Assumptions numpy_log_append.
Print Assumptions numpy_log_append_no_seed.
Print Assumptions numpy_log_append_no_seed_refuted.

(** C109: gradients, optimizers and the parameters they refer to, through training, saving,
    loading and copying. *)
From Coq Require Import List Arith Lia Bool Reals.
From Verif Require Import Common GradModel GradSpec GradProofs.
Import ListNotations.

Section Props.
Context {V St : Type}.
Variable add : V -> V -> V.
Variable st0 : St.
Notation heap := (@heap V).
Notation part := (@part V St).
Notation pure := (@pure V St).
Notation dget := (@dget St st0).
Implicit Types (h : heap) (a : list part).

(** ** Lists *)
Lemma F2_nth : forall A B (P : A -> B -> Prop) l m i x, Forall2 P l m -> nth_error l i = Some x -> exists y, nth_error m i = Some y /\ P x y.
Proof.
  intros A B P l m i x F. revert i. induction F as [|u v l m H F IH]; intros [|i] E; cbn [nth_error] in *; try discriminate; eauto.
  injection E as <-. eauto.
Qed.

Lemma F2_nth_none : forall A B (P : A -> B -> Prop) l m i, Forall2 P l m -> nth_error l i = None -> nth_error m i = None.
Proof. intros A B P l m i F. revert i. induction F; intros [|i] E; cbn [nth_error] in *; try discriminate; auto. Qed.

Lemma F2_setnth : forall A B (P Q : A -> B -> Prop) l m i x y, Forall2 P l m ->
  (forall j u v, j <> i -> nth_error l j = Some u -> nth_error m j = Some v -> P u v -> Q u v) -> Q x y ->
  Forall2 Q (setnth l i x) (setnth m i y).
Proof.
  intros A B P Q l m i x y F. revert i. induction F as [|u v l m H F IH]; intros i K X.
  - destruct i; constructor.
  - destruct i as [|i]; cbn [setnth].
    + constructor; [exact X|]. assert (G : forall j u v, nth_error l j = Some u -> nth_error m j = Some v -> P u v -> Q u v) by (intros j w z E1 E2; apply (K (S j)); [lia|exact E1|exact E2]).
      clear -F G. induction F as [|u v l m H F IH]; constructor; [apply (G 0); auto|]. apply IH. intros j w z E1 E2. apply (G (S j)); auto.
    + constructor; [apply (K 0); auto|]. apply IH; [|exact X]. intros j w z N E1 E2. apply (K (S j)); auto.
Qed.

Lemma F2_weaken : forall A B (P Q : A -> B -> Prop) l m, Forall2 P l m -> (forall x y, In x l -> P x y -> Q x y) -> Forall2 Q l m.
Proof. intros A B P Q l m F. induction F; intros K; constructor; [apply K; [left; reflexivity|assumption]|]. apply IHF. intros. apply K; [right; assumption|assumption]. Qed.

Lemma F2_map_eq : forall A B C (f : A -> C) (g : B -> C) l m, Forall2 (fun x y => f x = g y) l m -> map f l = map g m.
Proof. intros A B C f g l m F. induction F; cbn; congruence. Qed.

Lemma map_setnth_same : forall A B (f : A -> B) l i x y, nth_error l i = Some x -> f y = f x -> map f (setnth l i y) = map f l.
Proof.
  induction l as [|u l IH]; intros [|i] x y E F; cbn [nth_error setnth map] in *; try discriminate.
  - injection E as ->. rewrite F. reflexivity.
  - f_equal. eauto.
Qed.

Lemma concat_other : forall A (l : list (list A)) i j x y q, NoDup (concat l) -> nth_error l i = Some x -> nth_error l j = Some y -> In q x -> In q y -> i = j.
Proof.
  induction l as [|u l IH]; intros i j x y q N EI EJ X Y; [destruct i; discriminate|]. cbn [concat] in N. apply NoDup_app_parts in N as (_ & N2 & DJ).
  destruct i as [|i], j as [|j]; cbn [nth_error] in *; [reflexivity| | |f_equal; eauto].
  - injection EI as ->. destruct (DJ q X). apply in_concat. exists y. split; [apply (nth_error_In _ _ EJ)|exact Y].
  - injection EJ as ->. destruct (DJ q Y). apply in_concat. exists x. split; [apply (nth_error_In _ _ EI)|exact X].
Qed.

Lemma NoDup_in_concat : forall A (l : list (list A)) x, NoDup (concat l) -> In x l -> NoDup x.
Proof.
  induction l as [|u l IH]; intros x N I; [destruct I|]. cbn [concat] in N. apply NoDup_app_parts in N as (N1 & N2 & _). destruct I as [<-|I]; auto.
Qed.

Lemma combine3 : forall X A B C (f : X -> A) (g : X -> B) (k : X -> C) l, combine (combine (map f l) (map g l)) (map k l) = map (fun p => ((f p, g p), k p)) l.
Proof. induction l; cbn; congruence. Qed.

(** ** The agent represents the values *)
Definition rep1 h (c : part) (u : pure) : Prop :=
  o_params (opt c) = net c /\ clipped c = net c /\ rule_of c = pr u /\ values h (net c) = vs u /\ map (dget (o_state (opt c))) (net c) = ss u /\
  Forall (fun p => p < next h) (net c) /\ Forall (fun e => In (fst e) (net c)) (o_state (opt c)).
Definition Rep (ha : heap * list part) (pa : list pure) : Prop :=
  Forall2 (rep1 (fst ha)) (snd ha) pa /\ NoDup (concat (map net (snd ha))).

Lemma rep_values : forall h a pa, Forall2 (rep1 h) a pa -> map (fun c => values h (net c)) a = map vs pa.
Proof. intros h a pa F. apply F2_map_eq. eapply F2_weaken; [exact F|]. intros x y _ (_ & _ & _ & E & _). exact E. Qed.

Lemma rep1_keep : forall h h' c u, next h <= next h' -> (forall q, In q (net c) -> val (at_ h' q) = val (at_ h q)) -> rep1 h c u -> rep1 h' c u.
Proof.
  intros h h' c u N K (A & B & C & D & E & F & G). repeat split; auto.
  - unfold values in *. rewrite <- D. apply map_ext_in. exact K.
  - eapply Forall_impl; [|exact F]. cbn. lia.
Qed.

Lemma fit_rep : forall h a pa i loss cl, Rep (h, a) pa -> Rep (fit add st0 i loss cl (h, a)) (pfit i loss cl pa).
Proof.
  intros h a pa i loss cl [F N]. cbn [fst snd] in F, N. unfold fit, pfit. destruct (nth_error a i) as [c|] eqn:E.
  2: { rewrite (F2_nth_none _ _ _ _ _ _ F E). split; assumption. }
  destruct (F2_nth _ _ _ _ _ _ _ F E) as (u & E' & R1). rewrite E'. cbv zeta.
  rewrite (rep_values _ _ _ F). set (g := loss (map vs pa)).
  pose proof R1 as (A1 & A2 & A3 & A4 & A5 & A6 & A7). rewrite A1, A2.
  assert (NC : NoDup (net c)) by (apply (NoDup_in_concat _ _ _ N), in_map, (nth_error_In _ _ E)).
  set (h1 := zero_grad (net c) h). set (h2 := backward_all add g 0 a h1). set (h3 := clip cl (net c) h2).
  destruct (step st0 (rule_of c) (net c) (h3, o_state (opt c))) as [h4 d] eqn:ES.
  destruct (step_spec st0 _ _ _ _ _ _ NC ES) as (S1 & S2 & S3 & S4).
  destruct (zero_grad_spec (net c) h) as (Z1 & Z2 & _). fold h1 in Z1, Z2.
  destruct (backward_all_spec add g a 0 h1) as (B1 & B2 & _). fold h2 in B1, B2.
  destruct (scale_spec (cl (map (fun p => grad (at_ h2 p)) (net c))) (net c) h2 NC) as (C1 & C2 & C3). change (next h3 = next h2) in C1.
  change (forall q, val (at_ h3 q) = val (at_ h2 q)) in C2.
  assert (G2 : map (fun p => grad (at_ h2 p)) (net c) = map (g i) (seq 0 (length (vs u)))).
  { unfold h2. rewrite (backward_all_grads add g a 0 h1 i c N E).
    - rewrite <- A4. unfold values. rewrite map_length. reflexivity.
    - intros q I. apply zero_grad_none. exact I. }
  assert (G3 : map (fun p => grad (at_ h3 p)) (net c) = map (option_map (cl (map (g i) (seq 0 (length (vs u)))))) (map (g i) (seq 0 (length (vs u))))).
  { rewrite <- G2 at 2. rewrite map_map. apply map_ext_in. intros p I. unfold h3, clip. rewrite C3, G2.
    assert (X : existsb (Nat.eqb p) (net c) = true) by (apply existsb_exists; exists p; split; [exact I|apply Nat.eqb_refl]). rewrite X. reflexivity. }
  assert (V3 : forall q, val (at_ h3 q) = val (at_ h q)) by (intros; rewrite C2, B2; apply Z2).
  assert (N4 : next h4 = next h) by congruence.
  rewrite <- G3, <- A4, <- A5. unfold values. rewrite combine3, map_map. cbn [fst snd].
  split; cbn [fst snd].
  - eapply F2_setnth; [exact F| |].
    + intros j x y NJ EX EY R. eapply rep1_keep; [|  |exact R]; [lia|]. intros q I. destruct (S2 q) as [-> _]; [|apply V3].
      intros J. apply NJ. symmetry. apply (concat_other _ _ i j (net c) (net x) q N); [apply map_nth_error; exact E|apply map_nth_error; exact EX|exact J|exact I].
    + split; [reflexivity|]. split; [reflexivity|]. split; [cbn; auto|]. cbn [net vs ss opt o_state o_params].
      split; [|split; [|split]].
      * unfold values. rewrite !map_map. apply map_ext_in. intros q I. cbn [fst snd]. rewrite <- A3, <- (V3 q), <- (S3 q I). reflexivity.
      * rewrite !map_map. apply map_ext_in. intros q I. cbn [fst snd]. rewrite <- A3, <- (V3 q), <- (S3 q I). reflexivity.
      * rewrite N4. exact A6.
      * apply Forall_forall. intros e I. destruct (S4 e I) as [J|J]; [exact J|]. rewrite Forall_forall in A7. apply A7. exact J.
  - rewrite (map_setnth_same _ _ net a i c); [exact N|exact E|reflexivity].
Qed.

Lemma write_spec : forall ps (xs : list V) h, NoDup ps -> length ps = length xs -> next (write ps xs h) = next h /\
  values (write ps xs h) ps = xs /\ forall q, ~ In q ps -> at_ (write ps xs h) q = at_ h q.
Proof.
  induction ps as [|p ps IH]; intros [|x xs] h N L; try discriminate; cbn [write]; [auto|]. inversion N as [|? ? NI N']; subst.
  destruct (IH xs (put h p (mkC x (grad (at_ h p)))) N') as (A & B & C); [cbn in L; lia|]. split; [exact A|]. split.
  - unfold values in *. cbn [map]. rewrite B, (C p NI), put_at, Nat.eqb_refl. reflexivity.
  - intros q NQ. rewrite C by (intros I; apply NQ; right; exact I). rewrite put_at. destruct (q =? p) eqn:E; [|reflexivity].
    apply Nat.eqb_eq in E. subst. destruct NQ. left. reflexivity.
Qed.

Lemma setnth_same : forall A (l : list A) i x, nth_error l i = Some x -> setnth l i x = l.
Proof. induction l as [|u l IH]; intros [|i] x E; cbn [nth_error setnth] in *; try discriminate; [congruence|]. f_equal. auto. Qed.

Lemma set_rep : forall h a pa i f, Rep (h, a) pa -> Rep (set i f (h, a)) (pset i f pa).
Proof.
  intros h a pa i f [F N]. cbn [fst snd] in F, N. unfold set, pset. destruct (nth_error a i) as [c|] eqn:E.
  2: { rewrite (F2_nth_none _ _ _ _ _ _ F E). split; assumption. }
  destruct (F2_nth _ _ _ _ _ _ _ F E) as (u & E' & R1). rewrite E', (rep_values _ _ _ F).
  pose proof R1 as (A1 & A2 & A3 & A4 & A5 & A6 & A7).
  assert (NC : NoDup (net c)) by (apply (NoDup_in_concat _ _ _ N), in_map, (nth_error_In _ _ E)).
  assert (L : length (vs u) = length (net c)) by (rewrite <- A4; apply map_length). rewrite L.
  destruct (write_spec (net c) (map (f (map vs pa)) (seq 0 (length (net c)))) h NC) as (W1 & W2 & W3); [rewrite map_length, seq_length; reflexivity|].
  split; cbn [fst snd]; [|exact N]. rewrite <- (setnth_same _ a i c E) at 1. eapply F2_setnth; [exact F| |].
  - intros j x y NJ EX EY R. eapply rep1_keep; [| |exact R]; [lia|]. intros q I. rewrite W3; [reflexivity|].
    intros J. apply NJ. symmetry. apply (concat_other _ _ i j (net c) (net x) q N); [apply map_nth_error; exact E|apply map_nth_error; exact EX|exact J|exact I].
  - repeat split; cbn [vs ss pr]; auto. rewrite W1. exact A6.
Qed.

Lemma seq_disj : forall x s b c d, s + b <= c -> In x (seq s b) -> ~ In x (seq c d).
Proof. intros. rewrite in_seq in *. lia. Qed.

Lemma reload_rep : forall a h pa, Forall2 (rep1 h) a pa -> NoDup (concat (map net a)) -> forall h' a', reload st0 true h a = (h', a') ->
  next h <= next h' /\ (forall q, q < next h -> at_ h' q = at_ h q) /\ Forall2 (rep1 h') a' pa /\ NoDup (concat (map net a')) /\
  (forall q, In q (concat (map net a')) -> next h <= q < next h').
Proof.
  induction a as [|c a IH]; intros h pa F N h' a' E; cbn [reload] in E.
  - injection E as <- <-. inversion F; subst. repeat split; auto; try constructor; destruct H.
  - inversion F as [|? u ? pa' R F']; subst. cbn [map concat] in N. apply NoDup_app_parts in N as (N1 & N2 & _).
    destruct (reload_part st0 true h c) as [h1 c'] eqn:EP. destruct (reload st0 true h1 a) as [h2 a2] eqn:ER. injection E as <- <-.
    destruct R as (A1 & A2 & A3 & A4 & A5 & A6 & A7). unfold reload_part in EP. rewrite A1 in EP.
    destruct (alloc (net c) h) as [k1 n] eqn:L1. destruct (alloc (net c) k1) as [k2 q] eqn:L2. injection EP as <- <-.
    destruct (alloc_spec _ _ _ _ L1 A6) as (P1 & P2 & P3 & P4 & _).
    assert (A6' : Forall (fun p => p < next k1) (net c)) by (eapply Forall_impl; [|exact A6]; cbn; lia).
    destruct (alloc_spec _ _ _ _ L2 A6') as (Q1 & Q2 & Q3 & Q4 & _).
    assert (K2 : forall x, x < next h -> at_ k2 x = at_ h x) by (intros; rewrite Q3 by lia; apply P3; assumption).
    assert (F2 : Forall2 (rep1 k2) a pa').
    { eapply F2_weaken; [exact F'|]. intros x y _ R. eapply rep1_keep; [| |exact R]; [lia|]. intros z I. destruct R as (_ & _ & _ & _ & _ & R6 & _).
      rewrite Forall_forall in R6. rewrite K2 by (apply R6; exact I). reflexivity. }
    destruct (IH k2 pa' F2 N2 h2 a2 ER) as (I1 & I2 & I3 & I4 & I5).
    destruct (renamed_spec st0 (net c) q (o_state (opt c)) N1) as (T1 & T2); [rewrite Q2; apply seq_NoDup|rewrite Q2, seq_length; reflexivity|exact A7|].
    destruct (relink_spec st0 q n (map (fun e => (rename (net c) q (fst e), snd e)) (o_state (opt c)))) as (U1 & U2 & U3);
      [rewrite Q2; apply seq_NoDup|rewrite P2; apply seq_NoDup|rewrite P2, Q2, !seq_length; reflexivity| |exact T2|].
    { intros x X Y. rewrite P2 in Y. rewrite Q2 in X. revert X. apply (seq_disj x _ _ _ _) with (2 := Y). lia. }
    cbn [next at_] in *.
    assert (NB : forall x, In x n -> next h <= x < next k1) by (intros x X; rewrite P2, in_seq in X; lia).
    split; [lia|]. split; [intros x X; rewrite I2 by lia; apply K2; exact X|]. split; [|split].
    + constructor; [|exact I3]. split; [exact U1|]. cbn [clipped net rule_of opt]. split; [reflexivity|]. split; [exact A3|]. split; [|split; [|split]].
      * rewrite <- A4, <- P4. unfold values. apply map_ext_in. intros x X. specialize (NB x X). rewrite I2 by lia. rewrite Q3 by lia. reflexivity.
      * rewrite <- A5, <- T1. exact U2.
      * apply Forall_forall. intros x X. specialize (NB x X). lia.
      * exact U3.
    + cbn [map concat net]. assert (NN : NoDup n) by (rewrite P2; apply seq_NoDup). clear -NN I4 I5 NB Q1. revert NN NB. generalize n. intros l NL NB.
      induction l as [|x l IHl]; cbn [app]; [exact I4|]. inversion NL as [|? ? X1 X2]; subst. constructor.
      * intros J. apply in_app_or in J as [J|J]; [contradiction|]. specialize (NB x (or_introl eq_refl)). specialize (I5 x J). lia.
      * apply IHl; [exact X2|]. intros y Y. apply NB. right. exact Y.
    + cbn [map concat net]. intros x X. apply in_app_or in X as [X|X]; [specialize (NB x X); lia|]. specialize (I5 x X). lia.
Qed.

Lemma shift_find : forall n d p, dget (map (fun e : nat * St => (fst e + n, snd e)) d) (p + n) = dget d p.
Proof.
  intros n d p. unfold GradModel.dget. induction d as [|e d IH]; [reflexivity|]. cbn [map find fst].
  destruct (fst e =? p) eqn:E.
  - apply Nat.eqb_eq in E. rewrite E, Nat.eqb_refl. reflexivity.
  - apply Nat.eqb_neq in E. assert (X : (fst e + n =? p + n) = false) by (apply Nat.eqb_neq; lia). rewrite X. exact IH.
Qed.

Lemma concat_shift : forall n (a : list part), concat (map net (map (fun c => mkP (map (fun p => p + n) (net c)) (map (fun p => p + n) (clipped c))
                     (mkO (map (fun p => p + n) (o_params (opt c))) (map (fun e => (fst e + n, snd e)) (o_state (opt c)))) (rule_of c)) a)) = map (fun p => p + n) (concat (map net a)).
Proof. induction a as [|c a IH]; [reflexivity|]. cbn [map concat net]. rewrite map_app, IH. reflexivity. Qed.

Lemma copy_rep : forall h a pa, Rep (h, a) pa -> Rep (deepcopy h a) pa.
Proof.
  intros h a pa [F N]. cbn [fst snd] in *. unfold deepcopy. split; cbn [fst snd].
  - clear N. induction F as [|c u a pa R F IH]; [constructor|]. cbn [map]. constructor; [|exact IH].
    destruct R as (A1 & A2 & A3 & A4 & A5 & A6 & A7). unfold rep1. cbn [net clipped opt o_params o_state rule_of next]. rewrite A1, A2.
    split; [reflexivity|]. split; [reflexivity|]. split; [exact A3|]. split; [|split; [|split]].
    + rewrite <- A4. unfold values. rewrite map_map. apply map_ext. intros p. cbn [at_].
      destruct (p + next h <? next h) eqn:E; [apply Nat.ltb_lt in E; lia|]. cbn [val]. f_equal. f_equal. lia.
    + rewrite <- A5, map_map. apply map_ext. intros p. apply shift_find.
    + apply Forall_forall. intros x X. apply in_map_iff in X as (p & <- & I). rewrite Forall_forall in A6. specialize (A6 p I). lia.
    + apply Forall_forall. intros x X. apply in_map_iff in X as (e & <- & I). cbn [fst]. rewrite Forall_forall in A7. apply (in_map (fun p => p + next h)). apply A7. exact I.
  - rewrite concat_shift. apply FinFun.Injective_map_NoDup; [|exact N]. intros x y E. lia.
Qed.

Lemma build_rep : forall specs h h' a, build h specs = (h', a) -> 
  next h <= next h' /\ (forall q, q < next h -> at_ h' q = at_ h q) /\ Forall2 (rep1 h') a (pbuild st0 specs) /\ NoDup (concat (map net a)) /\
  (forall q, In q (concat (map net a)) -> next h <= q < next h').
Proof.
  induction specs as [|[xs r] specs IH]; intros h h' a E; cbn [build] in E.
  - injection E as <- <-. repeat split; auto; try constructor; destruct H.
  - match type of E with context [build ?k specs] => set (h1 := k) in *; destruct (build h1 specs) as [h2 a2] eqn:EB end. injection E as <- <-.
    destruct (IH _ _ _ EB) as (I1 & I2 & I3 & I4 & I5). assert (N1 : next h1 = next h + length xs) by reflexivity.
    split; [lia|]. split; [|split; [|split]].
    + intros q L. rewrite I2 by lia. unfold h1. cbn [at_]. destruct (nth_error xs (q - next h)); [|reflexivity].
      destruct (next h <=? q) eqn:E; [apply Nat.leb_le in E; lia|reflexivity].
    + cbn [pbuild map]. constructor; [|exact I3]. cbn [fst snd]. repeat split; cbn [net clipped opt o_params o_state rule_of vs ss pr].
      * apply nth_ext with (d := val (at_ h2 0)) (d' := val (at_ h2 0)); [unfold values; rewrite map_length, seq_length; reflexivity|].
        unfold values. rewrite map_length, seq_length. intros k L.
        rewrite (map_nth (fun p => val (at_ h2 p))), seq_nth by exact L. rewrite I2 by lia. unfold h1. cbn [at_].
        replace (next h + k - next h) with k by lia. rewrite (List.nth_error_nth' xs (val (at_ h2 0)) L).
        destruct (next h <=? next h + k) eqn:E; [reflexivity|apply Nat.leb_gt in E; lia].
      * generalize (next h). clear. induction xs as [|x xs IH]; intros n; [reflexivity|]. cbn [length seq map]. f_equal. apply IH.
      * apply Forall_forall. intros q I. apply in_seq in I. lia.
      * constructor.
    + cbn [map concat net]. assert (NB : forall x, In x (seq (next h) (length xs)) -> x < next h1) by (intros x X; apply in_seq in X; lia).
      assert (NN := seq_NoDup (length xs) (next h)). clear -NN I4 I5 NB. revert NN NB. generalize (seq (next h) (length xs)). intros l NL NB.
      induction l as [|x l IHl]; cbn [app]; [exact I4|]. inversion NL as [|? ? X1 X2]; subst. constructor.
      * intros J. apply in_app_or in J as [J|J]; [contradiction|]. specialize (NB x (or_introl eq_refl)). specialize (I5 x J). lia.
      * apply IHl; [exact X2|]. intros y Y. apply NB. right. exact Y.
    + cbn [map concat net]. intros x X. apply in_app_or in X as [X|X]; [apply in_seq in X; lia|]. specialize (I5 x X). lia.
Qed.

Definition trained_values (ha : heap * list part) : list (list V) := map (fun c => values (fst ha) (net c)) (snd ha).

Lemma run_rep : forall ops ha pa, Rep ha pa -> Rep (run add st0 true ops ha) (prun ops pa).
Proof.
  unfold run, prun. induction ops as [|o ops IH]; intros ha pa R; cbn [fold_left]; [exact R|]. apply IH. destruct ha as [h a]. destruct o; cbn [run1 prun1 fst snd].
  - apply fit_rep. exact R.
  - apply set_rep. exact R.
  - destruct R as [F N]. destruct (reload st0 true h a) as [h' a'] eqn:E. destruct (reload_rep a h pa F N h' a' E) as (_ & _ & A & B & _). split; assumption.
  - apply copy_rep. exact R.
Qed.

Definition no_load (o : op V) : Prop := o <> OLoad.
Lemma run_rep_noload : forall ops ha pa, Forall no_load ops -> Rep ha pa -> Rep (run add st0 false ops ha) (prun ops pa).
Proof.
  unfold run, prun. induction ops as [|o ops IH]; intros ha pa NL R; cbn [fold_left]; [exact R|]. inversion NL as [|? ? N1 N2]; subst. apply IH; [exact N2|].
  destruct ha as [h a]. destruct o; cbn [run1 prun1 fst snd].
  - apply fit_rep. exact R.
  - apply set_rep. exact R.
  - destruct N1. reflexivity.
  - apply copy_rep. exact R.
Qed.

Theorem optimizers_follow_loaded_parameters : forall h specs ops,
  trained_values (run add st0 true ops (build h specs)) = map vs (prun ops (pbuild st0 specs)).
Proof.
  intros h specs ops. destruct (build h specs) as [h' a] eqn:E. destruct (build_rep specs h h' a E) as (_ & _ & F & N & _).
  destruct (run_rep ops (h', a) (pbuild st0 specs) (conj F N)) as [F' _]. unfold trained_values. apply rep_values. exact F'.
Qed.

Theorem eppo_optimizer_without_load : forall h specs ops, Forall no_load ops ->
  trained_values (run add st0 false ops (build h specs)) = map vs (prun ops (pbuild st0 specs)).
Proof.
  intros h specs ops NL. destruct (build h specs) as [h' a] eqn:E. destruct (build_rep specs h h' a E) as (_ & _ & F & N & _).
  destruct (run_rep_noload ops (h', a) (pbuild st0 specs) NL (conj F N)) as [F' _]. unfold trained_values. apply rep_values. exact F'.
Qed.

(** ** Optimizers that refer to other parameters *)
Definition Unl (ha : heap * list part) (xs : list (list V)) : Prop :=
  let (h, a) := ha in
  map (fun c => values h (net c)) a = xs /\
  (forall q, In q (concat (map net a)) -> q < next h) /\
  (forall c q, In c a -> In q (o_params (opt c)) -> q < next h /\ grad (at_ h q) = None /\ ~ In q (concat (map net a))).

Lemma scale_none : forall f ps h q, next (scale_grads f ps h) = next h /\ val (at_ (scale_grads f ps h) q) = val (at_ h q) /\
  (grad (at_ h q) = None -> grad (at_ (scale_grads f ps h) q) = None).
Proof.
  induction ps as [|p ps IH]; intros h q; cbn [scale_grads]; [auto|].
  destruct (IH (put h p (mkC (val (at_ h p)) (option_map f (grad (at_ h p))))) q) as (A & B & C). split; [exact A|]. rewrite B, put_at.
  split; [destruct (q =? p) eqn:E; [apply Nat.eqb_eq in E; subst; reflexivity|reflexivity]|].
  intros G. apply C. rewrite put_at. destruct (q =? p) eqn:E; [|exact G]. apply Nat.eqb_eq in E. subst. cbn [grad]. rewrite G. reflexivity.
Qed.

Lemma step_nothing : forall r ps h d, (forall q, In q ps -> grad (at_ h q) = None) -> step st0 r ps (h, d) = (h, d).
Proof. induction ps as [|p ps IH]; intros h d G; cbn [step]; [reflexivity|]. rewrite (G p) by (left; reflexivity). apply IH. intros q I. apply G. right. exact I. Qed.

Lemma fit_unl : forall ha xs i loss cl, Unl ha xs -> Unl (fit add st0 i loss cl ha) xs.
Proof.
  intros [h a] xs i loss cl (A & B & C). unfold fit. destruct (nth_error a i) as [c|] eqn:E; [|split; auto]. cbv zeta.
  set (g := loss _). set (h1 := zero_grad (o_params (opt c)) h). set (h2 := backward_all add g 0 a h1). set (h3 := clip cl (clipped c) h2).
  destruct (zero_grad_spec (o_params (opt c)) h) as (Z1 & Z2 & Z3). fold h1 in Z1, Z2, Z3.
  destruct (backward_all_spec add g a 0 h1) as (B1 & B2 & B3). fold h2 in B1, B2, B3.
  assert (S3 : forall q, next h3 = next h2 /\ val (at_ h3 q) = val (at_ h2 q) /\ (grad (at_ h2 q) = None -> grad (at_ h3 q) = None)) by (intros q; apply scale_none).
  assert (G3 : forall c0 q, In c0 a -> In q (o_params (opt c0)) -> grad (at_ h3 q) = None).
  { intros c0 q I J. destruct (C c0 q I J) as (_ & C2 & C3). apply (proj2 (proj2 (S3 q))). rewrite (B3 q C3). destruct (Z3 q) as [X|[_ X]]; [exact X|congruence]. }
  rewrite step_nothing by (intros q J; apply (G3 c q (nth_error_In _ _ E) J)).
  assert (EQ : mkP (net c) (clipped c) (mkO (o_params (opt c)) (o_state (opt c))) (rule_of c) = c) by (destruct c as [n k [o s] r]; reflexivity).
  rewrite EQ, (setnth_same _ _ _ _ E). assert (NX : next h3 = next h) by (rewrite (proj1 (S3 0)); congruence). split; [|split].
  - rewrite <- A. apply map_ext. intros c0. unfold values. apply map_ext. intros q. rewrite (proj1 (proj2 (S3 q))), B2. apply Z2.
  - intros q I. rewrite NX. auto.
  - intros c0 q I J. destruct (C c0 q I J) as (C1 & _ & C3). rewrite NX. eauto.
Qed.

Lemma reload_unl : forall a h, (forall c, In c a -> Forall (fun p => p < next h) (net c) /\ Forall (fun p => p < next h) (o_params (opt c))) ->
  forall h' a', reload st0 false h a = (h', a') ->
  next h <= next h' /\ (forall q, q < next h -> at_ h' q = at_ h q) /\
  map (fun c => values h' (net c)) a' = map (fun c => values h (net c)) a /\
  (forall q, In q (concat (map net a')) -> next h <= q < next h') /\
  (forall c q, In c a' -> In q (o_params (opt c)) -> next h <= q < next h' /\ grad (at_ h' q) = None /\ ~ In q (concat (map net a'))).
Proof.
  induction a as [|c a IH]; intros h K h' a' E; cbn [reload] in E.
  - injection E as <- <-. repeat split; auto; try (destruct H); destruct H0.
  - destruct (reload_part st0 false h c) as [h1 c'] eqn:EP. destruct (reload st0 false h1 a) as [h2 a2] eqn:ER. injection E as <- <-.
    unfold reload_part in EP. destruct (alloc (net c) h) as [k1 n] eqn:L1. destruct (alloc (o_params (opt c)) k1) as [k2 q] eqn:L2. injection EP as <- <-.
    destruct (K c (or_introl eq_refl)) as [K1 K2]. destruct (alloc_spec _ _ _ _ L1 K1) as (P1 & P2 & P3 & P4 & P5).
    assert (K2' : Forall (fun p => p < next k1) (o_params (opt c))) by (eapply Forall_impl; [|exact K2]; cbn; lia).
    destruct (alloc_spec _ _ _ _ L2 K2') as (Q1 & Q2 & Q3 & Q4 & Q5).
    destruct (IH k2) with (h' := h2) (a' := a2) as (I1 & I2 & I3 & I4 & I5); [|exact ER|].
    { intros c0 I. destruct (K c0 (or_intror I)) as [X Y]. split; [eapply Forall_impl; [|exact X]|eapply Forall_impl; [|exact Y]]; cbn; lia. }
    assert (H2 : forall x, x < next h -> at_ h2 x = at_ h x) by (intros x X; rewrite I2 by lia; rewrite Q3 by lia; apply P3; exact X).
    split; [lia|]. split; [exact H2|]. split; [|split].
    + cbn [map net]. f_equal.
      * rewrite <- P4. unfold values. apply map_ext_in. intros x X. rewrite P2, in_seq in X. rewrite I2 by lia. rewrite Q3 by lia. reflexivity.
      * rewrite I3. apply map_ext_in. intros c0 I. unfold values. apply map_ext_in. intros x X. destruct (K c0 (or_intror I)) as [Y _].
        rewrite Forall_forall in Y. specialize (Y x X). rewrite Q3 by lia. rewrite P3 by lia. reflexivity.
    + cbn [map concat net]. intros x X. apply in_app_or in X as [X|X]; [rewrite P2, in_seq in X; lia|]. specialize (I4 x X). lia.
    + intros c0 x [<-|I] J; cbn [opt o_params net map concat] in *.
      * pose proof J as J'. rewrite Q2, in_seq in J'. split; [lia|]. split.
        -- rewrite I2 by lia. rewrite Forall_forall in Q5. apply Q5. exact J.
        -- intros X. apply in_app_or in X as [X|X]; [rewrite P2, in_seq in X; lia|]. specialize (I4 x X). lia.
      * destruct (I5 c0 x I J) as (A & B & C). split; [lia|]. split; [exact B|]. intros X. apply in_app_or in X as [X|X]; [rewrite P2, in_seq in X; lia|]. contradiction.
Qed.

Lemma load_unl : forall h a xs, map (fun c => values h (net c)) a = xs ->
  (forall c, In c a -> Forall (fun p => p < next h) (net c) /\ Forall (fun p => p < next h) (o_params (opt c))) -> Unl (reload st0 false h a) xs.
Proof.
  intros h a xs E K. destruct (reload st0 false h a) as [h' a'] eqn:ER. destruct (reload_unl a h K h' a' ER) as (A & B & C & D & F).
  split; [congruence|]. split; [intros q I; apply (D q I)|]. intros c q I J. destruct (F c q I J) as (F1 & F2 & F3). split; [lia|]. split; assumption.
Qed.

Lemma copy_unl : forall h a xs, Unl (h, a) xs -> Unl (deepcopy h a) xs.
Proof.
  intros h a xs (A & B & C). unfold deepcopy. split; [|split].
  - rewrite <- A, map_map. apply map_ext_in. intros c I. cbn [net]. unfold values. rewrite map_map. apply map_ext. intros p. cbn [at_].
    destruct (p + next h <? next h) eqn:E; [apply Nat.ltb_lt in E; lia|]. cbn [val]. f_equal. f_equal. lia.
  - rewrite concat_shift. intros q I. apply in_map_iff in I as (p & <- & I). specialize (B p I). cbn [next]. lia.
  - rewrite concat_shift. intros c q I J. apply in_map_iff in I as (c0 & <- & I). cbn [opt o_params] in J. apply in_map_iff in J as (p & <- & J).
    destruct (C c0 p I J) as (C1 & C2 & C3). cbn [next at_]. split; [lia|]. split.
    + destruct (p + next h <? next h) eqn:E; [apply Nat.ltb_lt in E; lia|]. reflexivity.
    + intros X. apply in_map_iff in X as (p' & EQ & X). assert (p' = p) by lia. subst. contradiction.
Qed.

Lemma unl_bounds : forall h a xs, Unl (h, a) xs -> forall c, In c a -> Forall (fun p => p < next h) (net c) /\ Forall (fun p => p < next h) (o_params (opt c)).
Proof.
  intros h a xs (_ & B & C) c I. split; apply Forall_forall; intros p J.
  - apply B. apply in_concat. exists (net c). split; [apply in_map; exact I|exact J].
  - apply (C c p I J).
Qed.

(** Everything but assigning weights by hand. *)
Definition no_set (o : op V) : Prop := match o with OSet _ _ => False | _ => True end.
Lemma run_unl : forall ops ha xs, Forall no_set ops -> Unl ha xs -> Unl (run add st0 false ops ha) xs.
Proof.
  unfold run. induction ops as [|o ops IH]; intros ha xs NS U; cbn [fold_left]; [exact U|]. inversion NS as [|? ? N1 N2]; subst. apply IH; [exact N2|].
  destruct o; cbn [run1].
  - apply fit_unl. exact U.
  - destruct N1.
  - destruct ha as [h a]. cbn [fst snd]. apply load_unl; [apply U|]. apply (unl_bounds h a xs U).
  - destruct ha as [h a]. apply copy_unl. exact U.
Qed.

Lemma eppo_frozen : forall h specs before after, Forall no_load before -> Forall no_set after ->
  trained_values (run add st0 false (before ++ OLoad :: after) (build h specs)) = map vs (prun before (pbuild st0 specs)).
Proof.
  intros h specs before after NL NS. destruct (build h specs) as [h' a] eqn:E. destruct (build_rep specs h h' a E) as (_ & _ & F & N & _).
  pose proof (run_rep_noload before (h', a) (pbuild st0 specs) NL (conj F N)) as [F' _].
  unfold run at 1. rewrite fold_left_app. cbn [fold_left]. fold (run add st0 false before (h', a)).
  destruct (run add st0 false before (h', a)) as [h2 a2]. cbn [run1 fst snd] in *.
  match goal with |- context [fold_left _ after ?x] => assert (U : Unl x (map vs (prun before (pbuild st0 specs)))) end.
  { apply load_unl; [apply rep_values; exact F'|]. intros c I. destruct (In_nth_error _ _ I) as (i & EI). destruct (F2_nth _ _ _ _ _ _ _ F' EI) as (u & _ & R).
    destruct R as (R1 & _ & _ & _ & _ & R6 & _). rewrite R1. auto. }
  apply (run_unl after _ _ NS) in U. unfold run in U. unfold trained_values. destruct (fold_left _ after _) as [h3 a3]. apply U.
Qed.
End Props.

(** Gradient descent with momentum on one number, loss 1 * x. *)
Definition momentum (s x g : nat) : nat * nat := (s + g, x + (s + g)).
Definition unit_loss (x : list (list nat)) (j k : nat) : option nat := Some 1.
Definition no_clip (gs : list (option nat)) (g : nat) : nat := g.
Definition empty_heap : @heap nat := mkH (fun _ => mkC 0 None) 0.

(** ePPO after save and load: no fit changes the distribution it searches with, while the agent
    that was not saved goes on learning. *)
Theorem eppo_loaded_never_learns_refuted :
  (forall (V St : Type) (add : V -> V -> V) (st0 : St) h specs before after, Forall no_load before -> Forall no_set after ->
     trained_values (run add st0 false (before ++ OLoad :: after) (build h specs)) = trained_values (run add st0 false before (build h specs))) /\
  exists specs before after, Forall no_load before /\ Forall no_set after /\
     trained_values (run Nat.add 0 false (before ++ OLoad :: after) (build empty_heap specs)) <>
     trained_values (run Nat.add 0 false (before ++ after) (build empty_heap specs)).
Proof.
  split.
  - intros V St add st0 h specs before after NL NS. rewrite eppo_frozen by assumption. symmetry. apply eppo_optimizer_without_load. exact NL.
  - exists [([7], momentum)], [OFit 0 unit_loss no_clip], [OFit 0 unit_loss no_clip]. split; [|split].
    + constructor; [discriminate|constructor].
    + constructor; [exact Logic.I|constructor].
    + vm_compute. discriminate.
Qed.

(** Two networks, momentum kept over load and copy, gradients of the other network's loss not
    carried over: 7+1+2+3, and 20+1 for the one trained once. *)
Example grad_ex : trained_values (run Nat.add 0 true [OFit 0 unit_loss no_clip; OLoad; OFit 0 unit_loss no_clip; OFit 1 unit_loss no_clip; OCopy; OFit 0 unit_loss no_clip]
   (build empty_heap [([7; 8], momentum); ([20], momentum)])) = [[13; 14]; [21]].
Proof. reflexivity. Qed.

Print Assumptions optimizers_follow_loaded_parameters.
Print Assumptions eppo_optimizer_without_load.
Print Assumptions eppo_loaded_never_learns_refuted.

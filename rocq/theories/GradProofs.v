(** Proofs for C109. *)
From Coq Require Import List Arith Lia Bool.
From Verif Require Import Common GradModel GradSpec.
Import ListNotations.

Section Proofs.
Context {V St : Type}.
Variable add : V -> V -> V.
Variable st0 : St.
Notation cell := (@cell V).
Notation heap := (@heap V).
Notation part := (@part V St).
Notation dget := (@dget St st0).
Implicit Types (h : heap) (d : @dict St) (ps : list nat) (a : list part).

(** ** Dictionaries *)
Lemma dget_app : forall d e p, dget (d ++ [e]) p = if existsb (fun x => fst x =? p) d then dget d p else if fst e =? p then snd e else st0.
Proof.
  unfold GradModel.dget. induction d as [|x d IH]; intros e p; cbn [app find existsb].
  - destruct (fst e =? p); reflexivity.
  - destruct (fst x =? p); [reflexivity|]. apply IH.
Qed.

Lemma dget_ddel : forall d p q, dget (ddel d p) q = if q =? p then st0 else dget d q.
Proof.
  unfold GradModel.dget, ddel. induction d as [|x d IH]; intros p q; cbn [filter find].
  - destruct (q =? p); reflexivity.
  - destruct (fst x =? p) eqn:E; cbn [negb].
    + rewrite IH. destruct (q =? p) eqn:E'; [reflexivity|]. apply Nat.eqb_eq in E. rewrite E, Nat.eqb_sym, E'. reflexivity.
    + cbn [find]. destruct (fst x =? q) eqn:E2; [|apply IH]. apply Nat.eqb_eq in E2. subst. rewrite E. reflexivity.
Qed.

Lemma existsb_ddel : forall d p, existsb (fun x => fst x =? p) (ddel d p) = false.
Proof.
  unfold ddel. induction d as [|x d IH]; intros p; cbn [filter]; [reflexivity|].
  destruct (fst x =? p) eqn:E; cbn [negb]; [apply IH|]. cbn [existsb]. rewrite E. apply IH.
Qed.

Lemma dget_none : forall d q, existsb (fun x => fst x =? q) d = false -> dget d q = st0.
Proof.
  unfold GradModel.dget. induction d as [|x d IH]; intros q H; cbn [existsb find] in *; [reflexivity|].
  apply orb_false_elim in H as [-> H2]. apply IH. exact H2.
Qed.

Lemma dget_dput : forall d p s q, dget (dput d p s) q = if q =? p then s else dget d q.
Proof.
  intros. unfold dput. rewrite dget_app. cbn [fst snd]. destruct (existsb (fun x => fst x =? q) (ddel d p)) eqn:E.
  - destruct (q =? p) eqn:E2.
    + apply Nat.eqb_eq in E2. subst. rewrite existsb_ddel in E. discriminate.
    + rewrite dget_ddel, E2. reflexivity.
  - rewrite Nat.eqb_sym. destruct (q =? p) eqn:E2; [reflexivity|].
    apply dget_none in E. rewrite dget_ddel, E2 in E. auto.
Qed.

Lemma dput_keys : forall d p s e, In e (dput d p s) -> fst e = p \/ In e d.
Proof.
  intros d p s e H. unfold dput, ddel in H. apply in_app_or in H as [H|[<-|[]]]; [|left; reflexivity].
  apply filter_In in H as [H _]. auto.
Qed.

Lemma NoDup_app_parts : forall A (l1 l2 : list A), NoDup (l1 ++ l2) -> NoDup l1 /\ NoDup l2 /\ forall x, In x l1 -> ~ In x l2.
Proof.
  induction l1 as [|x l1 IH]; intros l2 N; cbn [app] in N; [repeat split; [constructor|exact N|intros x []]|].
  inversion N as [|? ? NI N']; subst. destruct (IH l2 N') as (A1 & A2 & A3). repeat split; [|exact A2|].
  - constructor; [|exact A1]. intros I. apply NI, in_or_app. auto.
  - intros y [<-|I] J; [apply NI, in_or_app; auto|apply (A3 y I J)].
Qed.

(** ** Gradients *)
Lemma put_at : forall h p c q, at_ (put h p c) q = if q =? p then c else at_ h q.
Proof. reflexivity. Qed.

Lemma zero_grad_spec : forall ps h, next (zero_grad ps h) = next h /\
  (forall q, val (at_ (zero_grad ps h) q) = val (at_ h q)) /\
  (forall q, grad (at_ (zero_grad ps h) q) = None \/ (~ In q ps /\ grad (at_ (zero_grad ps h) q) = grad (at_ h q))).
Proof.
  induction ps as [|p ps IH]; intros h; cbn [zero_grad]; [split; [reflexivity|]; split; [reflexivity|]; intros q; right; split; [intros []|reflexivity]|].
  destruct (IH (put h p (mkC (val (at_ h p)) None))) as (A & B & C). split; [rewrite A; reflexivity|]. split.
  - intros q. rewrite B, put_at. destruct (q =? p) eqn:E; [|reflexivity]. apply Nat.eqb_eq in E. subst. reflexivity.
  - intros q. destruct (C q) as [C1|[C1 C2]]; [left; exact C1|]. rewrite C2, put_at. destruct (q =? p) eqn:E; [left; reflexivity|].
    apply Nat.eqb_neq in E. right. split; [|reflexivity]. intros [->|I]; [congruence|auto].
Qed.

Lemma zero_grad_none : forall ps h q, In q ps -> grad (at_ (zero_grad ps h) q) = None.
Proof. intros ps h q I. destruct (proj2 (proj2 (zero_grad_spec ps h)) q) as [E|[N _]]; [exact E|contradiction]. Qed.

Lemma backward_spec : forall g ps k h, next (backward add g k ps h) = next h /\
  (forall q, val (at_ (backward add g k ps h) q) = val (at_ h q)) /\
  (forall q, ~ In q ps -> at_ (backward add g k ps h) q = at_ h q).
Proof.
  induction ps as [|p ps IH]; intros k h; cbn [backward]; [auto|].
  match goal with |- context [backward add g (S k) ps ?x] => set (h1 := x); destruct (IH (S k) h1) as (A & B & C) end.
  assert (H1 : next h1 = next h /\ (forall q, val (at_ h1 q) = val (at_ h q)) /\ forall q, q <> p -> at_ h1 q = at_ h q).
  { unfold h1. destruct (g k); [|auto]. split; [reflexivity|]. split; intros q.
    - rewrite put_at. destruct (q =? p) eqn:E; [|reflexivity]. apply Nat.eqb_eq in E. subst. reflexivity.
    - intros N. rewrite put_at. apply Nat.eqb_neq in N. rewrite N. reflexivity. }
  destruct H1 as (A1 & B1 & C1). split; [congruence|]. split.
  - intros q. rewrite B. apply B1.
  - intros q N. rewrite C by (intros I; apply N; right; exact I). apply C1. intros ->. apply N. left. reflexivity.
Qed.

Lemma backward_grads : forall g ps k h, NoDup ps -> (forall q, In q ps -> grad (at_ h q) = None) ->
  map (fun p => grad (at_ (backward add g k ps h) p)) ps = map g (seq k (length ps)).
Proof.
  induction ps as [|p ps IH]; intros k h N G; [reflexivity|]. cbn [backward map length seq]. inversion N as [|? ? NI N']; subst.
  match goal with |- context [backward add g (S k) ps ?x] => set (h1 := x) end. f_equal.
  - rewrite (proj2 (proj2 (backward_spec g ps (S k) h1)) p NI). unfold h1. destruct (g k) eqn:E.
    + rewrite put_at, Nat.eqb_refl. cbn [grad]. rewrite (G p) by (left; reflexivity). reflexivity.
    + apply G. left. reflexivity.
  - apply IH; [exact N'|]. intros q I. unfold h1. destruct (g k).
    + rewrite put_at. destruct (q =? p) eqn:E; [apply Nat.eqb_eq in E; subst; contradiction|]. apply G. right. exact I.
    + apply G. right. exact I.
Qed.

Lemma backward_all_spec : forall g a j h, next (backward_all add g j a h) = next h /\
  (forall q, val (at_ (backward_all add g j a h) q) = val (at_ h q)) /\
  (forall q, ~ In q (concat (map net a)) -> at_ (backward_all add g j a h) q = at_ h q).
Proof.
  induction a as [|c a IH]; intros j h; cbn [backward_all map concat]; [auto|].
  destruct (IH (S j) (backward add (g j) 0 (net c) h)) as (A & B & C). destruct (backward_spec (g j) (net c) 0 h) as (A1 & B1 & C1).
  split; [congruence|]. split; [intros; rewrite B; apply B1|]. intros q N. rewrite C by (intros I; apply N, in_or_app; auto). apply C1. intros I. apply N, in_or_app. auto.
Qed.

Lemma backward_all_grads : forall g a j h i c, NoDup (concat (map net a)) -> nth_error a i = Some c ->
  (forall q, In q (net c) -> grad (at_ h q) = None) ->
  map (fun p => grad (at_ (backward_all add g j a h) p)) (net c) = map (g (j + i)) (seq 0 (length (net c))).
Proof.
  induction a as [|c0 a IH]; intros j h i c N E G; [destruct i; discriminate|]. cbn [map concat] in N. cbn [backward_all].
  apply NoDup_app_parts in N as (N1 & N2 & DJ).
  destruct i as [|i]; cbn [nth_error] in E.
  - injection E as ->. rewrite Nat.add_0_r, <- (backward_grads (g j) (net c) 0 h N1 G). apply map_ext_in. intros p I. f_equal.
    apply (proj2 (proj2 (backward_all_spec g a (S j) _))). apply DJ. exact I.
  - replace (j + S i) with (S j + i) by lia. apply IH; [exact N2|exact E|]. intros q I.
    rewrite (proj2 (proj2 (backward_spec (g j) (net c0) 0 h)) q); [apply G; exact I|]. intros I0. apply (DJ q I0).
    apply in_concat. exists (net c). split; [|exact I]. apply in_map. apply (nth_error_In _ _ E).
Qed.

Lemma scale_spec : forall f ps h, NoDup ps -> next (scale_grads f ps h) = next h /\
  (forall q, val (at_ (scale_grads f ps h) q) = val (at_ h q)) /\
  (forall q, grad (at_ (scale_grads f ps h) q) = if existsb (Nat.eqb q) ps then option_map f (grad (at_ h q)) else grad (at_ h q)).
Proof.
  induction ps as [|p ps IH]; intros h N; cbn [scale_grads existsb]; [auto|]. inversion N as [|? ? NI N']; subst.
  destruct (IH (put h p (mkC (val (at_ h p)) (option_map f (grad (at_ h p))))) N') as (A & B & C). split; [rewrite A; reflexivity|]. split.
  - intros q. rewrite B, put_at. destruct (q =? p) eqn:E; [|reflexivity]. apply Nat.eqb_eq in E. subst. reflexivity.
  - intros q. rewrite C, put_at. destruct (q =? p) eqn:E; cbn [orb].
    + apply Nat.eqb_eq in E. subst. destruct (existsb (Nat.eqb p) ps) eqn:E2; [|reflexivity].
      apply existsb_exists in E2 as (x & I & X). apply Nat.eqb_eq in X. subst. contradiction.
    + reflexivity.
Qed.

Lemma step_spec : forall rule ps h d h' d', NoDup ps -> step st0 rule ps (h, d) = (h', d') ->
  next h' = next h /\
  (forall q, ~ In q ps -> at_ h' q = at_ h q /\ dget d' q = dget d q) /\
  (forall q, In q ps -> (val (at_ h' q), dget d' q) = pstep rule (val (at_ h q)) (dget d q) (grad (at_ h q))) /\
  (forall e, In e d' -> In (fst e) ps \/ In e d).
Proof.
  induction ps as [|p ps IH]; intros h d h' d' N E; cbn [step] in E.
  - injection E as <- <-. repeat split; auto. intros q [].
  - inversion N as [|? ? NI N']; subst.
    match type of E with step st0 rule ps ?x = _ => destruct x as [h1 d1] eqn:X end.
    assert (H1 : next h1 = next h /\ (forall q, q <> p -> at_ h1 q = at_ h q /\ dget d1 q = dget d q) /\
       (val (at_ h1 p), dget d1 p) = pstep rule (val (at_ h p)) (dget d p) (grad (at_ h p)) /\ forall e, In e d1 -> fst e = p \/ In e d).
    { destruct (grad (at_ h p)) as [g|] eqn:G; cbn [pstep].
      - destruct (rule (dget d p) (val (at_ h p)) g) as [s v] eqn:R. injection X as <- <-. split; [reflexivity|]. split; [|split].
        + intros q NQ. rewrite put_at, dget_dput. apply Nat.eqb_neq in NQ. rewrite NQ. auto.
        + rewrite put_at, dget_dput, Nat.eqb_refl. reflexivity.
        + intros e. apply dput_keys.
      - injection X as <- <-. auto. }
    destruct H1 as (A1 & B1 & C1 & D1). destruct (IH h1 d1 h' d' N' E) as (A & B & C & D). split; [congruence|]. split; [|split].
    + intros q NQ. assert (N1 : ~ In q ps) by (intros I; apply NQ; right; exact I). assert (N2 : q <> p) by (intros ->; apply NQ; left; reflexivity).
      destruct (B q N1) as [-> ->]. apply B1. exact N2.
    + intros q [->|I].
      * destruct (B q NI) as [-> ->]. exact C1.
      * assert (N2 : q <> p) by (intros ->; contradiction). rewrite (C q I). destruct (B1 q N2) as [-> ->]. reflexivity.
    + intros e I. destruct (D e I) as [D2|D2]; [left; right; exact D2|]. destruct (D1 e D2) as [<-|D3]; [left; left; reflexivity|right; exact D3].
Qed.

(** ** Allocation *)
Lemma alloc_spec : forall ps h h' l, alloc ps h = (h', l) -> Forall (fun p => p < next h) ps ->
  next h' = next h + length ps /\ l = seq (next h) (length ps) /\ (forall q, q < next h -> at_ h' q = at_ h q) /\
  values h' l = values h ps /\ Forall (fun p => grad (at_ h' p) = None) l.
Proof.
  induction ps as [|p ps IH]; intros h h' l E F; cbn [alloc] in E.
  - injection E as <- <-. cbn. rewrite Nat.add_0_r. auto.
  - inversion F as [|? ? F1 F2]; subst. destruct (alloc ps _) as [h1 l1] eqn:EA. injection E as <- <-.
    destruct (IH _ _ _ EA) as (A & B & C & D & G). { cbn [next]. eapply Forall_impl; [|exact F2]. cbn. lia. }
    cbn [next at_] in *. split; [rewrite A; cbn [length]; lia|]. split; [rewrite B; reflexivity|]. split; [|split].
    + intros q L. rewrite C by lia. destruct (q =? next h) eqn:E; [apply Nat.eqb_eq in E; lia|reflexivity].
    + unfold values in *. cbn [map]. rewrite C by lia. cbn [at_]. rewrite Nat.eqb_refl. cbn [val]. f_equal. rewrite D. apply map_ext_in. intros q I. cbn [at_].
      rewrite Forall_forall in F2. specialize (F2 q I). destruct (q =? next h) eqn:E; [apply Nat.eqb_eq in E; lia|reflexivity].
    + constructor; [|exact G]. rewrite C by lia. cbn [at_]. rewrite Nat.eqb_refl. reflexivity.
Qed.

(** ** Moving the state of an optimizer *)
Lemma move_fold : forall q n d, NoDup q -> NoDup n -> length q = length n -> (forall x, In x q -> ~ In x n) ->
  let f := fold_left (move_state st0) (combine q n) d in
  map (dget f) n = map (dget d) q /\ (forall x, ~ In x q -> ~ In x n -> dget f x = dget d x) /\
  (forall e, In e f -> In (fst e) n \/ (In e d /\ ~ In (fst e) q)).
Proof.
  induction q as [|p q IH]; intros [|m n] d NQ NN L DJ; try discriminate; cbn [combine fold_left].
  - cbn. repeat split; auto.
  - inversion NQ as [|? ? P1 P2]; subst. inversion NN as [|? ? M1 M2]; subst. set (d1 := move_state st0 d (p, m)).
    assert (PM : p <> m) by (intros ->; apply (DJ m); left; reflexivity).
    assert (D1 : forall x, dget d1 x = if x =? m then dget d p else if x =? p then st0 else dget d x).
    { intros x. unfold d1, move_state. cbn [fst snd]. rewrite dget_dput, dget_ddel. reflexivity. }
    destruct (IH n d1 P2 M2) as (A & B & C); [cbn in L; lia|intros x I J; apply (DJ x); right; auto|]. cbv zeta in *. split; [|split].
    + cbn [map]. f_equal.
      * rewrite B; [rewrite D1, Nat.eqb_refl; reflexivity| |exact M1]. intros I. apply (DJ m); [right; exact I|left; reflexivity].
      * rewrite A. apply map_ext_in. intros x I. rewrite D1.
        destruct (x =? m) eqn:E1; [apply Nat.eqb_eq in E1; subst; destruct (DJ m); [right; exact I|left; reflexivity]|].
        destruct (x =? p) eqn:E2; [apply Nat.eqb_eq in E2; subst; contradiction|]. reflexivity.
    + intros x NX NY. rewrite B; [|intros I; apply NX; right; exact I|intros I; apply NY; right; exact I]. rewrite D1.
      destruct (x =? m) eqn:E1; [apply Nat.eqb_eq in E1; subst; destruct NY; left; reflexivity|].
      destruct (x =? p) eqn:E2; [apply Nat.eqb_eq in E2; subst; destruct NX; left; reflexivity|]. reflexivity.
    + intros e I. destruct (C e I) as [J|[J K]]; [left; right; exact J|]. unfold d1, move_state in J. cbn [fst snd] in J.
      apply dput_keys in J as [J|J]; [left; left; auto|]. unfold ddel in J. apply filter_In in J as [J1 J2]. right. split; [exact J1|].
      intros [Z|Z]; [|apply K; exact Z]. rewrite <- Z, Nat.eqb_refl in J2. discriminate.
Qed.

Lemma relink_spec : forall q n d, NoDup q -> NoDup n -> length q = length n -> (forall x, In x q -> ~ In x n) -> Forall (fun e => In (fst e) q) d ->
  let o := relink st0 (mkO q d) n in
  o_params o = n /\ map (dget (o_state o)) n = map (dget d) q /\ Forall (fun e => In (fst e) n) (o_state o).
Proof.
  intros q n d NQ NN L DJ K. unfold relink. cbn [o_params o_state]. split; [reflexivity|]. destruct d as [|e d].
  - cbn [length Nat.ltb Nat.leb]. split; [|constructor]. clear -L. revert n L. induction q as [|p q IH]; intros [|m n] L; try discriminate; [reflexivity|].
    cbn [map]. f_equal. apply IH. cbn in L. lia.
  - cbn [length Nat.ltb Nat.leb]. destruct (move_fold q n (e :: d) NQ NN L DJ) as (A & _ & C). split; [exact A|].
    apply Forall_forall. intros x I. destruct (C x I) as [J|[J Z]]; [exact J|]. rewrite Forall_forall in K. destruct (Z (K x J)).
Qed.

Lemma rename_in : forall old new p m, NoDup old -> In (p, m) (combine old new) -> rename old new p = m.
Proof.
  unfold rename. induction old as [|x old IH]; intros [|y new] p m N I; cbn [combine find] in *; try contradiction. inversion N as [|? ? NI N']; subst.
  destruct I as [I|I].
  - injection I as -> ->. cbn [fst]. rewrite Nat.eqb_refl. reflexivity.
  - cbn [fst]. destruct (x =? p) eqn:E; [|apply IH; auto]. apply Nat.eqb_eq in E. subst. apply in_combine_l in I. contradiction.
Qed.

Lemma in_combine_same : forall (old new : list nat) p p' m, NoDup new -> In (p, m) (combine old new) -> In (p', m) (combine old new) -> p = p'.
Proof.
  induction old as [|x old IH]; intros [|y new] p p' m N I J; cbn [combine] in *; try contradiction. inversion N as [|? ? NI N']; subst.
  destruct I as [I|I], J as [J|J].
  - congruence.
  - injection I as -> ->. apply in_combine_r in J. contradiction.
  - injection J as -> ->. apply in_combine_r in I. contradiction.
  - eauto.
Qed.

Lemma combine_left : forall (old new : list nat) p, length old = length new -> In p old -> exists m, In (p, m) (combine old new).
Proof.
  induction old as [|x old IH]; intros [|y new] p L I; cbn in L; try discriminate; cbn [combine]; [contradiction|].
  destruct I as [->|I]; [exists y; left; reflexivity|]. destruct (IH new p) as (m & J); [lia|exact I|]. exists m. right. exact J.
Qed.

Lemma combine_maps : forall d D (old new : list nat), length old = length new -> (forall p m, In (p, m) (combine old new) -> dget D m = dget d p) -> map (dget D) new = map (dget d) old.
Proof.
  intros d D. induction old as [|x old IH]; intros [|y new] L G; try discriminate; [reflexivity|]. cbn [map]. f_equal; [apply G; left; reflexivity|].
  apply IH; [cbn in L; lia|]. intros p m I. apply G. right. exact I.
Qed.

Lemma renamed_spec : forall old new d, NoDup old -> NoDup new -> length old = length new -> Forall (fun e => In (fst e) old) d ->
  map (dget (map (fun e => (rename old new (fst e), snd e)) d)) new = map (dget d) old /\
  Forall (fun e => In (fst e) new) (map (fun e => (rename old new (fst e), snd e)) d).
Proof.
  intros old new d NO NN L K. split.
  - assert (G : forall p m, In (p, m) (combine old new) -> dget (map (fun e => (rename old new (fst e), snd e)) d) m = dget d p).
    { intros p m I. unfold GradModel.dget. induction d as [|e d IH]; [reflexivity|]. cbn [map find fst]. inversion K as [|? ? K1 K2]; subst.
      destruct (combine_left old new (fst e) L K1) as (m' & I'). rewrite (rename_in old new (fst e) m' NO I').
      destruct (m' =? m) eqn:E1, (fst e =? p) eqn:E2; [reflexivity| | |apply IH; exact K2].
      - apply Nat.eqb_eq in E1. subst. rewrite (in_combine_same old new (fst e) p m NN I' I), Nat.eqb_refl in E2. discriminate.
      - apply Nat.eqb_eq in E2. rewrite E2 in I'. apply Nat.eqb_neq in E1. pose proof (rename_in _ _ _ _ NO I). pose proof (rename_in _ _ _ _ NO I'). congruence. }
    apply combine_maps; [exact L|exact G].
  - apply Forall_forall. intros x I. apply in_map_iff in I as (e & <- & I). cbn [fst]. rewrite Forall_forall in K.
    destruct (combine_left old new (fst e) L (K e I)) as (m & J). rewrite (rename_in _ _ _ _ NO J). apply in_combine_r in J. exact J.
Qed.
End Proofs.

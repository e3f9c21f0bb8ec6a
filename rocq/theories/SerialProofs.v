(** Lemmas about the serialization model. *)
From Coq Require Import List Arith Lia Bool String.
From Verif Require Import Common SerialModel SerialSpec.
Import ListNotations.

Ltac dled := match goal with |- context [list_eq_dec ?a ?b ?c] => let E := fresh "E" in destruct (list_eq_dec a b c) as [E|E] end.
Section Proofs.
Variable V : Type.
Notation value := (value V).
Notation zip := (zip V).

Fixpoint save_elems (full : bool) (q : path) (i : nat) (es : list value) : option zip :=
  match es with
  | [] => Some []
  | e :: t => ocat (save full (q ++ [SIdx i]) e) (save_elems full q (S i) t)
  end.

Definition save_att (full : bool) (p : path) (a : akey * value) : option zip :=
  let k := fst a in let w := snd a in
  if selected full k && negb (is_none w) then
    match snd (fst k) with
    | MPrim | MNone => Some []
    | MFile f => Some [(p ++ [SAtt (fst (fst k)) (MFile f)], CFile w)]
    | MMush => match w with
        | VList es =>
            ocat (Some [(p ++ [SAtt (fst (fst k)) MMush] ++ [SConfig], CList (List.length es))])
              (save_elems full (p ++ [SAtt (fst (fst k)) MMush]) 0 es)
        | _ => save full (p ++ [SAtt (fst (fst k)) MMush]) w
        end
    | MOther => None
    end
  else Some [].

Fixpoint save_atts (full : bool) (p : path) (l : list (akey * value)) : option zip :=
  match l with
  | [] => Some []
  | a :: t => ocat (save_att full p a) (save_atts full p t)
  end.

Lemma save_obj : forall full p ty attrs, save full p (VObj ty attrs) =
  ocat (save_atts full p attrs) (Some [(p ++ [SConfig], CConfig ty (map fst attrs) (prims full attrs))]).
Proof.
  intros. cbn [save]. f_equal. induction attrs as [|[k w] t IH]; [reflexivity|].
  cbn [save_atts]. rewrite <- IH. f_equal. unfold save_att. cbn [fst snd].
  destruct (selected full k && negb (is_none w)); [|reflexivity]. destruct (snd (fst k)); try reflexivity.
  destruct w as [| | |es]; try reflexivity. f_equal.
  generalize 0. induction es as [|e es IHe]; intros n0; [reflexivity|]. cbn [save_elems]. rewrite <- IHe.
  rewrite app_assoc. reflexivity.
Qed.

Lemma ocat_some : forall (a b : option zip) s, ocat a b = Some s ->
  exists x y, a = Some x /\ b = Some y /\ s = x ++ y.
Proof.
  intros a b s H. unfold ocat in H. destruct a as [x|]; [|discriminate]. destruct b as [y|]; [|discriminate].
  cbn [obind] in H. inversion H. eauto.
Qed.

Lemma lookup_app : forall (x y : zip) p, lookup (x ++ y) p = match lookup x p with Some c => Some c | None => lookup y p end.
Proof.
  intros x y p. unfold lookup. induction x as [|e x IH]; [reflexivity|]. cbn [app find].
  dled; [reflexivity|exact IH].
Qed.

Lemma lookup_none : forall (z : zip) p, (forall e, In e z -> fst e <> p) -> lookup z p = None.
Proof.
  intros z p. unfold lookup. induction z as [|e z IH]; intros H; [reflexivity|]. cbn [find]. dled.
  - exfalso. apply (H e); simpl; auto.
  - apply IH. intros e' He'. apply H. simpl; auto.
Qed.

Lemma lookup_one : forall p (c : content V), lookup [(p, c)] p = Some c.
Proof. intros. unfold lookup. cbn [find fst]. dled; [reflexivity|congruence]. Qed.

(** Induction on values through their depth. *)
Lemma depth_att : forall ty (attrs : list (akey * value)) a, In a attrs -> depth (snd a) < depth (VObj ty attrs).
Proof.
  intros ty attrs a H. cbn [depth]. apply le_n_S.
  assert (F : Forall (fun k => k <= list_max (map (fun a => depth (snd a)) attrs)) (map (fun a => depth (snd a)) attrs)).
  { apply list_max_le. lia. }
  rewrite Forall_forall in F. apply F. apply in_map_iff. eauto.
Qed.

Lemma depth_elem : forall (l : list value) e, In e l -> depth e < depth (VList l).
Proof.
  intros l e H. cbn [depth]. apply le_n_S.
  assert (F : Forall (fun k => k <= list_max (map depth l)) (map depth l)).
  { apply list_max_le. lia. }
  rewrite Forall_forall in F. apply F. apply in_map_iff. eauto.
Qed.

Lemma wf_obj : forall ty (attrs : list (akey * value)), wf (VObj ty attrs) <->
  NoDup (map (fun a => fst (fst (fst a))) attrs) /\ forall a, In a attrs -> wf (snd a).
Proof.
  intros ty attrs. cbn [wf]. apply and_iff_compat_l. induction attrs as [|b t IH]; simpl.
  - split; auto. intros _ a [].
  - rewrite IH. split.
    + intros [A B] a [<-|H]; auto.
    + intros H. split; auto.
Qed.

Lemma wf_list : forall (l : list value), wf (VList l) <-> forall e, In e l -> wf e.
Proof.
  intros l. cbn [wf]. induction l as [|b t IH]; simpl.
  - split; auto. intros _ a [].
  - rewrite IH. split.
    + intros [A B] a [<-|H]; auto.
    + intros H. split; auto.
Qed.

(** All files of an object lie strictly below its folder. *)
Definition below (p : path) (z : zip) := forall e, In e z -> exists s q, fst e = p ++ s :: q.
Definition below_att (p : path) (a : string) (z : zip) := forall e, In e z -> exists m q, fst e = p ++ SAtt a m :: q.

Lemma save_below_n : forall n full v p s, depth v <= n -> save full p v = Some s -> below p s.
Proof.
  induction n as [n IH] using lt_wf_ind. intros full v p s D H.
  destruct v as [| |ty attrs|]; try discriminate. rewrite save_obj in H.
  apply ocat_some in H. destruct H as (x & y & A & B & ->). inversion B; subst y.
  intros e He. apply in_app_or in He. destruct He as [He|[<-|[]]].
  2:{ exists SConfig, []. reflexivity. }
  assert (DA : forall a, In a attrs -> depth (snd a) < n).
  { intros a Ha. pose proof (depth_att ty attrs a Ha). lia. }
  clear D B. revert x e A He. induction attrs as [|a t IHt]; intros x e A He.
  { cbn [save_atts] in A. inversion A; subst. destruct He. }
  cbn [save_atts] in A. apply ocat_some in A. destruct A as (x1 & x2 & A1 & A2 & ->).
  apply in_app_or in He. destruct He as [He|He].
  2:{ eapply IHt; eauto. intros; apply DA; simpl; auto. }
  assert (Da : depth (snd a) < n) by (apply DA; simpl; auto).
  destruct a as [k w]. unfold save_att in A1. cbn [fst snd] in *.
  destruct (selected full k && negb (is_none w)); [|inversion A1; subst; destruct He].
  destruct (snd (fst k)) eqn:EM; try discriminate; try (inversion A1; subst; destruct He; fail).
  - inversion A1; subst. destruct He as [<-|[]]. simpl. eauto.
  - destruct w as [| |ty' at'|es]; try discriminate.
    + destruct (IH (depth (VObj ty' at')) Da full _ _ _ (le_n _) A1 e He) as (s0 & q & E).
      exists (SAtt (fst (fst k)) MMush), (s0 :: q). rewrite E, <- app_assoc. reflexivity.
    + apply ocat_some in A1. destruct A1 as (u1 & u2 & U1 & U2 & ->). inversion U1; subst u1.
      destruct He as [<-|He].
      * exists (SAtt (fst (fst k)) MMush), [SConfig]. reflexivity.
      * assert (DE : forall e, In e es -> depth e < n).
        { intros e0 H0. pose proof (depth_elem es e0 H0). lia. }
        change (In e u2) in He. clear Da DA U1 IHt. revert u2 U2 He. generalize 0. induction es as [|e0 es IHe]; intros i u2 U2 He.
        { cbn [save_elems] in U2. inversion U2; subst. destruct He. }
        cbn [save_elems] in U2. apply ocat_some in U2. destruct U2 as (w1 & w2 & W1 & W2 & ->).
        apply in_app_or in He. destruct He as [He|He].
        -- destruct (IH (depth e0) ltac:(apply DE; simpl; auto) full _ _ _ (le_n _) W1 e He) as (s0 & q & E).
           exists (SAtt (fst (fst k)) MMush), (SIdx i :: s0 :: q). rewrite E, <- !app_assoc. reflexivity.
        -- apply (IHe (fun x H => DE x (or_intror H)) (S i) w2 W2 He).
Qed.

Lemma save_below : forall full v p s, save full p v = Some s -> below p s.
Proof. intros. eapply save_below_n; eauto. Qed.

Lemma elems_below : forall full q es i s, save_elems full q i es = Some s ->
  forall e, In e s -> exists j r x, fst e = q ++ SIdx j :: x :: r /\ i <= j.
Proof.
  intros full q. induction es as [|e0 es IH]; intros i s H e He.
  - cbn [save_elems] in H. inversion H; subst. destruct He.
  - cbn [save_elems] in H. apply ocat_some in H. destruct H as (w1 & w2 & W1 & W2 & ->).
    apply in_app_or in He. destruct He as [He|He].
    + destruct (save_below _ _ _ _ W1 e He) as (x & r & E). exists i, r, x. rewrite E, <- app_assoc. auto.
    + destruct (IH (S i) w2 W2 e He) as (j & r & x & E & L). exists j, r, x. split; auto. lia.
Qed.

(** Files of one attribute are named after it, and files of a nested object lie
    strictly below "att.mushroom". *)
Lemma att_below : forall full p a s, save_att full p a = Some s ->
  forall e, In e s -> exists m q, fst e = p ++ SAtt (fst (fst (fst a))) m :: q /\
     m = snd (fst (fst a)) /\ (m = MMush -> q <> []).
Proof.
  intros full p [k w] s H e He. unfold save_att in H. cbn [fst snd] in *.
  destruct (selected full k && negb (is_none w)); [|inversion H; subst; destruct He].
  destruct (snd (fst k)) eqn:EM; try discriminate; try (inversion H; subst; destruct He; fail).
  - inversion H; subst. destruct He as [<-|[]]. eexists _, []. simpl. split; [reflexivity|]. split; auto. discriminate.
  - exists MMush. destruct w as [| |ty' at'|es]; try discriminate.
    + destruct (save_below _ _ _ _ H e He) as (x & r & E). exists (x :: r). rewrite E, <- app_assoc. repeat split; auto. discriminate.
    + apply ocat_some in H. destruct H as (u1 & u2 & U1 & U2 & ->). inversion U1; subst u1.
      destruct He as [<-|He].
      * exists [SConfig]. repeat split; auto. discriminate.
      * destruct (elems_below _ _ _ _ _ U2 e He) as (j & r & x & E & _). exists (SIdx j :: x :: r).
        rewrite E, <- app_assoc. repeat split; auto. discriminate.
Qed.

Lemma app_inj_l : forall A (p a b : list A), p ++ a = p ++ b -> a = b.
Proof. intros. eapply app_inv_head; eauto. Qed.

Lemma att_other_none : forall full p a s n m q, save_att full p a = Some s -> fst (fst (fst a)) <> n ->
  lookup s (p ++ SAtt n m :: q) = None.
Proof.
  intros full p a s n m q H NE. apply lookup_none. intros e He.
  destruct (att_below _ _ _ _ H e He) as (m' & q' & E & _). rewrite E. intros C. apply app_inj_l in C. congruence.
Qed.

Lemma atts_lookup : forall full p l s, save_atts full p l = Some s ->
  NoDup (map (fun a => fst (fst (fst a))) l) ->
  (forall n m q, ~ In n (map (fun a : akey * value => fst (fst (fst a))) l) -> lookup s (p ++ SAtt n m :: q) = None) /\
  (forall q, lookup s (p ++ SConfig :: q) = None) /\
  (forall a, In a l -> exists sa, save_att full p a = Some sa /\
     forall m q, lookup s (p ++ SAtt (fst (fst (fst a))) m :: q) = lookup sa (p ++ SAtt (fst (fst (fst a))) m :: q)).
Proof.
  intros full p. induction l as [|b t IH]; intros s H ND.
  - cbn [save_atts] in H. inversion H; subst. repeat split; auto. intros a [].
  - cbn [save_atts] in H. apply ocat_some in H. destruct H as (x & y & A & B & ->). simpl in ND. inversion ND; subst.
    destruct (IH y B H2) as (I1 & I2 & I3). split; [|split].
    + intros n m q NI. simpl in NI. rewrite lookup_app, (att_other_none _ _ _ _ n m q A) by tauto. apply I1. tauto.
    + intros q. rewrite lookup_app, I2. rewrite lookup_none; auto. intros e He.
      destruct (att_below _ _ _ _ A e He) as (m' & q' & E & _). rewrite E. intros C. apply app_inj_l in C. congruence.
    + intros a [<-|Ha].
      * exists x. split; auto. intros m q. rewrite lookup_app, I1 by auto. destruct (lookup x _); auto.
      * destruct (I3 a Ha) as (sa & S1 & S2). exists sa. split; auto. intros m q. rewrite lookup_app.
        rewrite (att_other_none _ _ _ _ _ m q A); auto. intros C. apply H1.
        apply in_map_iff. exists a. split; [symmetry; exact C|exact Ha].
Qed.

Lemma assoc_app : forall a (x y : list (string * value)),
  assoc a (x ++ y) = match assoc a x with Some c => Some c | None => assoc a y end.
Proof.
  intros a x y. unfold assoc. induction x as [|e x IH]; [reflexivity|]. cbn [app find].
  destruct (string_dec (fst e) a); [reflexivity|exact IH].
Qed.

Lemma prims_spec : forall full (l : list (akey * value)), NoDup (map (fun a => fst (fst (fst a))) l) ->
  (forall n, ~ In n (map (fun a : akey * value => fst (fst (fst a))) l) -> assoc n (prims full l) = None) /\
  (forall a, In a l -> assoc (fst (fst (fst a))) (prims full l) =
     if selected full (fst a) && negb (is_none (snd a)) then
       match snd (fst (fst a)) with MPrim => Some (snd a) | _ => None end else None).
Proof.
  intros full. induction l as [|b t IH]; intros ND.
  - split; auto. intros a [].
  - simpl in ND. inversion ND; subst. destruct (IH H2) as (I1 & I2).
    assert (Q : forall n, assoc n (prims full (b :: t)) =
      match assoc n (if selected full (fst b) && negb (is_none (snd b)) then
                       match snd (fst (fst b)) with MPrim => [(fst (fst (fst b)), snd b)] | _ => [] end
                     else []) with Some c => Some c | None => assoc n (prims full t) end).
    { intros n. unfold prims at 1. cbn [flat_map]. rewrite assoc_app. reflexivity. }
    split.
    + intros n NI. simpl in NI. rewrite Q, I1 by tauto.
      destruct (selected full (fst b) && negb (is_none (snd b))); [|reflexivity].
      destruct (snd (fst (fst b))); try reflexivity. unfold assoc. simpl.
      destruct (string_dec (fst (fst (fst b))) n); [tauto|reflexivity].
    + intros a [<-|Ha].
      * rewrite Q, I1 by auto. destruct (selected full (fst b) && negb (is_none (snd b))); [|reflexivity].
        destruct (snd (fst (fst b))); try reflexivity. unfold assoc. simpl.
        match goal with |- context [string_dec ?x ?y] => destruct (string_dec x y) as [?|E0]; [reflexivity|exfalso; apply E0; reflexivity] end.
      * rewrite Q, I2 by auto.
        assert (NE : fst (fst (fst b)) <> fst (fst (fst a))).
        { intros C. apply H1. apply in_map_iff. exists a. split; [symmetry; exact C|exact Ha]. }
        destruct (selected full (fst b) && negb (is_none (snd b))); [|reflexivity].
        destruct (snd (fst (fst b))); try reflexivity. unfold assoc. simpl.
        match goal with |- context [string_dec ?x ?y] => destruct (string_dec x y) as [E0|?]; [exfalso; apply NE; exact E0|reflexivity] end.
Qed.

Lemma omap_ok : forall A B (f : A -> option B) (g : A -> B) l, (forall a, In a l -> f a = Some (g a)) ->
  omap f l = Some (map g l).
Proof.
  intros A B f g. induction l as [|a t IH]; intros H; [reflexivity|]. cbn [omap map].
  rewrite H by (simpl; auto). cbn [obind]. rewrite IH by (intros; apply H; simpl; auto). reflexivity.
Qed.

Lemma omap_map : forall A B C (h : A -> B) (f : B -> option C) l, omap f (map h l) = omap (fun a => f (h a)) l.
Proof. induction l; simpl; auto. rewrite IHl. reflexivity. Qed.

Lemma elems_lookup : forall full q es i s, save_elems full q i es = Some s ->
  forall k e, nth_error es k = Some e -> exists se, save full (q ++ [SIdx (i + k)]) e = Some se /\
    forall r, lookup s (q ++ SIdx (i + k) :: r) = lookup se (q ++ SIdx (i + k) :: r).
Proof.
  intros full q. induction es as [|e0 es IH]; intros i s H k e K; [destruct k; discriminate|].
  cbn [save_elems] in H. apply ocat_some in H. destruct H as (w1 & w2 & W1 & W2 & ->).
  destruct k as [|k].
  - inversion K; subst. rewrite Nat.add_0_r. exists w1. split; auto. intros r. rewrite lookup_app.
    rewrite (lookup_none w2); [destruct (lookup w1 _); auto|]. intros x Hx.
    destruct (elems_below _ _ _ _ _ W2 x Hx) as (j & rr & y & E & L). rewrite E. intros C. apply app_inj_l in C.
    inversion C. lia.
  - destruct (IH (S i) w2 W2 k e K) as (se & A & B). replace (i + S k) with (S i + k) by lia.
    exists se. split; auto. intros r. rewrite lookup_app, (lookup_none w1); auto. intros x Hx.
    destruct (save_below _ _ _ _ W1 x Hx) as (y & rr & E). rewrite E, <- app_assoc. intros C. apply app_inj_l in C.
    inversion C. lia.
Qed.

Variable rt : fmt -> value -> value.
Variable post : string -> value -> value.

Lemma selected_eq : forall full (k : akey), selected full k = negb (snd k) || full.
Proof. reflexivity. Qed.

Lemma load_save_n : forall n full v p z s fuel, depth v <= n -> n < fuel -> wf v ->
  save full p v = Some s -> (forall q, lookup z (p ++ q) = lookup s (p ++ q)) ->
  load rt post fuel z p = Some (restore rt post full v).
Proof.
  induction n as [n IH] using lt_wf_ind. intros full v p z s fuel D F W H AG.
  destruct v as [| |ty attrs|]; try discriminate. rewrite save_obj in H.
  apply ocat_some in H. destruct H as (x & y & A & B & ->). inversion B; subst y. clear B.
  apply wf_obj in W. destruct W as [ND WA].
  destruct (atts_lookup _ _ _ _ A ND) as (L1 & L2 & L3).
  destruct (prims_spec full attrs ND) as (P1 & P2).
  destruct fuel as [|f]; [lia|]. cbn [load].
  rewrite (AG [SConfig]), lookup_app, L2, lookup_one.
  assert (OK : omap (load_att rt (load rt post f z) z p (prims full attrs)) (map fst attrs) =
     Some (map (fun a => (fst a, if negb (snd (fst a)) || full then
          match snd (fst (fst a)) with
          | MPrim => snd a
          | MFile f => if is_none (snd a) then VNone else rt f (snd a)
          | MMush => if snd (fst a) then VNone else restore rt post full (snd a)
          | _ => VNone
          end else VNone)) attrs)).
  { rewrite omap_map. apply omap_ok. intros a Ha.
    pose proof (depth_att ty attrs a Ha) as DA. specialize (WA a Ha). specialize (P2 a Ha).
    destruct (L3 a Ha) as (sa & SA & LA). pose proof (att_below _ _ _ _ SA) as BA.
    assert (LZ : forall m q, lookup z (p ++ SAtt (fst (fst (fst a))) m :: q) = lookup sa (p ++ SAtt (fst (fst (fst a))) m :: q)).
    { intros m q. rewrite AG, lookup_app, LA. destruct (lookup sa _); auto. apply lookup_none.
      intros e [<-|[]]. simpl. intros C. apply app_inj_l in C. discriminate. }
    destruct a as [[[nm m] bang] w]. cbn [fst snd] in *. unfold load_att. rewrite P2, !(LZ m []).
    unfold save_att in SA. cbn [fst snd] in SA. unfold selected in *. cbn [fst snd] in *.
    destruct (negb bang || full) eqn:SEL; cbn [andb] in *.
    2:{ inversion SA; subst sa.
        assert (Q : lookup ([] : zip) (p ++ [SAtt nm m]) = None) by reflexivity. rewrite Q.
        destruct bang; [|discriminate]. destruct m; reflexivity. }
    destruct (is_none w) eqn:IN; cbn [negb andb] in *.
    { destruct w; try discriminate. inversion SA; subst sa.
      assert (Q : lookup ([] : zip) (p ++ [SAtt nm m]) = None) by reflexivity. rewrite Q.
      destruct m; try reflexivity. destruct bang; [reflexivity|].
      destruct f as [|f]; [lia|]. cbn [load]. rewrite <- app_assoc. cbn [app]. rewrite LZ. reflexivity. }
    destruct m as [| |fm| |]; try discriminate.
    - reflexivity.
    - inversion SA; subst sa. reflexivity.
    - inversion SA; subst sa. rewrite lookup_one. reflexivity.
    - assert (Q : lookup sa (p ++ [SAtt nm MMush]) = None).
      { apply lookup_none. intros e He. destruct (BA e He) as (m' & q' & E & Em & NQ). rewrite E. intros C.
        apply app_inj_l in C. inversion C. apply NQ; auto. }
      rewrite Q. destruct bang; [reflexivity|].
      destruct w as [| |ty' at'|es]; try discriminate.
      + rewrite (IH (depth (VObj ty' at')) ltac:(lia) full (VObj ty' at') _ z sa f); auto; try lia.
        intros q. rewrite <- app_assoc. apply LZ.
      + apply ocat_some in SA. destruct SA as (u1 & u2 & U1 & U2 & ->). inversion U1; subst u1. clear U1.
        destruct f as [|f]; [lia|]. cbn [load].
        assert (EC : lookup z ((p ++ [SAtt nm MMush]) ++ [SConfig]) = Some (CList (List.length es))).
        { rewrite <- app_assoc. cbn [app]. rewrite LZ, lookup_app. cbn [app].
          rewrite lookup_one. reflexivity. }
        rewrite EC.
        rewrite (omap_ok _ _ _ (fun i => nth i (map (restore rt post full) es) VNone)).
        * cbn [obind restore]. repeat f_equal. apply nth_ext with (d := VNone) (d' := VNone).
          { rewrite !map_length, seq_length. reflexivity. }
          intros i Hi. rewrite map_length, seq_length in Hi.
          rewrite (nth_indep _ _ (nth 0 (map (restore rt post full) es) VNone)) by (rewrite map_length, seq_length; lia).
          rewrite (map_nth (fun i => nth i (map (restore rt post full) es) VNone) (seq 0 (List.length es)) 0 i).
          rewrite seq_nth by auto. reflexivity.
        * intros i Hi. apply in_seq in Hi.
          destruct (nth_error es i) as [e|] eqn:NE; [|apply nth_error_None in NE; lia].
          destruct (elems_lookup _ _ _ _ _ U2 i e NE) as (se & SE & LE). cbn [plus] in *.
          pose proof (depth_elem es e (nth_error_In _ _ NE)) as DE.
          rewrite (nth_error_nth (map (restore rt post full) es) i VNone (x := restore rt post full e)).
          2:{ rewrite nth_error_map, NE. reflexivity. }
          apply (IH (depth e) ltac:(lia) full e _ z se f); auto; try lia.
          { apply (proj1 (wf_list es)) with (e := e) in WA; auto. eapply nth_error_In; eauto. }
          intros q. rewrite <- !app_assoc. cbn [app]. rewrite LZ, lookup_app.
          rewrite (lookup_none [_]).
          2:{ intros e' [<-|[]]. simpl. intros C. apply app_inj_l in C. discriminate. }
          specialize (LE q). rewrite <- !app_assoc in LE. exact LE. }
  rewrite OK. reflexivity.
Qed.

Lemma load_save : forall full v s fuel, wf v -> depth v < fuel -> save full [] v = Some s ->
  load rt post fuel s [] = Some (restore rt post full v).
Proof. intros. eapply load_save_n; eauto. Qed.
End Proofs.

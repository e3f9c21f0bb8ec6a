(** C66: step information. *)
From Coq Require Import Ascii String List Arith Lia Bool.
From Verif Require Import Common ExtraModel.
Import ListNotations.
Local Open Scope list_scope.

(** * Specification *)
Section Spec.
Context {V : Type}.
(** The element of a nested dictionary at a path *)
Fixpoint node (t : tree V) (p : path) : option (tree V) :=
  match p with
  | [] => Some t
  | k :: p' => match t with Leaf _ => None | Dict kvs => match dget kvs k with Some t' => node t' p' | None => None end end
  end.
Definition value (t : tree V) (p : path) : option V := match node t p with Some (Leaf v) => Some v | _ => None end.
(** Dictionaries have distinct keys, at every level *)
Inductive wf : tree V -> Prop :=
| wf_leaf : forall v, wf (Leaf v)
| wf_dict : forall kvs, NoDup (map fst kvs) -> (forall k t, In (k, t) kvs -> wf t) -> wf (Dict kvs).
(** No element is a dictionary in one step and a value in another *)
Definition consistent (ts : list (tree V)) : Prop :=
  forall t1 t2 p v kvs, In t1 ts -> In t2 ts -> node t1 p = Some (Leaf v) -> node t2 p = Some (Dict kvs) -> False.
Definition occurs (ts : list (tree V)) (p : path) : Prop := exists t v, In t ts /\ value t p = Some v.
(** Two values do not get the same flat key *)
Definition separate (ts : list (tree V)) : Prop := forall p q, occurs ts p -> occurs ts q -> join p = join q -> p = q.
Definition is_dict (t : tree V) : Prop := exists kvs, t = Dict kvs.
(** Number of dictionaries in a tree *)
Fixpoint dicts (t : tree V) : nat :=
  match t with Leaf _ => 0 | Dict kvs => S (list_sum (map (fun e => dicts (snd e)) kvs)) end.
(** The flat dictionary describes the steps [ts] *)
Definition describes (none : V) (data : list (string * list V)) (ts : list (tree V)) : Prop :=
  NoDup (map fst data) /\
  (forall k, In k (map fst data) <-> exists p, occurs ts p /\ join p = k) /\
  (forall p, occurs ts p -> dget data (join p) = Some (map (fun t => match value t p with Some v => v | None => none end) ts)).
End Spec.

Section Proofs.
Context {V : Type}.
Variable none : V.

Lemma dget_dset_eq : forall A (d : list (string * A)) k x, dget (dset d k x) k = Some x.
Proof.
  induction d as [|[k' y] d IH]; intros k x; simpl; [rewrite String.eqb_refl; auto|].
  destruct (String.eqb_spec k k') as [->|N]; simpl; [rewrite String.eqb_refl; auto|]. destruct (String.eqb_spec k k'); [congruence|auto].
Qed.
Lemma dget_In : forall A (d : list (string * A)) k x, NoDup (map fst d) -> In (k, x) d -> dget d k = Some x.
Proof.
  induction d as [|[k' y] d IH]; intros k x N I; simpl in *; [tauto|]. inversion N; subst. destruct I as [E|I].
  - inversion E; subst. rewrite String.eqb_refl. auto.
  - destruct (String.eqb_spec k k') as [->|]; auto. exfalso. apply H1. change k' with (fst (k', x)). apply in_map. auto.
Qed.
Lemma dget_Some_In : forall A (d : list (string * A)) k x, dget d k = Some x -> In (k, x) d.
Proof. induction d as [|[k' y] d IH]; intros k x H; simpl in *; [discriminate|]. destruct (String.eqb_spec k k') as [->|]; [inversion H; auto|auto]. Qed.
Lemma In_dset : forall A (d : list (string * A)) k x k' y, NoDup (map fst d) -> In (k', y) (dset d k x) <-> (k' = k /\ y = x) \/ (k' <> k /\ In (k', y) d).
Proof.
  induction d as [|[k0 y0] d IH]; intros k x k' y N; simpl.
  - split; [intros [E|[]]; inversion E; auto|intros [[-> ->]|[_ []]]; auto].
  - inversion N; subst. destruct (String.eqb_spec k k0) as [->|NE]; simpl.
    + split.
      * intros [E|I]; [inversion E; auto|]. right. split; auto. intros ->. apply H1. change k0 with (fst (k0, y)). apply in_map. auto.
      * intros [[-> ->]|[NE [E|I]]]; auto. inversion E; congruence.
    + rewrite IH by auto. split.
      * intros [E|[[-> ->]|[HA HB]]]; auto. inversion E; subst. auto.
      * intros [[-> ->]|[HA [E|HB]]]; auto.
Qed.
Lemma dset_NoDup : forall A (d : list (string * A)) k x, NoDup (map fst d) -> NoDup (map fst (dset d k x)).
Proof.
  induction d as [|[k0 y0] d IH]; intros k x N; simpl; [constructor; auto; constructor|]. inversion N; subst.
  destruct (String.eqb_spec k k0) as [->|NE]; simpl; constructor; auto.
  intros I. apply in_map_iff in I. destruct I as ((k1 & y1) & E & I). simpl in E. subst. apply In_dset in I; auto. destruct I as [[-> _]|[_ I]]; [congruence|].
  apply H1. change k0 with (fst (k0, y1)). apply in_map. auto.
Qed.
Lemma path_eqb_spec : forall p q, path_eqb p q = true <-> p = q.
Proof. intros. unfold path_eqb. destruct (list_eq_dec string_dec p q); split; congruence. Qed.

Lemma node_app : forall p q (t : tree V), node t (p ++ q) = match node t p with Some t' => node t' q | None => None end.
Proof. induction p as [|k p IH]; intros q t; [reflexivity|]. simpl. destruct t as [v|kvs]; auto. destruct (dget kvs k); auto. Qed.
Lemma node_wf : forall p (t t' : tree V), wf t -> node t p = Some t' -> wf t'.
Proof.
  induction p as [|k p IH]; intros t t' W H; simpl in H; [inversion H; subst; auto|]. destruct t as [v|kvs]; [discriminate|].
  destruct (dget kvs k) as [s|] eqn:E; [|discriminate]. apply dget_Some_In in E. inversion W; subst. eauto.
Qed.
(** find agrees with node on consistent data *)
Lemma find_node : forall p (t : tree V) r, find t p = Some r -> r = node t p.
Proof.
  induction p as [|k p IH]; intros t r H; simpl in *; [inversion H; auto|]. destruct t as [v|kvs]; [discriminate|].
  destruct (dget kvs k); [auto|inversion H; auto].
Qed.
Lemma find_None : forall p (t : tree V), find t p = None -> exists q k r v, p = q ++ k :: r /\ node t q = Some (Leaf v).
Proof.
  induction p as [|k p IH]; intros t H; simpl in *; [discriminate|]. destruct t as [v|kvs]; [exists [], k, p, v; auto|].
  destruct (dget kvs k) as [t'|] eqn:E; [|discriminate]. destruct (IH t' H) as (q & k' & r & v & -> & N).
  exists (k :: q), k', r, v. split; auto. simpl. rewrite E. auto.
Qed.
Lemma cell_spec : forall ts t p, consistent ts -> In t ts -> occurs ts p -> cell none t p = Some (match value t p with Some v => v | None => none end).
Proof.
  intros ts t p C I (t' & v' & I' & O). unfold value in O. destruct (node t' p) as [[w|kvs']|] eqn:N'; try discriminate. unfold cell, value.
  destruct (find t p) as [r|] eqn:F.
  - apply find_node in F. subst. destruct (node t p) as [[v|kvs]|] eqn:N; auto. exfalso. eapply C; [apply I'|apply I|apply N'|apply N].
  - exfalso. apply find_None in F. destruct F as (q & k & r & v & -> & N). rewrite node_app in N'. destruct (node t' q) as [[u|kvs]|] eqn:NQ; try discriminate.
    eapply C; [apply I|apply I'|apply N|apply NQ].
Qed.
Lemma cells_spec : forall ts0 ts p, consistent ts0 -> (forall t, In t ts -> In t ts0) -> occurs ts0 p -> cells none ts p = Some (map (fun t => match value t p with Some v => v | None => none end) ts).
Proof.
  intros ts0 ts p C S O. induction ts as [|t ts IH]; [reflexivity|]. cbn [cells map]. rewrite (cell_spec ts0 t p C) by (auto; apply S; simpl; auto).
  rewrite IH by (intros; apply S; simpl; auto). reflexivity.
Qed.

(** * The key mapping *)
Definition km_ok (P : path -> Prop) (km : list (string * path)) : Prop :=
  NoDup (map fst km) /\ forall k p, In (k, p) km -> k = join p /\ P p.
Definition maps (km : list (string * path)) (p : path) : Prop := In (join p, p) km.

Section Loop.
Variable P : path -> Prop.
Hypothesis sep : forall p q, P p -> P q -> join p = join q -> p = q.
Variable t : tree V.
Hypothesis tP : forall p v, node t p = Some (Leaf v) -> P p.
Hypothesis tC : forall p kvs, P p -> node t p = Some (Dict kvs) -> False.
Hypothesis tW : wf t.

Definition on_stack (stack : list (list (string * tree V) * path)) (p : path) : Prop :=
  exists kvs parent q, In (kvs, parent) stack /\ p = parent ++ q /\ exists v, node (Dict kvs) q = Some (Leaf v).
Definition stack_ok (stack : list (list (string * tree V) * path)) : Prop := forall kvs parent, In (kvs, parent) stack -> node t parent = Some (Dict kvs).
Definition stack_size (stack : list (list (string * tree V) * path)) : nat := list_sum (map (fun e => dicts (Dict (fst e))) stack).

Lemma exists_maps : forall km p, km_ok P km -> existsb (fun e => path_eqb p (snd e)) km = true -> maps km p.
Proof. intros km p [_ K] H. apply existsb_exists in H. destruct H as ((k & q) & I & E). simpl in E. apply path_eqb_spec in E. subst. unfold maps. destruct (K k q I) as [-> _]. auto. Qed.
Lemma dset_keeps : forall km p q, km_ok P km -> P p -> maps km q -> maps (dset km (join p) p) q.
Proof.
  intros km p q [N K] HP M. unfold maps in *. apply In_dset; auto. destruct (string_dec (join q) (join p)) as [E|NE]; [|auto].
  left. split; auto. apply sep; auto. apply (K _ _ M).
Qed.
Lemma dset_ok : forall km p, km_ok P km -> P p -> km_ok P (dset km (join p) p).
Proof.
  intros km p [N K] HP. split; [apply dset_NoDup; auto|]. intros k q I. apply In_dset in I; auto. destruct I as [[-> ->]|[_ I]]; auto.
Qed.

Lemma um_items_spec : forall items all parent km stack km' stack', node t parent = Some (Dict all) -> NoDup (map fst all) -> (forall e, In e items -> In e all) ->
  km_ok P km -> stack_ok stack -> um_items items parent km stack = (km', stack') ->
  km_ok P km' /\ stack_ok stack' /\ (forall p, maps km p -> maps km' p) /\ (forall e, In e stack -> In e stack') /\
  (forall k v q, In (k, v) items -> (exists x, node v q = Some (Leaf x)) -> maps km' (parent ++ k :: q) \/ on_stack stack' (parent ++ k :: q)) /\
  stack_size stack' <= stack_size stack + list_sum (map (fun e => dicts (snd e)) items).
Proof.
  induction items as [|[k v] items IH]; intros all parent km stack km' stack' NP ND SUB KO SO E.
  - simpl in E. inversion E; subst. split; auto. split; auto. split; auto. split; auto. split; [intros ? ? ? []|simpl; lia].
  - assert (NV : node t (parent ++ [k]) = Some v).
    { rewrite node_app, NP. simpl. rewrite (dget_In _ all k v); auto. apply SUB. simpl; auto. }
    cbn [um_items] in E. assert (SUB' : forall e, In e items -> In e all) by (intros; apply SUB; simpl; auto).
    destruct (existsb (fun e => path_eqb (parent ++ [k]) (snd e)) km) eqn:EX.
    + pose proof (exists_maps km (parent ++ [k]) KO EX) as MP.
      destruct (IH all parent km stack km' stack' NP ND SUB' KO SO E) as (A & B & C & D & F & G).
      split; auto. split; auto. split; auto. split; auto. split.
      * intros k0 v0 q [E0|I] X; [|apply F with v0; auto]. inversion E0; subst. left. destruct q as [|k1 q]; [apply C; auto|].
        exfalso. destruct v0 as [u|kvs]; [destruct X as (x & X); discriminate|]. apply (tC (parent ++ [k0]) kvs); auto. apply (proj2 KO _ _ MP).
      * simpl. lia.
    + destruct v as [u|kvs].
      * assert (HP : P (parent ++ [k])) by (apply (tP _ u); auto).
        destruct (IH all parent _ stack km' stack' NP ND SUB' (dset_ok _ _ KO HP) SO E) as (A & B & C & D & F & G).
        split; auto. split; auto. split; [intros p Hp; apply C; apply dset_keeps; auto|]. split; auto. split; [|simpl in *; lia].
        intros k0 v0 q [E0|I] X; [|apply F with v0; auto]. inversion E0; subst. left. destruct q as [|k1 q]; [|destruct X as (x & X); discriminate].
        apply C. unfold maps. apply In_dset; [apply KO|]. auto.
      * assert (SO' : stack_ok ((kvs, parent ++ [k]) :: stack)) by (intros kk pp [E0|I]; [inversion E0; subst; auto|apply SO; auto]).
        destruct (IH all parent km _ km' stack' NP ND SUB' KO SO' E) as (A & B & C & D & F & G).
        split; auto. split; auto. split; auto. split; [intros; apply D; simpl; auto|]. split.
        -- intros k0 v0 q [E0|I] X; [|apply F with v0; auto]. inversion E0; subst. right. exists kvs, (parent ++ [k0]), q.
           split; [apply D; simpl; auto|]. split; [rewrite <- app_assoc; reflexivity|auto].
        -- unfold stack_size in *. cbn [map list_sum snd fst] in *. simpl in G |- *. lia.
Qed.
Lemma um_loop_spec : forall fuel km stack, km_ok P km -> stack_ok stack -> stack_size stack <= fuel ->
  exists km', um_loop fuel km stack = Some km' /\ km_ok P km' /\ (forall p, maps km p -> maps km' p) /\ (forall p, on_stack stack p -> maps km' p).
Proof.
  induction fuel as [|f IH]; intros km stack KO SO SZ.
  - destruct stack as [|[items parent] stack].
    + exists km. simpl. split; auto. split; auto. split; auto. intros p (a & b & c & [] & _).
    + unfold stack_size in SZ. simpl in SZ. lia.
  - destruct stack as [|[items parent] stack].
    + exists km. simpl. split; auto. split; auto. split; auto. intros p (a & b & c & [] & _).
    + cbn [um_loop]. destruct (um_items items parent km stack) as [km1 stack1] eqn:E.
      assert (NP : node t parent = Some (Dict items)) by (apply SO; simpl; auto).
      assert (ND : NoDup (map fst items)) by (pose proof (node_wf _ _ _ tW NP) as W; inversion W; auto).
      destruct (um_items_spec items items parent km stack km1 stack1) as (A & B & C & D & F & G); auto; [intros a b I; apply SO; simpl; auto|].
      destruct (IH km1 stack1 A B) as (km' & H1 & H2 & H3 & H4).
      { assert (SE : stack_size ((items, parent) :: stack) = S (list_sum (map (fun e => dicts (snd e)) items)) + stack_size stack) by reflexivity. lia. }
      exists km'. split; auto. split; auto. split; [intros; auto|]. intros p (kvs & par & q & [E0|I] & -> & x & X).
      * inversion E0; subst. destruct q as [|k q]; [discriminate|]. cbn [node] in X. destruct (dget kvs k) as [v|] eqn:EV; [|discriminate].
        apply dget_Some_In in EV. destruct (F k v q EV (ex_intro _ x X)); auto.
      * apply H4. exists kvs, par, q. split; [apply D; auto|]. split; auto. eauto.
Qed.
End Loop.

Lemma occurs_node : forall (ts : list (tree V)) p t v, In t ts -> node t p = Some (Leaf v) -> occurs ts p.
Proof. intros. exists t, v. split; auto. unfold value. rewrite H0. auto. Qed.
Definition max_dicts (ts : list (tree V)) : nat := fold_right Nat.max 0 (map dicts ts).

(** all the steps appended so far; some of them may be already parsed, so that only their values remain *)
Lemma um_all_spec : forall fuel (all ts : list (tree V)) km, (forall t, In t all -> wf t) -> consistent all -> separate all ->
  (forall t, In t ts -> In t all /\ is_dict t) -> max_dicts ts <= fuel -> km_ok (occurs all) km ->
  exists km', um_all fuel km ts = Some km' /\ km_ok (occurs all) km' /\ (forall p, maps km p -> maps km' p) /\ (forall p, occurs ts p -> maps km' p).
Proof.
  induction ts as [|t ts IH]; intros km W C S SUB F KO.
  - exists km. simpl. split; auto. split; auto. split; auto. intros p (t & v & [] & _).
  - destruct (SUB t (or_introl eq_refl)) as [It [kvs ->]]. unfold max_dicts in F. cbn [map fold_right] in F.
    cbn [um_all um_tree].
    destruct (um_loop_spec (occurs all) S (Dict kvs)) with (fuel := fuel) (km := km) (stack := [(kvs, @nil string)]) as (km1 & E & A & B & D); auto.
    + intros p v N. eapply occurs_node; eauto.
    + intros p kvs' (t' & v' & I' & O) N. unfold value in O. destruct (node t' p) as [[w|]|] eqn:N'; try discriminate. eapply C; [apply I'|apply It|apply N'|apply N].
    + intros a b [E|[]]. inversion E; subst. reflexivity.
    + assert (SE : stack_size [(kvs, @nil string)] = dicts (Dict kvs) + 0) by reflexivity. lia.
    + rewrite E. destruct (IH km1) as (km' & E' & A' & B' & D'); auto; [intros; apply SUB; simpl; auto|unfold max_dicts; lia|].
      exists km'. split; auto. split; auto. split; [auto|]. intros p (t' & v & [<-|I] & O); [|apply D'; exists t', v; auto].
      apply B', D. exists kvs, [], p. split; [simpl; auto|]. split; [reflexivity|]. unfold value in O. destruct (node (Dict kvs) p) as [[w|]|]; try discriminate. eauto.
Qed.

(** * The reachable states: [old] already parsed, [new] waiting *)
Definition state_of (x : xinfo V) (old new : list (tree V)) : Prop :=
  x_storage x = new /\
  (old = [] /\ x_km x = [] /\ x_struct x = [] /\ x_data x = [] \/
   (exists p, occurs old p) /\ km_ok (occurs old) (x_km x) /\ (forall p, occurs old p -> maps (x_km x) p) /\
   x_struct x = x_data x /\ x_data x <> [] /\ describes none (x_data x) old /\ (forall k a, In (k, a) (x_data x) -> length a = length old)).

Lemma columns_spec : forall x (c : path -> list V) km, (forall k p, In (k, p) km -> column none x k p = Some (c p)) -> columns none x km = Some (map (fun e => (fst e, c (snd e))) km).
Proof.
  induction km as [|[k p] km IH]; intros H; [reflexivity|]. cbn [columns map fst snd]. rewrite (H k p) by (simpl; auto). rewrite IH by (intros; apply H; simpl; auto). reflexivity.
Qed.
Definition spec_col (ts : list (tree V)) (p : path) : list V := map (fun t => match value t p with Some v => v | None => none end) ts.

Lemma occurs_app : forall (a b : list (tree V)) p, occurs (a ++ b) p <-> occurs a p \/ occurs b p.
Proof.
  intros. unfold occurs. split.
  - intros (t & v & I & O). apply in_app_iff in I. destruct I; [left|right]; eauto.
  - intros [(t & v & I & O)|(t & v & I & O)]; exists t, v; rewrite in_app_iff; auto.
Qed.
Lemma parse_state : forall fuel x old new, state_of x old new ->
  (forall t, In t (old ++ new) -> wf t) -> (forall t, In t new -> is_dict t) -> consistent (old ++ new) -> separate (old ++ new) -> max_dicts new <= fuel ->
  (exists p, occurs (old ++ new) p) ->
  (old <> [] -> forall p, occurs new p -> occurs old p) ->
  exists x', x_parse none fuel x = Some x' /\ state_of x' (old ++ new) [] /\ describes none (x_data x') (old ++ new).
Proof.
  intros fuel x old new [S1 S2] W DI C SEP FU NEV NEW.
  assert (KO : km_ok (occurs (old ++ new)) (x_km x) /\ forall p, occurs old p -> maps (x_km x) p).
  { destruct S2 as [(-> & -> & _)|(_ & [N K] & M & _)].
    - split; [split; [constructor|intros ? ? []]|intros p (t & v & [] & _)].
    - split; auto. split; auto. intros k p I. destruct (K k p I). split; auto. apply occurs_app. auto. }
  destruct KO as [KO MO].
  destruct (um_all_spec fuel (old ++ new) new (x_km x)) as (km & E & KO' & K1 & K2); auto; [intros t I; split; [apply in_app_iff; auto|auto]|].
  assert (MALL : forall p, occurs (old ++ new) p -> maps km p) by (intros p O; apply occurs_app in O; destruct O; auto).
  unfold x_parse. rewrite S1, E.
  assert (COL : columns none x km = Some (map (fun e => (fst e, spec_col (old ++ new) (snd e))) km)).
  { apply columns_spec. intros k p I. destruct (proj2 KO' k p I) as [-> O]. unfold column. rewrite S1.
    rewrite (cells_spec (old ++ new) new p C) by (auto; intros; apply in_app_iff; auto). unfold spec_col. rewrite map_app.
    destruct S2 as [(-> & _ & -> & _)|(O0 & K & M & SD & NE & (D1 & D2 & D3) & LN)]; [reflexivity|].
    assert (ON : occurs old p). { apply occurs_app in O. destruct O; auto. apply NEW; auto. intros ->. destruct O0 as (? & ? & ? & [] & _). }
    rewrite SD. destruct (x_data x) as [|[k0 a0] d] eqn:ED; [congruence|]. rewrite <- ED in *. rewrite (D3 p ON).
    unfold struct_len. rewrite SD, ED, map_length. assert (L0 : length a0 = length old) by (apply (LN k0); rewrite ED; simpl; auto). rewrite L0, Nat.eqb_refl. reflexivity. }
  rewrite COL. set (out := map (fun e => (fst e, spec_col (old ++ new) (snd e))) km).
  assert (FK : map fst out = map fst km) by (unfold out; rewrite map_map; reflexivity).
  assert (DS : describes none out (old ++ new)).
  { split; [rewrite FK; apply KO'|]. split.
    - intros k. rewrite FK, in_map_iff. split.
      + intros ((k' & p) & Ek & I). simpl in Ek. subst. destruct (proj2 KO' k p I) as [-> O]. eauto.
      + intros (p & O & <-). exists (join p, p). split; auto. apply MALL. auto.
    - intros p O. apply dget_In; [rewrite FK; apply KO'|]. unfold out. apply in_map_iff. exists (join p, p). split; [reflexivity|apply MALL; auto]. }
  eexists. split; [reflexivity|]. cbn [x_data]. split; auto. split; [reflexivity|]. right. cbn [x_km x_struct x_data].
  split; [auto|]. split; [auto|]. split; [auto|]. split; [auto|]. split.
  - destruct NEV as (p & O). specialize (MALL p O). unfold out, maps in *. destruct km; [destruct MALL|discriminate].
  - split; auto. intros k a I. unfold out in I. apply in_map_iff in I. destruct I as (e & Ee & _). inversion Ee. unfold spec_col. apply map_length.
Qed.

Lemma append_all_state : forall ts x old new x', state_of x old new -> fold_left (fun o t => match o with Some x => x_append x t | None => None end) ts (Some x) = Some x' ->
  state_of x' old (new ++ ts) /\ forall t, In t ts -> is_dict t.
Proof.
  induction ts as [|t ts IH]; intros x old new x' [S1 S2] E; cbn [fold_left] in E.
  - inversion E; subst. rewrite app_nil_r. split; [split; auto|intros ? []].
  - destruct t as [v|kvs].
    + exfalso. cbn [x_append] in E. clear -E. induction ts; simpl in E; [discriminate|auto].
    + cbn [x_append] in E. apply (IH _ old (new ++ [Dict kvs])) in E.
      * rewrite <- app_assoc in E. destruct E as [E1 E2]. split; [exact E1|]. intros t [<-|I]; [exists kvs; auto|auto].
      * split; cbn [x_storage x_km x_struct x_data]; [rewrite S1; auto|auto].
Qed.

(** * Theorems *)
Definition append_all (x : xinfo V) (ts : list (tree V)) : option (xinfo V) :=
  fold_left (fun o t => match o with Some x => x_append x t | None => None end) ts (Some x).
(** Appending and parsing batches, one after the other *)
Fixpoint rounds (fuel : nat) (x : xinfo V) (batches : list (list (tree V))) : option (xinfo V) :=
  match batches with
  | [] => Some x
  | b :: bs => match append_all x b with
               | None => None
               | Some x1 => match x_parse none fuel x1 with None => None | Some x2 => rounds fuel x2 bs end
               end
  end.
Lemma append_all_ok : forall ts x, (forall t, In t ts -> is_dict t) -> exists x', append_all x ts = Some x'.
Proof.
  induction ts as [|t ts IH]; intros x H; [exists x; reflexivity|]. destruct (H t (or_introl eq_refl)) as [kvs ->].
  apply (IH {| x_storage := x_storage x ++ [Dict kvs]; x_km := x_km x; x_struct := x_struct x; x_data := x_data x |}). intros; apply H; simpl; auto.
Qed.

(** The states reached by appending and parsing are those of [state_of] *)
Lemma rounds_state : forall fuel b bs, let all := concat (b :: bs) in
  (forall t, In t all -> wf t /\ is_dict t /\ dicts t <= fuel) -> consistent all -> separate all -> (exists p, occurs b p) ->
  (forall p, occurs all p -> occurs b p) ->
  exists x, rounds fuel x_new (b :: bs) = Some x /\ state_of x all [] /\ describes none (x_data x) all.
Proof.
  intros fuel b bs all H C S NE NW.
  assert (G : forall bs x old, state_of x old [] -> describes none (x_data x) old -> old <> [] -> (exists p, occurs old p) ->
    let all := old ++ concat bs in (forall t, In t all -> wf t /\ is_dict t /\ dicts t <= fuel) -> consistent all -> separate all -> (forall p, occurs all p -> occurs old p) ->
    exists x', rounds fuel x bs = Some x' /\ state_of x' all [] /\ describes none (x_data x') all).
  { clear. induction bs as [|b bs IH]; intros x old SO D NO OC all H C S NW.
    - exists x. unfold all. simpl. rewrite app_nil_r. auto.
    - cbn [rounds]. assert (HB : forall t, In t b -> In t all) by (intros; unfold all; simpl; rewrite !in_app_iff; auto).
      assert (HO : forall t, In t (old ++ b) -> In t all) by (intros t I; apply in_app_iff in I; unfold all; simpl; rewrite !in_app_iff; tauto).
      destruct (append_all_ok b x) as (x1 & E1); [intros; apply H; auto|]. rewrite E1.
      destruct (append_all_state b x old [] x1 SO E1) as [S1 _]. simpl in S1.
      destruct (parse_state fuel x1 old b) as (x2 & E2 & S2 & D2); auto.
      + intros; apply H; auto.
      + intros; apply H; auto.
      + intros t1 t2 p v kvs I1 I2. apply C; auto.
      + intros p q O1 O2. assert (forall p, occurs (old ++ b) p -> occurs all p) by (intros p0 (t & v & I & O); exists t, v; auto). apply S; auto.
      + assert (HF : forall t, In t b -> dicts t <= fuel) by (intros; apply H; auto). clear -HF. unfold max_dicts. induction b as [|a b IHb]; simpl; [lia|].
        pose proof (HF a (or_introl eq_refl)). assert (fold_right Nat.max 0 (map dicts b) <= fuel) by (apply IHb; intros; apply HF; simpl; auto). lia.
      + destruct OC as (p & O). exists p. apply occurs_app. auto.
      + intros _ p (t & v & I & O). apply NW. exists t, v. auto.
      + rewrite E2. destruct (IH x2 (old ++ b)) as (x' & E' & ST' & D'); auto.
        * destruct old; [congruence|discriminate].
        * destruct OC as (p & O). exists p. apply occurs_app. auto.
        * unfold all in H. simpl in H. rewrite app_assoc in H. auto.
        * unfold all in C. simpl in C. rewrite app_assoc in C. auto.
        * unfold all in S. simpl in S. rewrite app_assoc in S. auto.
        * intros p O. rewrite <- app_assoc in O. apply occurs_app. left. apply NW. exact O.
        * exists x'. split; auto. unfold all. simpl. rewrite app_assoc. auto. }
  assert (HB : forall t, In t b -> In t all) by (intros; unfold all; simpl; rewrite !in_app_iff; auto).
  cbn [rounds]. destruct (append_all_ok b x_new) as (x1 & E1); [intros; apply H; auto|]. rewrite E1.
  assert (S0 : state_of x_new [] []) by (split; [reflexivity|left; auto]).
  destruct (append_all_state b _ _ _ _ S0 E1) as [S1 _]. simpl in S1.
  destruct (parse_state fuel x1 [] b S1) as (x2 & E2 & S2 & D2); cbn [app]; auto.
  - intros; apply H; auto.
  - intros; apply H; auto.
  - intros t1 t2 p v kvs I1 I2. apply C; auto.
  - intros p q O1 O2. assert (forall p, occurs b p -> occurs all p) by (intros p0 (t & v & I & O); exists t, v; auto). apply S; auto.
  - assert (HF : forall t, In t b -> dicts t <= fuel) by (intros; apply H; auto). clear -HF. unfold max_dicts. induction b as [|a b IHb]; simpl; [lia|].
    pose proof (HF a (or_introl eq_refl)). assert (fold_right Nat.max 0 (map dicts b) <= fuel) by (apply IHb; intros; apply HF; simpl; auto). lia.
  - intros C0. congruence.
  - rewrite E2. apply (G bs x2 b); auto. destruct NE as (p & t & v & I & _). intros ->. destruct I.
Qed.
(** However the appends and the parses are interleaved, the result describes all the steps in
    order, if the later batches bring no new key *)
Theorem extra_info_rounds : forall fuel b bs, let all := concat (b :: bs) in
  (forall t, In t all -> wf t /\ is_dict t /\ dicts t <= fuel) -> consistent all -> separate all -> (exists p, occurs b p) ->
  (forall p, occurs all p -> occurs b p) ->
  exists x, rounds fuel x_new (b :: bs) = Some x /\ describes none (x_data x) all.
Proof. intros fuel b bs all H C S NE NW. destruct (rounds_state fuel b bs H C S NE NW) as (x & E & _ & D). eauto. Qed.

(** A key that first appears after a parse is a KeyError, whatever the data *)
Theorem extra_info_new_key_refuted : forall fuel x old k v x1, 1 <= fuel -> state_of x old [] -> old <> [] -> ~ In k (map fst (x_data x)) ->
  x_append x (Dict [(k, Leaf v)]) = Some x1 -> x_parse none fuel x1 = None.
Proof.
  intros fuel x old k v x1 F [S1 S2] NO NI E. inversion E; subst x1. clear E. destruct fuel as [|f]; [lia|].
  destruct S2 as [(-> & _)|(O & [ND K] & M & SD & NE & D & LN)]; [congruence|].
  unfold x_parse. cbn [x_km x_storage]. rewrite S1. cbn [app um_all um_tree um_loop um_items].
  assert (EX : existsb (fun e : string * path => path_eqb [k] (snd e)) (x_km x) = false).
  { destruct (existsb _ _) eqn:EX; auto. exfalso. apply existsb_exists in EX. destruct EX as ((k' & q) & I & E). simpl in E. apply path_eqb_spec in E. subst q.
    destruct (K _ _ I) as [-> Oc]. apply NI. apply D. exists [k]. auto. }
  cbn [app]. rewrite EX. cbn [join]. destruct f; cbn [um_loop].
  all: assert (C : forall km, In (k, [k]) km -> columns none {| x_storage := [Dict [(k, Leaf v)]]; x_km := x_km x; x_struct := x_struct x; x_data := x_data x |} km = None).
  1,3: induction km as [|[k' q] km IH]; intros I; [destruct I|]; destruct I as [E|I];
    [inversion E; subst; cbn [columns]; unfold column; cbn [x_struct x_storage]; rewrite SD;
     assert (DN : dget (x_data x) k = None) by (destruct (dget (x_data x) k) eqn:DG; auto; exfalso; apply NI; apply dget_Some_In in DG; change k with (fst (k, l)); apply in_map; auto);
     destruct (x_data x); [congruence|]; rewrite DN; reflexivity
    |cbn [columns]; rewrite (IH I); destruct (column _ _ _ _); reflexivity].
  all: rewrite C; [reflexivity|]; apply In_dset; auto.
Qed.

(** A copy has lost the parsed steps as soon as it is parsed again, by itself, by a view, or
    after another step *)
Lemma columns_length : forall x km out, columns none x km = Some out -> x_struct x = [] -> forall k a, In (k, a) out -> length a = length (x_storage x).
Proof.
  assert (CL : forall ts p a, cells none ts p = Some a -> length a = length ts).
  { induction ts as [|t ts IH]; intros p a H; simpl in H; [inversion H; auto|]. destruct (cell none t p); [|discriminate]. destruct (cells none ts p) eqn:E; [|discriminate]. inversion H; subst. simpl. f_equal. eauto. }
  induction km as [|[k' p] km IH]; intros out H S k a I; simpl in H; [inversion H; subst; destruct I|].
  destruct (column none x k' p) as [c|] eqn:E; [|discriminate]. destruct (columns none x km) as [r|]; [|discriminate]. inversion H; subst. destruct I as [E0|I]; [|eauto].
  inversion E0; subst. unfold column in E. rewrite S in E. destruct (cells none (x_storage x) p) eqn:E2; [|discriminate]. inversion E; subst. simpl. eauto.
Qed.
Theorem extra_info_copy_refuted : forall fuel x old ts x1 x', state_of x old [] -> append_all (x_copy x) ts = Some x1 -> x_parse none fuel x1 = Some x' ->
  x_data (x_copy x) = x_data x /\ forall k a, In (k, a) (x_data x') -> length a = length ts.
Proof.
  intros fuel x old ts x1 x' [S1 S2] E P. split; [reflexivity|].
  assert (G : forall ts y y', append_all y ts = Some y' -> x_storage y' = x_storage y ++ ts /\ x_struct y' = x_struct y).
  { clear. unfold append_all. induction ts as [|t ts IH]; intros y y' E; cbn [fold_left] in E; [inversion E; rewrite app_nil_r; auto|]. destruct t as [v|kvs].
    - exfalso. cbn [x_append] in E. clear -E. induction ts; simpl in E; [discriminate|auto].
    - cbn [x_append] in E. apply IH in E. cbn [x_storage x_struct] in E. rewrite <- app_assoc in E. exact E. }
  destruct (G _ _ _ E) as [G1 G2]. cbn [x_copy x_storage x_struct] in G1, G2. rewrite S1 in G1. cbn [app] in G1.
  unfold x_parse in P. destruct (um_all fuel (x_km x1) (x_storage x1)) as [km|]; [|discriminate]. destruct (columns none x1 km) as [out|] eqn:C; [|discriminate].
  inversion P. cbn [x_data]. intros k a I. rewrite (columns_length _ _ _ C G2 k a I), G1. reflexivity.
Qed.

(** ** Sums *)
Lemma NoDup_app_i : forall A (l1 l2 : list A), NoDup l1 -> NoDup l2 -> (forall x, In x l1 -> ~ In x l2) -> NoDup (l1 ++ l2).
Proof.
  induction l1 as [|x l1 IH]; intros l2 N1 N2 D; simpl; auto. inversion N1; subst. constructor.
  - rewrite in_app_iff. intros [I|I]; auto. apply (D x); simpl; auto.
  - apply IH; auto. intros y I. apply D. simpl; auto.
Qed.
Lemma NoDup_map_filter : forall A B (f : A -> B) g (l : list A), NoDup (map f l) -> NoDup (map f (filter g l)).
Proof.
  induction l as [|x l IH]; intros N; simpl in *; [constructor|]. inversion N; subst. destruct (g x); simpl; auto. constructor; auto.
  intros I. apply H1. apply in_map_iff in I. destruct I as (y & <- & I). apply filter_In in I. apply in_map. tauto.
Qed.
Lemma describes_no : forall d (ts : list (tree V)) p, describes none d ts -> ~ (exists q, occurs ts q /\ join q = join p) -> dget d (join p) = None.
Proof.
  intros d ts p (D1 & D2 & D3) NO. destruct (dget d (join p)) eqn:E; auto. exfalso. apply NO, D2. apply dget_Some_In in E. change (join p) with (fst (join p, l)). apply in_map. auto.
Qed.
Lemma dget_None : forall A (d : list (string * A)) k, dget d k = None <-> ~ In k (map fst d).
Proof.
  induction d as [|[k' y] d IH]; intros k; simpl; [tauto|]. destruct (String.eqb_spec k k') as [->|N]; [split; [discriminate|tauto]|]. rewrite IH. split; [intros H [E|I]; congruence || auto|tauto].
Qed.
Lemma dget_app : forall A (d1 d2 : list (string * A)) k, dget (d1 ++ d2) k = match dget d1 k with Some x => Some x | None => dget d2 k end.
Proof. induction d1 as [|[k' y] d1 IH]; intros d2 k; simpl; auto. destruct (String.eqb k k'); auto. Qed.
Lemma dget_map : forall A B (f : string -> A -> B) (d : list (string * A)) k, dget (map (fun e => (fst e, f (fst e) (snd e))) d) k = match dget d k with Some x => Some (f k x) | None => None end.
Proof. induction d as [|[k' y] d IH]; intros k; simpl; auto. destruct (String.eqb_spec k k') as [->|]; auto. Qed.
Lemma dget_filter : forall A (f : string -> bool) (d : list (string * A)) k, f k = true -> dget (filter (fun e => f (fst e)) d) k = dget d k.
Proof.
  induction d as [|[k' y] d IH]; intros k F; simpl; auto. destruct (String.eqb_spec k k') as [->|N].
  - rewrite F. simpl. rewrite String.eqb_refl. auto.
  - destruct (f k'); simpl; auto. destruct (String.eqb_spec k k'); [congruence|auto].
Qed.
Lemma spec_col_none : forall (ts : list (tree V)) p, ~ occurs ts p -> spec_col ts p = repeat none (length ts).
Proof.
  induction ts as [|t ts IH]; intros p N; [reflexivity|]. cbn [spec_col map length repeat]. unfold spec_col in IH. f_equal.
  - destruct (value t p) eqn:E; auto. exfalso. apply N. exists t, v. simpl; auto.
  - apply IH. intros (t' & v & I & O). apply N. exists t', v. simpl; auto.
Qed.
Lemma occurs_dec_data : forall d (ts : list (tree V)) p (all : list (tree V)), describes none d ts -> separate all -> (forall t, In t ts -> In t all) -> occurs all p ->
  dget d (join p) = Some (spec_col ts p) /\ occurs ts p \/ dget d (join p) = None /\ ~ occurs ts p.
Proof.
  intros d ts p all D S SUB O. destruct (dget d (join p)) eqn:E.
  - left. assert (I : In (join p) (map fst d)) by (apply dget_Some_In in E; change (join p) with (fst (join p, l)); apply in_map; auto).
    apply D in I. destruct I as (q & Oq & J). assert (q = p) by (apply S; auto; destruct Oq as (t & v & I & Ov); exists t, v; auto). subst. split; auto.
    rewrite <- E. destruct D as (_ & _ & D3). apply D3; auto.
  - right. split; auto. intros O'. destruct D as (_ & _ & D3). rewrite (D3 p O') in E. discriminate.
Qed.
Lemma cat_describes : forall d1 d2 (a b : list (tree V)), d1 <> [] -> d2 <> [] -> describes none d1 a -> describes none d2 b -> separate (a ++ b) ->
  (forall k c, In (k, c) d1 -> length c = length a) -> (forall k c, In (k, c) d2 -> length c = length b) ->
  describes none (cat_dict none d1 d2) (a ++ b) /\ cat_dict none d1 d2 <> [] /\ (forall k c, In (k, c) (cat_dict none d1 d2) -> length c = length (a ++ b)).
Proof.
  intros d1 d2 a b N1 N2 D1 D2 S L1 L2.
  assert (E : cat_dict none d1 d2 =
    map (fun e => (fst e, cat_col none (length a) (length b) (Some (snd e)) (dget d2 (fst e)))) d1
    ++ map (fun e => (fst e, cat_col none (length a) (length b) None (Some (snd e)))) (filter (fun e => match dget d1 (fst e) with None => true | Some _ => false end) d2)).
  { unfold cat_dict. destruct d1 as [|[k1 a1] r1] eqn:E1; [congruence|]. destruct d2 as [|[k2 a2] r2] eqn:E2; [congruence|].
    rewrite (L1 k1 a1) by (simpl; auto). rewrite (L2 k2 a2) by (simpl; auto). reflexivity. }
  rewrite E.
  assert (KE : forall k, In k (map fst (cat_dict none d1 d2)) <-> In k (map fst d1) \/ In k (map fst d2)).
  { intros k. rewrite E, map_app, !map_map, in_app_iff. cbn [fst]. split.
    - intros [I|I]; [left; auto|right]. apply in_map_iff in I. destruct I as (e & <- & I). apply filter_In in I. apply in_map. tauto.
    - intros [I|I]; [left; auto|]. destruct (dget d1 k) eqn:G.
      + left. apply dget_Some_In in G. change k with (fst (k, l)). apply (in_map fst). auto.
      + right. apply in_map_iff in I. destruct I as (e & <- & I). apply in_map_iff. exists e. split; auto. apply filter_In. rewrite G. auto. }
  split; [|split].
  - split; [|split].
    + rewrite map_app, !map_map. cbn [fst]. apply NoDup_app_i.
      * apply D1.
      * apply NoDup_map_filter. apply D2.
      * intros k I1 I2. apply in_map_iff in I2. destruct I2 as (e & <- & I). apply filter_In in I. destruct I as [_ I]. destruct (dget d1 (fst e)) eqn:G; [discriminate|]. apply dget_None in G. auto.
    + intros k. rewrite <- E, KE. destruct D1 as (_ & D1 & _), D2 as (_ & D2 & _). rewrite D1, D2. split.
      * intros [(p & O & J)|(p & O & J)]; exists p; split; auto; apply occurs_app; auto.
      * intros (p & O & J). apply occurs_app in O. destruct O; [left|right]; eauto.
    + intros p O. fold (spec_col (a ++ b) p). unfold spec_col. rewrite map_app. fold (spec_col a p) (spec_col b p).
      rewrite dget_app. rewrite (dget_map _ _ (fun k x => cat_col none (length a) (length b) (Some x) (dget d2 k))).
      destruct (occurs_dec_data d1 a p (a ++ b) D1 S) as [[G1 O1]|[G1 O1]]; [intros; apply in_app_iff; auto|auto| |]; rewrite G1.
      * destruct (occurs_dec_data d2 b p (a ++ b) D2 S) as [[G2 O2]|[G2 O2]]; [intros; apply in_app_iff; auto|auto| |]; rewrite G2; cbn [cat_col]; auto.
        rewrite (spec_col_none b p O2). auto.
      * rewrite (dget_map _ _ (fun _ x => cat_col none (length a) (length b) None (Some x))).
        rewrite (dget_filter _ (fun k => match dget d1 k with None => true | Some _ => false end)) by (rewrite G1; auto).
        destruct (occurs_dec_data d2 b p (a ++ b) D2 S) as [[G2 O2]|[G2 O2]]; [intros; apply in_app_iff; auto|auto| |].
        -- rewrite G2. cbn [cat_col]. rewrite (spec_col_none a p O1). auto.
        -- exfalso. apply occurs_app in O. tauto.
  - destruct d1; [congruence|discriminate].
  - intros k c I. rewrite app_length. apply in_app_iff in I. destruct I as [I|I]; apply in_map_iff in I; destruct I as ((k0 & c0) & Ec & I); inversion Ec; subst; unfold cat_col; cbn [snd fst].
    + rewrite app_length, (L1 _ _ I). f_equal. destruct (dget d2 k) eqn:G; [apply dget_Some_In in G; eauto|apply repeat_length].
    + apply filter_In in I. destruct I as [I _]. rewrite app_length, repeat_length, (L2 _ _ I). auto.
Qed.
Lemma km_union : forall (P : path -> Prop) (k2 k1 : list (string * path)), (forall p q, P p -> P q -> join p = join q -> p = q) -> km_ok P k1 -> (forall k p, In (k, p) k2 -> k = join p /\ P p) ->
  let km := fold_left (fun d e => dset d (fst e) (snd e)) k2 k1 in
  km_ok P km /\ (forall p, maps k1 p \/ maps k2 p -> maps km p).
Proof.
  intros P. induction k2 as [|[k p] k2 IH]; intros k1 S K1 K2; cbn [fold_left].
  - split; auto. intros p [M|[]]; auto.
  - cbn [fst snd]. destruct (K2 k p (or_introl eq_refl)) as [-> HP].
    destruct (IH (dset k1 (join p) p) S (dset_ok P _ _ K1 HP)) as [A B]; [intros; apply K2; simpl; auto|].
    split; auto. intros q [M|[E|M]].
    + apply B. left. apply (dset_keeps P S); auto.
    + inversion E; subst. apply B. left. apply In_dset; [apply K1|]. auto.
    + apply B. auto.
Qed.
Lemma km_ok_mono : forall (P Q : path -> Prop) km, (forall p, P p -> Q p) -> km_ok P km -> km_ok Q km.
Proof. intros P Q km H [N K]. split; auto. intros k p I. destruct (K k p I); auto. Qed.
Lemma add_state : forall x y a1 a2 b1 b2, state_of x a1 a2 -> state_of y b1 b2 -> separate (a1 ++ b1) -> state_of (x_add none x y) (a1 ++ b1) (a2 ++ b2).
Proof.
  intros x y a1 a2 b1 b2 [S1 S2] [T1 T2] SEP. split; [cbn [x_add x_storage]; rewrite S1, T1; auto|]. cbn [x_add x_km x_struct x_data].
  destruct S2 as [(-> & K1 & ST1 & DA1)|(O1 & K1 & M1 & SD1 & NE1 & D1 & L1)].
  - rewrite K1, ST1, DA1. cbn [cat_dict app].
    destruct T2 as [(-> & K2 & ST2 & DA2)|(O2 & K2 & M2 & SD2 & NE2 & D2 & L2)].
    + left. rewrite K2, ST2, DA2. auto.
    + right. destruct (km_union (occurs b1) (x_km y) [] SEP) as [A B]; [split; [constructor|intros ? ? []]|apply K2|].
      split; [auto|]. split; [auto|]. split; [intros; apply B; auto|]. auto.
  - right. destruct T2 as [(-> & K2 & ST2 & DA2)|(O2 & K2 & M2 & SD2 & NE2 & D2 & L2)].
    + rewrite K2, ST2, DA2, SD1. cbn [fold_left]. rewrite app_nil_r.
      assert (E : cat_dict none (x_data x) [] = x_data x) by (destruct (x_data x) as [|[? ?] ?]; reflexivity). rewrite E. auto 10.
    + destruct (km_union (occurs (a1 ++ b1)) (x_km y) (x_km x) SEP) as [A B].
      { apply (km_ok_mono (occurs a1)); auto. intros; apply occurs_app; auto. }
      { intros k p I. destruct (proj2 K2 k p I). split; auto. apply occurs_app; auto. }
      destruct (cat_describes (x_data x) (x_data y) a1 b1 NE1 NE2 D1 D2 SEP L1 L2) as (C1 & C2 & C3).
      split; [destruct O1 as (p & O1); exists p; apply occurs_app; auto|]. split; auto.
      split; [intros p O; apply B; apply occurs_app in O; destruct O; [left|right]; auto|]. rewrite SD1, SD2. auto.
Qed.

(** The sum describes the steps of both, in order, if the first one is parsed or the second is not *)
Theorem extra_info_add : forall fuel x y a1 a2 b1 b2, let all := (a1 ++ a2) ++ (b1 ++ b2) in
  state_of x a1 a2 -> state_of y b1 b2 -> (forall t, In t all -> wf t /\ is_dict t /\ dicts t <= fuel) -> consistent all -> separate all -> (exists p, occurs all p) ->
  (a1 ++ b1 <> [] -> forall p, occurs all p -> occurs (a1 ++ b1) p) ->
  a2 = [] \/ b1 = [] ->
  exists z, x_parse none fuel (x_add none x y) = Some z /\ describes none (x_data z) all.
Proof.
  intros fuel x y a1 a2 b1 b2 all SX SY H C S NE NW OR.
  assert (EA : all = (a1 ++ b1) ++ (a2 ++ b2)).
  { unfold all. destruct OR as [-> | ->]; rewrite ?app_nil_r; cbn [app]; rewrite <- ?app_assoc; reflexivity. }
  assert (SUB : forall t, In t (a1 ++ b1) -> In t all) by (intros t I; rewrite EA; apply in_app_iff; auto).
  assert (SEP : separate (a1 ++ b1)).
  { intros p q (t & v & I & O) (t' & v' & I' & O'). apply S; [exists t, v|exists t', v']; auto. }
  pose proof (add_state x y a1 a2 b1 b2 SX SY SEP) as SA. rewrite EA in *.
  destruct (parse_state fuel _ _ _ SA) as (z & E & _ & D); auto.
  - intros; apply H; auto.
  - intros t I. apply H. apply in_app_iff. auto.
  - assert (HF : forall t, In t (a2 ++ b2) -> dicts t <= fuel) by (intros; apply H; apply in_app_iff; auto). revert HF. generalize (a2 ++ b2). clear. intros l HF. unfold max_dicts. induction l; simpl; [lia|].
    pose proof (HF a (or_introl eq_refl)). assert (fold_right Nat.max 0 (map dicts l) <= fuel) by (apply IHl; intros; apply HF; simpl; auto). lia.
  - intros N p O. apply NW; auto. apply occurs_app. auto.
  - eauto.
Qed.

(** ** Views *)
Lemma dget_slice : forall (d : list (string * list V)) a b k, dget (map (fun e => (fst e, slice a b (snd e))) d) k = match dget d k with Some x => Some (slice a b x) | None => None end.
Proof. intros. apply (dget_map _ _ (fun _ x => slice a b x)). Qed.
Theorem extra_info_view : forall fuel x old new a b, let all := old ++ new in
  state_of x old new -> (forall t, In t all -> wf t /\ is_dict t /\ dicts t <= fuel) -> consistent all -> separate all -> (exists p, occurs all p) ->
  (old <> [] -> forall p, occurs all p -> occurs old p) ->
  exists z, x_view none fuel a b x = Some z /\
    (forall k, In k (map fst (x_data z)) <-> exists p, occurs all p /\ join p = k) /\
    (forall p, occurs all p -> dget (x_data z) (join p) = Some (map (fun t => match value t p with Some v => v | None => none end) (slice a b all))).
Proof.
  intros fuel x old new a b all SX H C S NE NW.
  destruct (parse_state fuel x old new SX) as (z & E & _ & D); auto.
  - intros; apply H; auto.
  - intros t I. apply H. apply in_app_iff. auto.
  - assert (HF : forall t, In t new -> dicts t <= fuel) by (intros; apply H; apply in_app_iff; auto). revert HF. clear. intros HF. unfold max_dicts. induction new; simpl; [lia|].
    pose proof (HF a (or_introl eq_refl)). assert (fold_right Nat.max 0 (map dicts new) <= fuel) by (apply IHnew; intros; apply HF; simpl; auto). lia.
  - intros N p O. apply NW; auto. apply occurs_app. auto.
  - unfold x_view. rewrite E. eexists. split; [reflexivity|]. cbn [x_data]. destruct D as (D1 & D2 & D3). split.
    + intros k. rewrite map_map. cbn [fst]. apply D2.
    + intros p O. rewrite dget_slice, (D3 p O). f_equal. unfold slice. rewrite skipn_map, firstn_map. reflexivity.
Qed.
End Proofs.

(** ** Flat keys *)
Definition no_underscore (k : string) : Prop := ~ In "_"%char (list_ascii_of_string k).
Lemma las_app : forall a b, list_ascii_of_string (a ++ b)%string = list_ascii_of_string a ++ list_ascii_of_string b.
Proof. induction a; intros b; simpl; [auto|f_equal; auto]. Qed.
Lemma las_inj : forall a b, list_ascii_of_string a = list_ascii_of_string b -> a = b.
Proof. intros a b H. rewrite <- (string_of_list_ascii_of_string a), <- (string_of_list_ascii_of_string b), H. auto. Qed.
Lemma split_us : forall (a b r s : list Ascii.ascii), ~ In "_"%char a -> ~ In "_"%char b -> a ++ "_"%char :: r = b ++ "_"%char :: s -> a = b /\ r = s.
Proof.
  induction a as [|x a IH]; intros b r s NA NB E.
  - destruct b as [|y b]; simpl in E; [inversion E; auto|]. inversion E; subst. exfalso. apply NB. simpl; auto.
  - destruct b as [|y b]; simpl in E; [inversion E; subst; exfalso; apply NA; simpl; auto|]. inversion E; subst.
    destruct (IH b r s) as [-> ->]; auto; simpl in *; tauto.
Qed.
Lemma join_inj : forall p q, p <> [] -> q <> [] -> Forall no_underscore p -> Forall no_underscore q -> join p = join q -> p = q.
Proof.
  induction p as [|k p IH]; intros q NP NQ FP FQ E; [congruence|]. destruct q as [|k' q]; [congruence|].
  inversion FP; subst. inversion FQ; subst.
  destruct p as [|k1 p], q as [|k1' q].
  - simpl in E. subst. auto.
  - exfalso. cbn [join] in E. apply H1. apply (f_equal list_ascii_of_string) in E. rewrite E, las_app. apply in_app_iff. right. simpl. auto.
  - exfalso. cbn [join] in E. apply H3. apply (f_equal list_ascii_of_string) in E. rewrite <- E, las_app. apply in_app_iff. right. simpl. auto.
  - change (join (k :: k1 :: p)) with (k ++ "_" ++ join (k1 :: p))%string in E. change (join (k' :: k1' :: q)) with (k' ++ "_" ++ join (k1' :: q))%string in E.
    apply (f_equal list_ascii_of_string) in E. rewrite !las_app in E. cbn [list_ascii_of_string app] in E. apply split_us in E; auto. destruct E as [E1 E2].
    apply las_inj in E1. apply las_inj in E2. subst. f_equal. apply IH; auto; discriminate.
Qed.
(** Keys without an underscore, or flat dictionaries, never collide *)
Theorem extra_info_keys_separate : forall V (ts : list (tree V)), (forall t, In t ts -> is_dict t) ->
  (forall p k, occurs ts p -> In k p -> no_underscore k) \/ (forall p, occurs ts p -> length p = 1) -> separate ts.
Proof.
  intros V ts DI H p q OP OQ E.
  assert (NE : forall p, occurs ts p -> p <> []).
  { intros p0 (t & v & I & O) ->. destruct (DI t I) as [kvs ->]. discriminate. }
  destruct H as [H|H].
  - apply join_inj; [apply NE; exact OP|apply NE; exact OQ|apply Forall_forall; intros k Hk; exact (H p k OP Hk)|apply Forall_forall; intros k Hk; exact (H q k OQ Hk)|exact E].
  - pose proof (H p OP) as LP. pose proof (H q OQ) as LQ. destruct p as [|a [|]]; simpl in LP; try lia. destruct q as [|b [|]]; simpl in LQ; try lia. simpl in E. subst. auto.
Qed.

(** * Witnesses and concrete cases *)
Open Scope string_scope.
Definition step1 : tree nat := Dict [("time", Leaf 5); ("robot", Dict [("speed", Leaf 7); ("arm", Dict [("angle", Leaf 9)])])].
Definition step2 : tree nat := Dict [("robot", Dict [("arm", Dict [("angle", Leaf 3)])]); ("time", Leaf 6)].
(** Two steps, the second without the speed, parsed together or one at a time *)
Example parse_steps : rounds 0 9 x_new [[step1; step2]] = Some {| x_storage := [];
    x_km := [("time", ["time"]); ("robot_speed", ["robot"; "speed"]); ("robot_arm_angle", ["robot"; "arm"; "angle"])];
    x_struct := [("time", [5; 6]); ("robot_speed", [7; 0]); ("robot_arm_angle", [9; 3])];
    x_data := [("time", [5; 6]); ("robot_speed", [7; 0]); ("robot_arm_angle", [9; 3])] |} /\
  rounds 0 9 x_new [[step1]; [step2]] = rounds 0 9 x_new [[step1; step2]].
Proof. split; vm_compute; reflexivity. Qed.
(** In the other order the second step brings a new key: KeyError *)
Example parse_new_key : rounds 0 9 x_new [[step2]; [step1]] = None.
Proof. vm_compute. reflexivity. Qed.
Ltac nodup := repeat (constructor; [simpl; intuition congruence|]); constructor.
Ltac wf_t := first [apply wf_leaf | apply wf_dict; [simpl; nodup | let I := fresh in intros ? ? I; simpl in I; repeat (destruct I as [I|I]; [inversion I; subst; clear I; wf_t|]); destruct I]].
Lemma step_wf : wf step1 /\ wf step2.
Proof.
  split; wf_t.
Qed.

(** Two values with the same flat key: the first one is lost *)
Theorem extra_info_collision_refuted : exists (b : list (tree nat)) x,
  (forall t, In t b -> wf t /\ is_dict t /\ dicts t <= 2) /\ consistent b /\ rounds 0 2 x_new [b] = Some x /\
  (exists t, In t b /\ value t ["a_b"] = Some 1 /\ value t ["a"; "b"] = Some 2) /\
  x_data x = [("a_b", [2])].
Proof.
  exists [Dict [("a_b", Leaf 1); ("a", Dict [("b", Leaf 2)])]].
  eexists. split; [|split; [|split; [vm_compute; reflexivity|split]]].
  - intros t [<-|[]]. split; [|split; [eexists; reflexivity|vm_compute; lia]].
    wf_t.
  - intros t1 t2 p v kvs [<-|[]] [<-|[]] H1 H2. congruence.
  - eexists. split; [left; reflexivity|]. vm_compute. auto.
  - reflexivity.
Qed.

(** The sum of an unparsed and a parsed information puts the steps of the second one first *)
Theorem extra_info_add_refuted : exists (t1 t2 : tree nat) x y z, wf t1 /\ wf t2 /\
  append_all x_new [t1] = Some x /\ rounds 0 1 x_new [[t2]] = Some y /\ x_parse 0 1 (x_add 0 x y) = Some z /\
  value t1 ["a"] = Some 1 /\ value t2 ["a"] = Some 2 /\ dget (x_data z) "a" = Some [2; 1].
Proof.
  exists (Dict [("a", Leaf 1)]), (Dict [("a", Leaf 2)]).
  do 3 eexists. split; [|split; [|split; [reflexivity|split; [vm_compute; reflexivity|split; [vm_compute; reflexivity|auto]]]]];
  wf_t.
Qed.
(** Both parsed, with different keys: the missing entries are filled *)
Example add_fill : exists x y, rounds 0 9 x_new [[step1]] = Some x /\ rounds 0 9 x_new [[step2; Dict [("time", Leaf 1); ("goal", Leaf 8)]]] = Some y /\
  x_data (x_add 0 x y) = [("time", [5; 6; 1]); ("robot_speed", [7; 0; 0]); ("robot_arm_angle", [9; 3; 0]); ("goal", [0; 0; 8])].
Proof. do 2 eexists. split; [vm_compute; reflexivity|split; vm_compute; reflexivity]. Qed.
Example view_one : exists x z, append_all x_new [step1; step2] = Some x /\ x_view 0 9 1 2 x = Some z /\ x_data z = [("time", [6]); ("robot_speed", [0]); ("robot_arm_angle", [3])].
Proof. do 2 eexists. split; [reflexivity|split; vm_compute; reflexivity]. Qed.
Example copy_lost : exists x x1 x', rounds 0 9 x_new [[step1]] = Some x /\ append_all (x_copy x) [step2] = Some x1 /\ x_parse 0 9 x1 = Some x' /\
  x_data x = [("time", [5]); ("robot_speed", [7]); ("robot_arm_angle", [9])] /\ x_data x' = [("time", [6]); ("robot_speed", [0]); ("robot_arm_angle", [3])].
Proof. do 3 eexists. repeat (split; [vm_compute; reflexivity|]). vm_compute. reflexivity. Qed.

Print Assumptions extra_info_rounds.
Print Assumptions extra_info_new_key_refuted.
Print Assumptions extra_info_copy_refuted.
Print Assumptions extra_info_add.
Print Assumptions extra_info_add_refuted.
Print Assumptions extra_info_view.
Print Assumptions extra_info_keys_separate.
Print Assumptions extra_info_collision_refuted.

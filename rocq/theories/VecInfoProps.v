(** C96: the step information of several environments stays with its samples. *)
From Coq Require Import Ascii String List Arith Lia Bool.
From Verif Require Import Common ExtraModel ExtraProps VecInfoModel.
Import ListNotations.
Local Open Scope list_scope.

(** * Specification *)
Section Spec.
Context {V : Type}.
Variable none : V.

(** What environment [i] reported in a step *)
Fixpoint tmap {A B} (f : A -> B) (t : tree A) : tree B :=
  match t with Leaf v => Leaf (f v) | Dict kvs => Dict (map (fun e => (fst e, tmap f (snd e))) kvs) end.
Definition entry (i : nat) (l : leafval V) : V := match l with Num v => v | Arr a => nth i a none end.
Definition env_tree (s : vstep V) (i : nat) : tree V :=
  match s with PerEnv l => nth i l (Dict []) | Arrays t => tmap (entry i) t end.
(** The value at a path, or the filler *)
Definition info_at (s : vstep V) (i : nat) (p : path) : V :=
  match value (env_tree s i) p with Some v => v | None => none end.

(** There is one dictionary, or one entry of every array, per environment *)
Fixpoint arrays_ok (n : nat) (t : tree (leafval V)) : Prop :=
  match t with
  | Leaf (Num _) => True
  | Leaf (Arr l) => length l = n
  | Dict kvs => fold_right (fun e P => arrays_ok n (snd e) /\ P) True kvs
  end.
Definition step_ok (n : nat) (s : vstep V) : Prop :=
  match s with PerEnv l => length l = n | Arrays t => arrays_ok n t end.

(** Everything all environments reported in the steps [ss] *)
Definition env_trees (n : nat) (ss : list (vstep V)) : list (tree V) :=
  flat_map (fun s => map (env_tree s) (seq 0 n)) ss.

(** The data describe the steps [ss]: one array of steps times environments for every path
    that occurred in the steps [hist] *)
Definition vdescribes (n : nat) (data : list (string * list (list V))) (hist ss : list (vstep V)) : Prop :=
  NoDup (map fst data) /\
  (forall k, In k (map fst data) <-> exists p, occurs (env_trees n hist) p /\ join p = k) /\
  (forall p, occurs (env_trees n hist) p ->
     dget data (join p) = Some (map (fun s => map (fun i => info_at s i p) (seq 0 n)) ss)).
End Spec.

Section Proofs.
Context {V : Type}.
Variable none : V.
Variable junk : nat -> V.
Variable n : nat.
Hypothesis two : 2 <= n.

(** ** Trees of arrays *)
Lemma dget_map {A B} (f : A -> B) (d : list (string * A)) k :
  dget (map (fun e => (fst e, f (snd e))) d) k = option_map f (dget d k).
Proof. induction d as [|[k' x] d IH]; [reflexivity|]. simpl. destruct (String.eqb k k'); auto. Qed.
Lemma node_tmap {A B} (f : A -> B) : forall p (t : tree A), node (tmap f t) p = option_map (tmap f) (node t p).
Proof.
  induction p as [|k p IH]; intros t; [reflexivity|]. destruct t as [v|kvs]; [reflexivity|].
  cbn [tmap node]. rewrite dget_map. destruct (dget kvs k); simpl; auto.
Qed.
Lemma find_tmap {A B} (f : A -> B) : forall p (t : tree A), find (tmap f t) p = option_map (option_map (tmap f)) (find t p).
Proof.
  induction p as [|k p IH]; intros t; [reflexivity|]. destruct t as [v|kvs]; [reflexivity|].
  cbn [tmap find]. rewrite dget_map. destruct (dget kvs k); simpl; auto.
Qed.
Definition tstack {A B} (f : A -> B) (st : list (list (string * tree A) * path)) : list (list (string * tree B) * path) :=
  map (fun e => (map (fun x => (fst x, tmap f (snd x))) (fst e), snd e)) st.
Lemma um_items_tmap {A B} (f : A -> B) : forall items parent km st,
  um_items (map (fun x => (fst x, tmap f (snd x))) items) parent km (tstack f st) =
  (fst (um_items items parent km st), tstack f (snd (um_items items parent km st))).
Proof.
  induction items as [|[k v] items IH]; intros parent km st; [reflexivity|].
  cbn [map um_items fst snd]. destruct (existsb _ km); [apply IH|].
  destruct v as [v|kvs]; cbn [tmap]; [apply IH|].
  apply (IH parent km ((kvs, parent ++ [k]) :: st)).
Qed.
Lemma um_loop_tmap {A B} (f : A -> B) : forall fuel km st, um_loop fuel km (tstack f st) = um_loop fuel km st.
Proof.
  induction fuel as [|fu IH]; intros km st; destruct st as [|[items parent] st]; try reflexivity.
  cbn [tstack map um_loop fst snd]. change (map _ st) with (tstack f st). rewrite um_items_tmap.
  destruct (um_items items parent km st) as [km' st']. cbn [fst snd]. apply IH.
Qed.
Lemma um_tree_tmap {A B} (f : A -> B) fuel km (t : tree A) : um_tree fuel km (tmap f t) = um_tree fuel km t.
Proof. destruct t as [v|kvs]; [reflexivity|]. cbn [tmap um_tree]. apply (um_loop_tmap f fuel km [(kvs, [])]). Qed.

Lemma arrays_ok_node : forall p t t', arrays_ok n t -> node t p = Some t' -> arrays_ok (V := V) n t'.
Proof.
  induction p as [|k p IH]; intros t t' A E; [inversion E; subst; auto|]. destruct t as [v|kvs]; [discriminate|].
  cbn [node] in E. destruct (dget kvs k) as [s|] eqn:D; [|discriminate]. apply dget_Some_In in D.
  apply (IH s); auto. clear -A D. cbn [arrays_ok] in A. induction kvs as [|e kvs IHk]; [destruct D|].
  cbn [fold_right] in A. destruct A as [A1 A2]. destruct D as [->|D]; auto.
Qed.

(** ** One step *)
Definition um_trees (s : vstep V) : list (tree V) := match s with PerEnv l => l | Arrays t => [env_tree none s 0] end.
Lemma env_tree_list l : length l = n -> map (env_tree none (PerEnv l)) (seq 0 n) = l.
Proof.
  intros L. apply nth_ext with (d := Dict []) (d' := Dict []); rewrite map_length, seq_length; [auto|].
  intros i Hi. rewrite nth_indep with (d' := env_tree none (PerEnv l) 0) by (rewrite map_length, seq_length; auto).
  rewrite map_nth, seq_nth by auto. reflexivity.
Qed.
Lemma value_entry t i j p : (exists v, value (tmap (entry none i) t) p = Some v) -> exists v, value (tmap (entry none j) t) p = Some v.
Proof.
  unfold value. rewrite !node_tmap. destruct (node t p) as [[l|kvs]|]; simpl; intros [v E]; [eauto|discriminate|discriminate].
Qed.
Lemma um_trees_occurs ss p : (forall s, In s ss -> step_ok n s) -> occurs (flat_map um_trees ss) p <-> occurs (env_trees none n ss) p.
Proof.
  intros OK. unfold occurs, env_trees. split.
  - intros (t & v & I & O). apply in_flat_map in I as (s & Is & It). specialize (OK s Is). destruct s as [l|t0]; cbn [um_trees] in It.
    + exists t, v. split; auto. apply in_flat_map. exists (PerEnv l). split; auto. rewrite env_tree_list; auto.
    + destruct It as [<-|[]]. eexists _, v. split; [|exact O]. apply in_flat_map. exists (Arrays t0). split; auto.
      apply in_map. apply in_seq. lia.
  - intros (t & v & I & O). apply in_flat_map in I as (s & Is & It). specialize (OK s Is). destruct s as [l|t0].
    + rewrite env_tree_list in It by auto. exists t, v. split; auto. apply in_flat_map. exists (PerEnv l). auto.
    + apply in_map_iff in It as (i & <- & _). destruct (value_entry t0 i 0 p) as [w Hw]; [eauto|].
      exists (env_tree none (Arrays t0) 0), w. split; auto. apply in_flat_map. exists (Arrays t0). split; auto. simpl. auto.
Qed.
Lemma um_trees_in ss t : (forall s, In s ss -> step_ok n s) -> In t (flat_map um_trees ss) -> In t (env_trees none n ss).
Proof.
  intros OK I. apply in_flat_map in I as (s & Is & It). apply in_flat_map. exists s. split; auto. specialize (OK s Is). destruct s as [l|t0].
  - rewrite env_tree_list; auto.
  - cbn [um_trees] in It. destruct It as [<-|[]]. apply in_map. apply in_seq. lia.
Qed.
Lemma vum_um : forall ss fuel km, vum fuel km ss = um_all fuel km (flat_map um_trees ss).
Proof.
  assert (A : forall (l1 l2 : list (tree V)) fuel km, um_all fuel km (l1 ++ l2) =
              match um_all fuel km l1 with None => None | Some km' => um_all fuel km' l2 end).
  { induction l1 as [|t l1 IH]; intros l2 fuel km; [reflexivity|]. cbn [app um_all]. destruct (um_tree fuel km t); auto. }
  induction ss as [|s ss IH]; intros fuel km; [reflexivity|]. cbn [vum flat_map]. rewrite A. destruct s as [l|t]; cbn [vum_step um_trees].
  - destruct (um_all fuel km l); auto.
  - cbn [um_all]. cbn [env_tree]. rewrite um_tree_tmap. destruct (um_tree fuel km t); auto.
Qed.

Lemma vrow_spec : forall all s p, step_ok n s -> consistent all -> (forall i, i < n -> In (env_tree none s i) all) -> occurs all p ->
  vrow none junk n s p = Some (map (fun i => info_at none s i p) (seq 0 n)).
Proof.
  intros all s p OK C I O. destruct s as [l|t]; cbn [vrow].
  - simpl in OK. rewrite OK, Nat.leb_refl. rewrite (cells_spec none all l p C); auto.
    + rewrite Nat.sub_diag. cbn [seq map]. rewrite app_nil_r. f_equal.
      rewrite <- (env_tree_list l OK) at 1. rewrite map_map. reflexivity.
    + intros t It. apply In_nth with (d := Dict []) in It as (i & Hi & <-). apply (I i). lia.
  - assert (CS : forall i, i < n -> cell none (env_tree none (Arrays t) i) p = Some (info_at none (Arrays t) i p)).
    { intros i Hi. apply (cell_spec none all); auto. }
    assert (G : forall r, (forall i, i < n -> nth_error r i = Some (info_at none (Arrays t) i p)) -> length r = n ->
                Some r = Some (map (fun i => info_at none (Arrays t) i p) (seq 0 n))).
    { intros r H L. f_equal. apply nth_ext with (d := none) (d' := none); [rewrite map_length, seq_length; auto|].
      intros i Hi. rewrite L in Hi. specialize (H i Hi). apply nth_error_nth with (d := none) in H. rewrite H.
      rewrite nth_indep with (d' := info_at none (Arrays t) 0 p) by (rewrite map_length, seq_length; auto).
      rewrite (map_nth (fun i => info_at none (Arrays t) i p)), seq_nth by auto. reflexivity. }
    unfold cell in CS. cbn [env_tree] in CS. setoid_rewrite find_tmap in CS.
    assert (RP : forall (v : V) i, i < n -> nth_error (repeat v n) i = Some v).
    { intros v i Hi. rewrite nth_error_nth' with (d := v) by (rewrite repeat_length; auto). f_equal. apply nth_repeat. }
    destruct (find t p) as [[[lf|kvs]|]|] eqn:F; cbn [option_map tmap] in CS.
    + destruct lf as [v|a].
      * apply G; [|apply repeat_length]. intros i Hi. rewrite RP by auto. apply (CS i Hi).
      * assert (La : length a = n).
        { apply find_node in F. symmetry in F. apply (arrays_ok_node p t (Leaf (Arr a))); auto. }
        rewrite La, Nat.eqb_refl. apply G; auto. intros i Hi. specialize (CS i Hi). cbn [entry] in CS. rewrite <- CS.
        apply List.nth_error_nth'. lia.
    + specialize (CS 0 ltac:(lia)). discriminate.
    + apply G; [|apply repeat_length]. intros i Hi. rewrite RP by auto. apply (CS i Hi).
    + specialize (CS 0 ltac:(lia)). discriminate.
Qed.
Definition spec_rows (ss : list (vstep V)) (p : path) : list (list V) := map (fun s => map (fun i => info_at none s i p) (seq 0 n)) ss.
Lemma vrows_spec : forall all ss p, (forall s, In s ss -> step_ok n s) -> consistent all ->
  (forall s i, In s ss -> i < n -> In (env_tree none s i) all) -> occurs all p -> vrows none junk n ss p = Some (spec_rows ss p).
Proof.
  intros all ss p OK C I O. induction ss as [|s ss IH]; [reflexivity|]. cbn [vrows spec_rows map].
  rewrite (vrow_spec all s p); auto; [|apply OK; simpl; auto|intros; apply I; simpl; auto].
  rewrite IH; [reflexivity|intros; apply OK; simpl; auto|intros; apply I; simpl; auto].
Qed.

(** ** States *)
Definition vstate (x : vinfo V) (hist old new : list (vstep V)) : Prop :=
  v_storage x = new /\
  (hist = [] /\ old = [] /\ v_km x = [] /\ v_struct x = [] /\ v_data x = [] \/
   (exists p, occurs (env_trees none n hist) p) /\ km_ok (occurs (env_trees none n hist)) (v_km x) /\
   (forall p, occurs (env_trees none n hist) p -> maps (v_km x) p) /\
   v_struct x = v_data x /\ vdescribes none n (v_data x) hist old /\
   (forall k a, In (k, a) (v_data x) -> length a = length old)).

Lemma env_trees_app a b : env_trees none n (a ++ b) = env_trees none n a ++ env_trees none n b.
Proof. apply flat_map_app. Qed.
Lemma vcolumns_spec : forall x (c : path -> list (list V)) km, (forall k p, In (k, p) km -> vcolumn none junk n x k p = Some (c p)) ->
  vcolumns none junk n x km = Some (map (fun e => (fst e, c (snd e))) km).
Proof.
  induction km as [|[k p] km IH]; intros H; [reflexivity|]. cbn [vcolumns map fst snd]. rewrite (H k p) by (simpl; auto).
  rewrite IH by (intros; apply H; simpl; auto). reflexivity.
Qed.

(** The conditions on the reported information: distinct keys, no element a dictionary here
    and a value there, no two paths with the same flat key. *)
Definition good (fuel : nat) (ss : list (vstep V)) : Prop :=
  (forall s, In s ss -> step_ok n s) /\
  (forall t, In t (env_trees none n ss) -> wf t /\ is_dict t /\ dicts t <= fuel) /\
  consistent (env_trees none n ss) /\ separate (env_trees none n ss).

Lemma good_app fuel a b : good fuel (a ++ b) -> good fuel a /\ good fuel b.
Proof.
  unfold good. rewrite env_trees_app. intros (S1 & W & C & Sp).
  split; (split; [intros; apply S1; apply in_app_iff; auto|]; split; [intros; apply W; apply in_app_iff; auto|]; split;
          [intros t1 t2 p v kvs I1 I2; apply C; apply in_app_iff; auto
          |intros p q O1 O2; apply Sp; apply occurs_app; auto]).
Qed.

Lemma v_parse_state : forall fuel x hist old new, vstate x hist old new -> good fuel (hist ++ new) ->
  (exists p, occurs (env_trees none n (hist ++ new)) p) ->
  (hist <> [] -> forall p, occurs (env_trees none n new) p -> occurs (env_trees none n hist) p) ->
  exists x', v_parse none junk n fuel x = Some x' /\ vstate x' (hist ++ new) (old ++ new) [].
Proof.
  intros fuel x hist old new [S1 S2] (OK & W & C & Sp) NE NW. unfold v_parse. rewrite S1, vum_um.
  assert (OKn : forall s, In s new -> step_ok n s) by (intros; apply OK; apply in_app_iff; auto).
  set (all := env_trees none n (hist ++ new)) in *.
  assert (Iall : forall t, In t (env_trees none n new) -> In t all) by (intros t I; unfold all; rewrite env_trees_app; apply in_app_iff; auto).
  destruct (um_all_spec fuel all (flat_map um_trees new) (v_km x)) as (km & E & KO & Mk & Mn).
  - intros; apply W; auto.
  - exact C.
  - exact Sp.
  - intros t I. apply um_trees_in in I; auto. split; auto. apply W; auto.
  - assert (HF : forall t, In t (flat_map um_trees new) -> dicts t <= fuel) by (intros t I; apply W; apply Iall; apply um_trees_in; auto).
    clear -HF. unfold max_dicts. induction (flat_map um_trees new) as [|a b IHb]; simpl; [lia|].
    pose proof (HF a (or_introl eq_refl)). assert (fold_right Nat.max 0 (map dicts b) <= fuel) by (apply IHb; intros; apply HF; simpl; auto). lia.
  - destruct S2 as [(-> & -> & K & _)|(_ & [K1 K2] & _)]; [rewrite K; split; [constructor|intros ? ? []]|].
    split; auto. intros k p I. destruct (K2 k p I). split; auto. unfold all. rewrite env_trees_app. apply occurs_app. auto.
  - rewrite E. assert (MA : forall p, occurs all p -> maps km p).
    { intros p O. unfold all in O. rewrite env_trees_app in O. apply occurs_app in O as [O|O].
      - apply Mk. destruct S2 as [(-> & _)|(_ & _ & M & _)]; [destruct O as (? & ? & [] & _)|auto].
      - apply Mn. apply um_trees_occurs; auto. }
    rewrite (vcolumns_spec x (spec_rows (old ++ new))).
    2:{ intros k p I. destruct (proj2 KO k p I) as [-> O]. unfold vcolumn. rewrite S1.
        rewrite (vrows_spec all new p); auto.
        2:{ intros s i Is Hi. apply Iall. apply in_flat_map. exists s. split; auto. apply in_map. apply in_seq. lia. }
        destruct S2 as [(-> & -> & _ & St & _)|(Oo & _ & M & SD & D & LN)].
        - rewrite St. reflexivity.
        - assert (Po : occurs (env_trees none n hist) p).
          { unfold all in O. rewrite env_trees_app in O. apply occurs_app in O as [O|O]; auto. apply NW; auto.
            intros ->. destruct Oo as (? & ? & ? & [] & _). }
          destruct D as (D1 & D2 & D3). rewrite SD. destruct (v_data x) as [|[k0 a0] d] eqn:ED.
          + specialize (D3 p Po). discriminate.
          + rewrite <- ED in *. rewrite (D3 p Po). unfold vstruct_len. rewrite SD, ED.
            rewrite map_length. assert (L0 : length a0 = length old) by (apply (LN k0); rewrite ED; simpl; auto).
            rewrite L0, Nat.eqb_refl. unfold spec_rows. rewrite map_app. reflexivity. }
    set (out := map (fun e => (fst e, spec_rows (old ++ new) (snd e))) km).
    assert (FK : map fst out = map fst km) by (unfold out; rewrite map_map; reflexivity).
    assert (DS : vdescribes none n out (hist ++ new) (old ++ new)).
    { split; [rewrite FK; apply KO|]. split.
      - intros k. rewrite FK, in_map_iff. split.
        + intros ((k' & p) & Ek & I). simpl in Ek. subst. destruct (proj2 KO k p I) as [-> O]. eauto.
        + intros (p & O & <-). exists (join p, p). split; auto. apply MA. auto.
      - intros p O. apply dget_In; [rewrite FK; apply KO|]. unfold out. apply in_map_iff. exists (join p, p). split; [reflexivity|apply MA; auto]. }
    eexists. split; [reflexivity|]. split; [reflexivity|]. right. cbn [v_km v_struct v_data].
    split; [auto|]. split; [auto|]. split; [auto|]. split; [auto|]. split; [auto|].
    intros k a I. unfold out in I. apply in_map_iff in I. destruct I as (e & Ee & _). inversion Ee. unfold spec_rows. apply map_length.
Qed.

(** ** Datasets *)
Section Ds.
Context {S : Type}.

(** One step of the run: the samples of all environments, their information, the mask *)
Definition vstep_of := (list S * vstep V * list bool)%type.
Definition st_row (e : vstep_of) : list S := fst (fst e).
Definition st_info (e : vstep_of) : vstep V := snd (fst e).
Definition st_mask (e : vstep_of) : list bool := snd e.
Definition record_all (d : vds V S) (es : list vstep_of) : vds V S :=
  fold_left (fun d e => d_append d (st_row e) (st_info e) (st_mask e)) es d.

(** The positions (step, environment) whose mask is set, environment by environment *)
Definition positions (es : list vstep_of) : list (nat * nat) :=
  flat_map (fun i => flat_map (fun te => if nth i (st_mask (snd te)) false then [(fst te, i)] else [])
                              (combine (seq 0 (length es)) es)) (seq 0 n).
Definition sample_at (es : list vstep_of) (ti : nat * nat) : option S :=
  match nth_error es (fst ti) with Some e => nth_error (st_row e) (snd ti) | None => None end.
Definition reported_at (es : list vstep_of) (p : path) (ti : nat * nat) : option V :=
  match nth_error es (fst ti) with Some e => Some (info_at none (st_info e) (snd ti) p) | None => None end.

Lemma positions_inner : forall (es pre : list vstep_of) (B : Type) (f : vstep_of -> list B) i,
  (forall e, In e es -> length (f e) = n) -> i < n ->
  map Some (flat_map (fun rm => match nth_error (fst rm) i with
                                | Some a => if nth i (snd rm) false then [a] else []
                                | None => [] end) (combine (map f es) (map st_mask es))) =
  map (fun ti => match nth_error (pre ++ es) (fst ti) with Some e => nth_error (f e) (snd ti) | None => None end)
      (flat_map (fun te => if nth i (st_mask (snd te)) false then [(fst te, i)] else [])
                (combine (seq (length pre) (length es)) es)).
Proof.
  induction es as [|e es IH]; intros pre B f i L Hi; [reflexivity|].
  cbn [map combine flat_map length seq]. rewrite !map_app. cbn [fst snd].
  specialize (IH (pre ++ [e]) B f i ltac:(intros; apply L; simpl; auto) Hi).
  rewrite app_length in IH. cbn [length] in IH. rewrite Nat.add_1_r in IH. rewrite <- app_assoc in IH. cbn [app] in IH.
  rewrite IH. f_equal. assert (Hn : nth_error (f e) i <> None) by (apply nth_error_Some; rewrite L by (simpl; auto); auto).
  destruct (nth_error (f e) i) as [a|] eqn:E; [|congruence].
  destruct (nth i (st_mask e) false); [|reflexivity]. cbn [map fst snd].
  rewrite nth_error_app2, Nat.sub_diag by auto. cbn [nth_error]. rewrite E. reflexivity.
Qed.
Lemma pack_positions {B} (f : vstep_of -> list B) (es : list vstep_of) :
  (forall e, In e es -> length (f e) = n) ->
  exists l, pack n (map f es) (map st_mask es) = Some l /\
    map Some l = map (fun ti => match nth_error es (fst ti) with Some e => nth_error (f e) (snd ti) | None => None end) (positions es).
Proof.
  intros L. unfold pack. rewrite !map_length, Nat.eqb_refl. eexists. split; [reflexivity|].
  unfold positions. assert (I : forall i, In i (seq 0 n) -> i < n) by (intros i Hi; apply in_seq in Hi; lia).
  induction (seq 0 n) as [|i is IH]; [reflexivity|]. cbn [flat_map]. rewrite !map_app.
  rewrite IH by (intros; apply I; simpl; auto). f_equal.
  apply (positions_inner es [] B f i L). apply I. simpl; auto.
Qed.

(** The positions are exactly the masked ones, each once, environment by environment and in
    the order of the steps *)
Definition before (a b : nat * nat) : Prop := snd a < snd b \/ snd a = snd b /\ fst a < fst b.
Theorem vec_positions : forall es : list vstep_of,
  (forall t i, In (t, i) (positions es) <-> i < n /\ exists e, nth_error es t = Some e /\ nth i (st_mask e) false = true) /\
  (forall j1 j2 a b, j1 < j2 -> nth_error (positions es) j1 = Some a -> nth_error (positions es) j2 = Some b -> before a b).
Proof.
  intros es. split.
  - intros t i. unfold positions. rewrite in_flat_map. split.
    + intros (i' & Hi & H). apply in_seq in Hi. apply in_flat_map in H as ((t', e) & I & H). cbn [fst snd] in H.
      destruct (nth i' (st_mask e) false) eqn:M; [|destruct H]. destruct H as [H|[]]. inversion H; subst. split; [lia|].
      exists e. split; auto. clear -I. assert (G : forall k (es : list vstep_of), In (t, e) (combine (seq k (length es)) es) -> k <= t /\ nth_error es (t - k) = Some e).
      { intros k es0. revert k. induction es0 as [|x es0 IH]; intros k H; [destruct H|]. cbn [length seq combine] in H. destruct H as [H|H].
        - inversion H; subst. split; [lia|]. rewrite Nat.sub_diag. reflexivity.
        - apply IH in H as [H1 H2]. split; [lia|]. replace (t - k) with (Datatypes.S (t - Datatypes.S k)) by lia. exact H2. }
      destruct (G 0 es I) as [_ G2]. rewrite Nat.sub_0_r in G2. exact G2.
    + intros (Hi & e & E & M). exists i. split; [apply in_seq; lia|]. apply in_flat_map. exists (t, e). cbn [fst snd]. rewrite M. split; [|simpl; auto].
      assert (G : forall k (es : list vstep_of) t, nth_error es t = Some e -> In (k + t, e) (combine (seq k (length es)) es)).
      { intros k es0. revert k. induction es0 as [|x es0 IH]; intros k t0 H; [destruct t0; discriminate|]. destruct t0 as [|t0].
        - inversion H; subst. rewrite Nat.add_0_r. simpl. auto.
        - cbn [length seq combine]. right. replace (k + Datatypes.S t0) with (Datatypes.S k + t0) by lia. apply IH. exact H. }
      apply (G 0 es t E).
  - (* sortedness *)
    assert (App : forall l1 l2 : list (nat * nat),
      (forall j1 j2 a b, j1 < j2 -> nth_error l1 j1 = Some a -> nth_error l1 j2 = Some b -> before a b) ->
      (forall j1 j2 a b, j1 < j2 -> nth_error l2 j1 = Some a -> nth_error l2 j2 = Some b -> before a b) ->
      (forall a b, In a l1 -> In b l2 -> before a b) ->
      forall j1 j2 a b, j1 < j2 -> nth_error (l1 ++ l2) j1 = Some a -> nth_error (l1 ++ l2) j2 = Some b -> before a b).
    { intros l1 l2 H1 H2 H12 j1 j2 a b Hj E1 E2. destruct (Nat.lt_ge_cases j2 (length l1)) as [A|A].
      - rewrite nth_error_app1 in E1, E2 by lia. eauto.
      - rewrite nth_error_app2 in E2 by lia. destruct (Nat.lt_ge_cases j1 (length l1)) as [B|B].
        + rewrite nth_error_app1 in E1 by lia. apply nth_error_In in E1, E2. auto.
        + rewrite nth_error_app2 in E1 by lia. apply (H2 (j1 - length l1) (j2 - length l1)); auto. lia. }
    assert (Inner : forall i k (es : list vstep_of), let l := flat_map (fun te => if nth i (st_mask (snd te)) false then [(fst te, i)] else []) (combine (seq k (length es)) es) in
      (forall a, In a l -> snd a = i /\ k <= fst a) /\
      (forall j1 j2 a b, j1 < j2 -> nth_error l j1 = Some a -> nth_error l j2 = Some b -> before a b)).
    { intros i k es0. revert k. induction es0 as [|e es0 IH]; intros k l.
      - split; [intros a []|]. intros j1 j2 a b _ E. destruct j1; discriminate.
      - unfold l. cbn [length seq combine flat_map fst snd]. destruct (IH (Datatypes.S k)) as [IH1 IH2]. cbv zeta in IH1, IH2.
        split.
        + intros a I. apply in_app_iff in I as [I|I].
          * destruct (nth i (st_mask e) false); [|destruct I]. destruct I as [<-|[]]. simpl. lia.
          * apply IH1 in I. lia.
        + apply App; auto.
          * destruct (nth i (st_mask e) false); intros j1 j2 a b Hj E1 E2; destruct j1, j2; simpl in *; try lia; try discriminate; destruct j2; discriminate.
          * intros a b Ia Ib. apply IH1 in Ib. destruct (nth i (st_mask e) false); [|destruct Ia]. destruct Ia as [<-|[]]. right. simpl. lia. }
    unfold positions. assert (G : forall is k, let l := flat_map (fun i => flat_map (fun te => if nth i (st_mask (snd te)) false then [(fst te, i)] else [])
                              (combine (seq 0 (length es)) es)) (seq k is) in
        (forall a, In a l -> k <= snd a) /\
        (forall j1 j2 a b, j1 < j2 -> nth_error l j1 = Some a -> nth_error l j2 = Some b -> before a b)).
    { induction is as [|is IH]; intros k l.
      - split; [intros a []|]. intros j1 j2 a b _ E. destruct j1; discriminate.
      - unfold l. cbn [seq flat_map]. destruct (IH (Datatypes.S k)) as [IH1 IH2]. cbv zeta in IH1, IH2. destruct (Inner k 0 es) as [I1 I2]. cbv zeta in I1, I2.
        split.
        + intros a I. apply in_app_iff in I as [I|I]; [apply I1 in I; lia|apply IH1 in I; lia].
        + apply App; auto. intros a b Ia Ib. apply I1 in Ia. apply IH1 in Ib. left. lia. }
    apply (proj2 (G n 0)).
Qed.

(** The samples and the flat information are listed by the same positions *)
Definition aligned (hist es : list vstep_of) (samples : list S) (data : list (string * list V)) : Prop :=
  map Some samples = map (sample_at es) (positions es) /\
  (forall k, In k (map fst data) <-> exists p, occurs (env_trees none n (map st_info hist)) p /\ join p = k) /\
  forall p, occurs (env_trees none n (map st_info hist)) p ->
    exists col, dget data (join p) = Some col /\ map Some col = map (reported_at es p) (positions es).

(** The datasets that a run produces, with all the steps since the last complete clear and
    those still in the dataset *)
Inductive run (fuel : nat) : list vstep_of -> list vstep_of -> vds V S -> Prop :=
| run_new : run fuel [] [] d_new
| run_append : forall hist cur d e, run fuel hist cur d ->
    run fuel (hist ++ [e]) (cur ++ [e]) (d_append d (st_row e) (st_info e) (st_mask e))
| run_flatten : forall hist cur d spf d' f, run fuel hist cur d ->
    d_flatten none junk n fuel spf d = Some (d', f) -> run fuel hist cur d'
| run_keep : forall hist cur d p d', run fuel hist cur d ->
    d_keep none junk n fuel p d = Some d' -> run fuel hist (lastn p cur) d'.

(** Every step has a sample for each environment; the first step reports every key *)
Definition run_ok (fuel : nat) (hist : list vstep_of) : Prop :=
  good fuel (map st_info hist) /\ (forall e, In e hist -> length (st_row e) = n) /\
  match hist with
  | [] => True
  | e :: _ => (exists p, occurs (env_trees none n [st_info e]) p) /\
              forall p, occurs (env_trees none n (map st_info hist)) p -> occurs (env_trees none n [st_info e]) p
  end.
Lemma run_ok_app fuel a b : run_ok fuel (a ++ b) -> run_ok fuel a.
Proof.
  intros (G & L & K). rewrite map_app in G. split; [apply (good_app fuel _ _ G)|]. split; [intros; apply L; apply in_app_iff; auto|].
  destruct a as [|e a]; auto. cbn [app] in K. destruct K as [K1 K2]. split; auto. intros p O. apply K2.
  change (e :: a ++ b) with ((e :: a) ++ b). rewrite map_app, env_trees_app. apply occurs_app. auto.
Qed.

Definition inv (hist cur : list vstep_of) (d : vds V S) : Prop :=
  exists h old new, hist = h ++ new /\ cur = old ++ new /\ d_rows d = map st_row cur /\ d_masks d = map st_mask cur /\
    (forall e, In e cur -> In e hist) /\
    vstate (d_info d) (map st_info h) (map st_info old) (map st_info new).

Lemma lastn_map {A B} (f : A -> B) k l : lastn k (map f l) = map f (lastn k l).
Proof. unfold lastn. rewrite map_length. apply skipn_map. Qed.
Lemma lastn_incl {A} k (l : list A) x : In x (lastn k l) -> In x l.
Proof. unfold lastn. intros I. rewrite <- (firstn_skipn (length l - k) l). apply in_app_iff. auto. Qed.

(** Parsing *)
Lemma inv_parse fuel hist cur d : inv hist cur d -> run_ok fuel hist ->
  exists x', v_parse none junk n fuel (d_info d) = Some x' /\ vstate x' (map st_info hist) (map st_info cur) [].
Proof.
  intros (h & old & new & -> & -> & Rw & Mk & Inc & St) (G & L & K). rewrite map_app in *.
  destruct (h ++ new) as [|e hn] eqn:E.
  - apply app_eq_nil in E as [-> ->]. cbn [map app] in *. rewrite app_nil_r in *.
    assert (O : old = []). { destruct old as [|a old]; auto. destruct (Inc a ltac:(simpl; auto)). } subst old.
    destruct St as [S1 S2]. cbn [map] in *. exists (d_info d).
    destruct S2 as [(_ & _ & S3 & S4 & S5)|((p & t & v & [] & _) & _)].
    split; [|split; [exact S1|left; auto]].
    unfold v_parse. rewrite S1, S3. cbn [vum vcolumns]. destruct (d_info d); simpl in *; subst; reflexivity.
  - destruct K as [K1 K2]. assert (Fst : forall p, occurs (env_trees none n [st_info e]) p -> occurs (env_trees none n (map st_info h ++ map st_info new)) p).
    { intros p O. rewrite <- map_app, E. cbn [map]. change (st_info e :: map st_info hn) with ([st_info e] ++ map st_info hn). rewrite env_trees_app. apply occurs_app. auto. }
    rewrite (map_app _ old new). apply v_parse_state; auto.
    + destruct K1 as (p & O). exists p. auto.
    + intros Hh p O. destruct h as [|e0 h]; [exfalso; apply Hh; reflexivity|]. cbn [app] in E. inversion E; subst. cbn [map].
      change (st_info e :: map st_info h) with ([st_info e] ++ map st_info h). rewrite env_trees_app. apply occurs_app. left. apply K2.
      rewrite env_trees_app. apply occurs_app. auto.
Qed.
Lemma run_inv fuel hist cur d : run fuel hist cur d -> run_ok fuel hist -> inv hist cur d.
Proof.
  induction 1 as [|hist cur d e R IH|hist cur d spf d' f R IH E|hist cur d p d' R IH E]; intros OK.
  - exists [], [], []. cbn. repeat split; auto. left. auto 6.
  - destruct (IH (run_ok_app _ _ _ OK)) as (h & old & new & -> & -> & Rw & Mk & Inc & S1 & S2).
    exists h, old, (new ++ [e]). rewrite <- !app_assoc. split; auto. split; auto. cbn [d_append d_rows d_masks d_info v_append].
    rewrite Rw, Mk. rewrite !map_app. rewrite <- !app_assoc. split; [reflexivity|]. split; [reflexivity|]. split.
    { intros x I. rewrite app_assoc in I |- *. apply in_app_iff in I as [I|I]; apply in_app_iff; auto. }
    split; unfold v_append; cbn [v_storage v_km v_struct v_data]; [rewrite S1; reflexivity|exact S2].
  - destruct (inv_parse fuel hist cur d (IH OK) OK) as (x' & P & St). unfold d_flatten in E.
    destruct (pack n (d_rows d) (d_masks d)) as [sm|]; [|discriminate]. unfold v_flatten in E. rewrite P in E.
    destruct (pack_dict n (v_data x') (d_masks d)) as [dd|]; [|discriminate]. destruct (pack_dict n (v_struct x') (d_masks d)) as [ds|]; [|discriminate].
    inversion E; subst. destruct (IH OK) as (h & old & new & Eh & Ec & Rw & Mk & Inc & _).
    exists hist, cur, []. rewrite !app_nil_r. cbn [d_rows d_masks d_info map]. auto 10.
  - destruct (inv_parse fuel hist cur d (IH OK) OK) as (x' & P & St). unfold d_keep, v_last in E. rewrite P in E. inversion E; subst.
    destruct (IH OK) as (h & old & new & Eh & Ec & Rw & Mk & Inc & _).
    exists hist, (lastn p cur), []. rewrite !app_nil_r. cbn [d_rows d_masks d_info map]. rewrite Rw, Mk, !lastn_map.
    split; auto. split; auto. split; auto. split; auto. split; [intros x I; apply Inc; eapply lastn_incl; eauto|].
    destruct St as [S1 S2]. split; [reflexivity|]. cbn [v_km v_struct v_data v_storage]. destruct S2 as [(A & B & C & D & F)|(O & KO & M & SD & (D1 & D2 & D3) & LN)].
    + left. destruct hist; [|discriminate]. rewrite D, F. cbn [map]. repeat split; auto.
      destruct cur; [|discriminate]. reflexivity.
    + right. split; auto. split; auto. split; auto. split; [rewrite SD; reflexivity|].
      assert (FK : forall d0 : list (string * list (list V)), map fst (map (fun e => (fst e, lastn p (snd e))) d0) = map fst d0) by (intros; rewrite map_map; reflexivity).
      split.
      * split; [rewrite FK; auto|]. split; [intros k; rewrite FK; auto|].
        intros q Oq. rewrite dget_map, (D3 q Oq). cbn [option_map]. rewrite lastn_map, lastn_map. reflexivity.
      * intros k a I. apply in_map_iff in I as ((k0 & a0) & Ea & I). inversion Ea; subst. cbn [fst snd] in *. apply LN in I.
        rewrite !map_length in *. rewrite !lastn_length, I. reflexivity.
Qed.

Lemma pack_dict_spec : forall (d : list (string * list (list V))) masks (c : list (list V) -> list V),
  (forall k a, In (k, a) d -> pack n a masks = Some (c a)) -> pack_dict n d masks = Some (map (fun e => (fst e, c (snd e))) d).
Proof.
  induction d as [|[k a] d IH]; intros masks c H; [reflexivity|]. cbn [pack_dict map fst snd]. rewrite (H k a) by (simpl; auto).
  rewrite (IH masks c) by (intros; apply (H k0); simpl; auto). reflexivity.
Qed.

(** However appends, flattenings and partial clears follow each other, flattening succeeds and
    every sample has its own information at its own index *)
Theorem vec_info_aligned : forall fuel spf hist cur d, run fuel hist cur d -> run_ok fuel hist ->
  exists d' samples x, d_flatten none junk n fuel spf d = Some (d', (match spf with Some k => firstn k samples | None => samples end, x)) /\
    aligned hist cur samples (x_data x).
Proof.
  intros fuel spf hist cur d R OK. pose proof (run_inv fuel hist cur d R OK) as Iv.
  destruct (inv_parse fuel hist cur d Iv OK) as (x' & P & S1 & S2). destruct Iv as (h & old & new & Eh & Ec & Rw & Mk & Inc & _).
  destruct (pack_positions st_row cur) as (sm & Ps & Es); [intros e I; apply OK; auto|].
  unfold d_flatten, v_flatten. rewrite P, Rw, Mk, Ps.
  set (c := fun a : list (list V) => match pack n a (map st_mask cur) with Some l => l | None => [] end).
  assert (PD : forall a, length a = length (map st_info cur) -> pack n a (map st_mask cur) = Some (c a)).
  { intros a L. unfold c. unfold pack. rewrite !map_length in *. rewrite L, Nat.eqb_refl. reflexivity. }
  assert (LN : forall k a, In (k, a) (v_data x') -> length a = length (map st_info cur)).
  { destruct S2 as [(_ & _ & _ & _ & Z)|(_ & _ & _ & _ & _ & LN)]; [rewrite Z; intros ? ? []|exact LN]. }
  assert (SD : v_struct x' = v_data x').
  { destruct S2 as [(_ & _ & _ & Z1 & Z2)|(_ & _ & _ & Z & _)]; congruence. }
  rewrite SD. rewrite (pack_dict_spec (v_data x') (map st_mask cur) c) by (intros; apply PD; eauto).
  do 3 eexists. split; [reflexivity|]. cbn [x_copy x_data]. split; [exact Es|].
  destruct S2 as [(Z & _ & _ & _ & Z2)|(O & KO & M & _ & (D1 & D2 & D3) & _)].
  - rewrite Z, Z2. cbn [map]. split.
    + intros k. split; [intros []|intros (p & (t & v & [] & _) & _)].
    + intros p (t & v & [] & _).
  - split.
    + intros k. rewrite map_map. cbn [fst]. apply D2.
    + intros p Op. rewrite dget_map, (D3 p Op). cbn [option_map]. eexists. split; [reflexivity|].
      rewrite map_map. destruct (pack_positions (fun e => map (fun i => info_at none (st_info e) i p) (seq 0 n)) cur) as (l & Pl & El).
      { intros e _. rewrite map_length, seq_length. reflexivity. }
      unfold c. rewrite Pl, El. apply map_ext_in. intros [t i] I. unfold reported_at. cbn [fst snd].
      apply (proj1 (vec_positions cur)) in I as [Hi (e & Ee & _)]. rewrite Ee.
      rewrite nth_error_map. rewrite List.nth_error_nth' with (d := 0) by (rewrite seq_length; auto). rewrite seq_nth by auto. reflexivity.
Qed.

(** With n_steps_per_fit the samples are cut and the information is not: its arrays keep the
    length of all the masked positions *)
Theorem vec_info_cut_refuted : forall fuel k hist cur d, run fuel hist cur d -> run_ok fuel hist -> k < length (positions cur) ->
  exists d' samples x, d_flatten none junk n fuel (Some k) d = Some (d', (samples, x)) /\ length samples = k /\
    forall p, occurs (env_trees none n (map st_info hist)) p ->
      exists col, dget (x_data x) (join p) = Some col /\ length col = length (positions cur) /\ length samples < length col.
Proof.
  intros fuel k hist cur d R OK Hk. destruct (vec_info_aligned fuel (Some k) hist cur d R OK) as (d' & sm & x & E & A1 & _ & A2).
  exists d', (firstn k sm), x. split; [exact E|].
  assert (L : length sm = length (positions cur)).
  { apply (f_equal (@length _)) in A1. rewrite !map_length in A1. exact A1. }
  assert (Lk : length (firstn k sm) = k) by (rewrite firstn_length; lia). split; [exact Lk|].
  intros p O. destruct (A2 p O) as (col & D & M). exists col. split; [exact D|].
  apply (f_equal (@length _)) in M. rewrite !map_length in M. lia.
Qed.

Lemma copy_parse fuel (x : xinfo V) : x_storage x = [] -> x_struct x = [] ->
  x_parse none fuel x = Some {| x_storage := []; x_km := x_km x; x_struct := map (fun e => (fst e, [])) (x_km x); x_data := map (fun e => (fst e, [])) (x_km x) |}.
Proof.
  intros S1 S2. unfold x_parse. rewrite S1. cbn [um_all].
  rewrite (columns_spec none x (fun _ => [])); [reflexivity|]. intros k p _. unfold column. rewrite S1, S2. reflexivity.
Qed.
(** Any slice of a flattened dataset has no information left, and taking it also removes the
    information from the flattened dataset itself *)
Theorem vec_info_view_refuted : forall fuel spf a b (d : vds V S) d' f, d_flatten none junk n fuel spf d = Some (d', f) ->
  exists f' w, flat_view none fuel a b f = Some (f', w) /\ fst f' = fst f /\ fst w = slice a b (fst f) /\
    (forall k c, In (k, c) (x_data (snd f')) -> c = []) /\ (forall k c, In (k, c) (x_data (snd w)) -> c = []).
Proof.
  intros fuel spf a b d d' f E. unfold d_flatten in E. destruct (pack n (d_rows d) (d_masks d)) as [sm|]; [|discriminate].
  unfold v_flatten in E. destruct (v_parse none junk n fuel (d_info d)) as [x'|]; [|discriminate].
  destruct (pack_dict n (v_data x') (d_masks d)) as [dd|]; [|discriminate]. destruct (pack_dict n (v_struct x') (d_masks d)) as [ds|]; [|discriminate].
  assert (Ef : f = (match spf with Some k => firstn k sm | None => sm end, x_copy {| x_storage := []; x_km := v_km x'; x_struct := ds; x_data := dd |})) by congruence.
  subst f. unfold flat_view, x_view. cbn [fst snd]. rewrite copy_parse by reflexivity. cbn [x_copy x_km x_struct x_data].
  do 2 eexists. split; [reflexivity|]. cbn [fst snd x_data]. split; auto. split; auto. split.
  - intros k c I. apply in_map_iff in I as (e & Ee & _). congruence.
  - intros k c I. rewrite map_map in I. apply in_map_iff in I as (e & Ee & _). cbn [fst snd] in Ee. inversion Ee.
    unfold slice. rewrite skipn_nil, firstn_nil. reflexivity.
Qed.
End Ds.
End Proofs.

(** * Examples *)
(** Two environments, three steps; the second environment is switched off in the last step and
    the third step gives its information as arrays *)
Definition ex_steps : list (@vstep_of nat string) :=
  [(["s00"; "s01"], PerEnv [Dict [("a", Leaf 1); ("c", Dict [("b", Leaf 2)])]; Dict [("a", Leaf 3)]], [true; true]);
   (["s10"; "s11"], PerEnv [Dict [("a", Leaf 4)]; Dict [("a", Leaf 5); ("c", Dict [("b", Leaf 6)])]], [true; true]);
   (["s20"; "s21"], Arrays (Dict [("a", Leaf (Arr [7; 8]))]), [true; false])]%string.
Example vec_info_demo :
  match d_flatten 0 (fun _ => 99) 2 5 None (record_all d_new (map (fun e => (fst (fst e), snd (fst e), snd e)) ex_steps)) with
  | Some (_, (s, x)) => s = ["s00"; "s10"; "s20"; "s01"; "s11"]%string /\
                        x_data x = [("a", [1; 4; 7; 3; 5]); ("c_b", [2; 0; 0; 0; 6])]%string
  | None => False
  end.
Proof. vm_compute. split; reflexivity. Qed.
(** The same dataset cut at four samples keeps five entries of information; a view of it has
    none *)
Example vec_info_demo_cut :
  match d_flatten 0 (fun _ => 99) 2 5 (Some 4) (record_all d_new ex_steps) with
  | Some (_, (s, x)) => s = ["s00"; "s10"; "s20"; "s01"]%string /\ map (fun e => length (snd e)) (x_data x) = [5; 5] /\
      match flat_view 0 5 0 2 (s, x) with
      | Some ((s', x'), (w, y)) => s' = s /\ w = ["s00"; "s10"]%string /\ x_data x' = [("a", []); ("c_b", [])]%string /\ x_data y = [("a", []); ("c_b", [])]%string
      | None => False
      end
  | None => False
  end.
Proof. vm_compute. repeat split; reflexivity. Qed.

Print Assumptions vec_positions.
Print Assumptions vec_info_aligned.
Print Assumptions vec_info_cut_refuted.
Print Assumptions vec_info_view_refuted.

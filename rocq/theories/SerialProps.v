(** Theorems C20, C21: save/load. *)
From Coq Require Import List Arith Lia Bool String Reals.
From Verif Require Import Common SerialModel SerialSpec SerialProofs ReplayModel SumTreeModel.
Import ListNotations.
Open Scope string_scope.
Open Scope list_scope.

Section Generic.
Context {V : Type}.
Notation value := (value V).
Variable rt : fmt -> value -> value.
Variable post : string -> value -> value.

(** ** C20 *)

(** Whenever saving succeeds, loading the file succeeds and every attribute has
    the value required by [restore]: unwritten ones are None, written ones are
    what their format gives back, nested objects and lists recursively.  Files of
    different attributes never get mixed up. *)
Theorem serial_roundtrip : forall full v s fuel, wf v -> depth v < fuel ->
  save full [] v = Some s -> load rt post fuel s [] = Some (restore rt post full v).
Proof. intros. apply load_save; auto. Qed.

(** An object tree without "!"-marked nested objects, whose leaves survive their
    formats, is returned unchanged by a full save and load. *)
Inductive faithful : value -> Prop :=
| F_obj : forall ty attrs, post ty (VObj ty attrs) = VObj ty attrs ->
    (forall a, In a attrs -> faithful_att (fst a) (snd a)) -> faithful (VObj ty attrs)
with faithful_att : akey -> value -> Prop :=
| FA_none : forall k, faithful_att k VNone
| FA_prim : forall nm bang v, faithful_att (nm, MPrim, bang) v
| FA_file : forall nm f bang v, rt f v = v -> faithful_att (nm, MFile f, bang) v
| FA_obj : forall nm v, faithful v -> faithful_att (nm, MMush, false) v
| FA_list : forall nm l, (forall e, In e l -> faithful e) -> faithful_att (nm, MMush, false) (VList l).

Lemma restore_faithful : forall n v, depth v <= n -> faithful v -> restore rt post true v = v.
Proof.
  induction n as [n IH] using lt_wf_ind. intros v D H. destruct H as [ty attrs HP HF].
  cbn [restore].
  transitivity (post ty (VObj ty attrs)); [|exact HP]. f_equal. f_equal.
  rewrite <- (map_id attrs) at 2. apply map_ext_in. intros a Ha. 
  specialize (HF a Ha). pose proof (depth_att _ ty attrs a Ha) as DA.
  destruct a as [k w]. cbn [fst snd] in *. rewrite orb_true_r. f_equal.
  destruct HF; cbn [fst snd].
  - destruct (snd (fst k)); auto. destruct (snd k); auto.
  - reflexivity.
  - destruct (is_none v) eqn:Q; auto. destruct v; auto; discriminate.
  - apply (IH (depth v)); auto. lia.
  - cbn [restore]. f_equal. rewrite <- (map_id l) at 2. apply map_ext_in. intros e He.
    pose proof (depth_elem _ l e He). apply (IH (depth e)); auto. lia.
Qed.

Theorem serial_full_roundtrip_partial : forall v s fuel, wf v -> depth v < fuel -> faithful v ->
  save true [] v = Some s -> load rt post fuel s [] = Some v.
Proof.
  intros. rewrite (serial_roundtrip true v s fuel) by auto. f_equal. eapply restore_faithful; eauto.
Qed.

(** Saving fails only for attributes with an unknown method, or "mushroom"
    attributes that are not Serializable objects (or lists of them). *)
Inductive savable : value -> Prop :=
| S_obj : forall ty attrs, (forall a, In a attrs -> savable_att (snd (fst (fst a))) (snd a)) -> savable (VObj ty attrs)
with savable_att : meth -> value -> Prop :=
| SA_none : forall m, savable_att m VNone
| SA_leaf : forall m v, m <> MMush -> m <> MOther -> savable_att m v
| SA_obj : forall v, savable v -> savable_att MMush v
| SA_list : forall l, (forall e, In e l -> savable e) -> savable_att MMush (VList l).

Lemma save_elems_ok : forall full q l i, (forall e, In e l -> forall p, exists s, save full p e = Some s) ->
  exists s, save_elems V full q i l = Some s.
Proof.
  intros full q. induction l as [|e l IH]; intros i H; [simpl; eauto|]. cbn [save_elems].
  destruct (H e (or_introl eq_refl) (q ++ [SIdx i])) as (s1 & ->).
  destruct (IH (S i)) as (s2 & ->). { intros. apply H. right; auto. }
  eexists. reflexivity.
Qed.

Theorem serial_save_total : forall v full p, savable v -> exists s, save full p v = Some s.
Proof.
  intros v. remember (depth v) as n eqn:En. assert (D : depth v <= n) by lia. clear En. revert v D.
  induction n as [n IH] using lt_wf_ind. intros v D full p H. destruct H as [ty attrs HF]. rewrite save_obj.
  assert (HD : forall a, In a attrs -> depth (snd a) < n).
  { intros a Ha. eapply Nat.lt_le_trans; [exact (depth_att _ ty attrs a Ha)|exact D]. }
  assert (E : exists s, save_atts V full p attrs = Some s).
  { clear D. induction attrs as [|a t IHt]; [simpl; eauto|]. cbn [save_atts].
    destruct IHt as (s2 & ->). { intros; apply HF; simpl; auto. } { intros; apply HD; simpl; auto. }
    assert (E1 : exists s1, save_att V full p a = Some s1).
    { specialize (HD a (or_introl eq_refl)). specialize (HF a (or_introl eq_refl)). unfold save_att.
      destruct a as [[[nm m] bang] w]. cbn [fst snd] in *.
      destruct (selected full (nm, m, bang) && negb (is_none w)) eqn:Q; [|eauto].
      destruct HF as [m|m v H1 H2|v H|l H].
      - rewrite andb_false_r in Q. discriminate.
      - destruct m; eauto; congruence.
      - destruct H as [ty' at' H]. apply (IH (depth (VObj ty' at'))); auto. constructor; auto.
      - destruct (save_elems_ok full (p ++ [SAtt nm MMush]) l 0) as (s & ->).
        + intros e He p0. pose proof (depth_elem _ l e He). apply (IH (depth e)); auto. lia.
        + eexists. reflexivity. }
    destruct E1 as (s1 & ->). eexists. reflexivity. }
  destruct E as (s & ->). eexists. reflexivity.
Qed.

(** A nested object registered with "!" is lost even by a full save: the loader
    looks for a file with the exact name "att.mushroom". *)
Theorem serial_marked_nested_refuted : forall ty nm ty' attrs' fuel,
  let v := VObj ty [((nm, MMush, true), VObj ty' attrs')] in
  wf v -> savable v -> 3 <= fuel -> depth v < fuel ->
  exists s, save true [] v = Some s /\ lookup s [SAtt nm MMush; SConfig] <> None /\
    load rt (fun _ x => x) fuel s [] = Some (VObj ty [((nm, MMush, true), VNone)]).
Proof.
  intros ty nm ty' attrs' fuel v W S F D. destruct (serial_save_total v true [] S) as (s & E).
  exists s. split; auto. split.
  - unfold v in E. rewrite save_obj in E. cbn [save_atts] in E. apply ocat_some in E.
    destruct E as (x & y & A & B & ->). apply ocat_some in A. destruct A as (x1 & x2 & A1 & A2 & ->).
    inversion A2; subst. unfold save_att in A1. cbn [fst snd selected is_none negb orb andb app] in A1.
    rewrite save_obj in A1. apply ocat_some in A1. destruct A1 as (u & w & U & W' & ->).
    inversion W'; subst. rewrite !lookup_app. cbn [app]. rewrite lookup_one.
    destruct (lookup u _); discriminate.
  - rewrite (load_save _ rt (fun _ x => x) true v s fuel W D E). reflexivity.
Qed.
End Generic.

(** ** C21 *)
Ltac wf_tac := simpl; repeat split; auto; repeat (apply NoDup_cons; [simpl; intuition discriminate|]); apply NoDup_nil.
Section Memories.
Context {St Ac Ps : Type}.

(** Leaf values of the two memories. *)
Inductive leafv := LNat (k : nat) | LBool (b : bool) | LArr (t : list R) | LRows (d : list (sample St Ac Ps)).
Notation value := (value leafv).

Definition ds_value (d : list (sample St Ac Ps)) : value :=
  VObj "Dataset" [(("_data", MFile Pickle, false), VLeaf (LRows d))].

(** Attributes of ReplayMemory (replay_memory.py 39-47); [ds] is None or a dataset.
    MDPInfo and AgentInfo are represented by empty objects. *)
Definition replay_value (ini mx : nat) (idx full ds : value) : value :=
  VObj "ReplayMemory" [(("_initial_size", MPrim, false), VLeaf (LNat ini)); (("_max_size", MPrim, false), VLeaf (LNat mx));
    (("_mdp_info", MMush, false), VObj "MDPInfo" []); (("_agent_info", MMush, false), VObj "AgentInfo" []);
    (("_idx", MPrim, true), idx); (("_full", MPrim, true), full); (("_dataset", MMush, true), ds)].

Definition of_mem (m : memory St Ac Ps) : value :=
  replay_value (m_initial m) (m_max m) (VLeaf (LNat (m_idx m))) (VLeaf (LBool (m_full m))) (ds_value (m_data m)).

(** Attributes of SumTree (replay_memory.py 290-297). *)
Definition tree_value (mx : nat) (idx full arr ds : value) : value :=
  VObj "SumTree" [(("_max_size", MPrim, false), VLeaf (LNat mx)); (("_idx", MPrim, false), idx);
    (("_full", MPrim, false), full); (("_tree", MFile Numpy, false), arr);
    (("_mdp_info", MMush, false), VObj "MDPInfo" []); (("_agent_info", MMush, false), VObj "AgentInfo" []);
    (("dataset", MMush, true), ds)].

Definition of_tree (t : stree St Ac Ps) : value :=
  tree_value (m_max (t_mem t)) (VLeaf (LNat (m_idx (t_mem t)))) (VLeaf (LBool (m_full (t_mem t))))
             (VLeaf (LArr (t_arr t))) (ds_value (m_data (t_mem t))).

(** _post_load of the two classes (replay_memory.py 162-164 and 463-466): a
    ReplayMemory without _full is reset, a SumTree without dataset gets an empty one. *)
Definition post (ty : string) (v : value) : value :=
  match v with
  | VObj "ReplayMemory" [(_, VLeaf (LNat ini)); (_, VLeaf (LNat mx)); _; _; (_, _); (_, VNone); (_, _)] =>
      of_mem (mem_init ini mx)
  | VObj "SumTree" [(_, VLeaf (LNat mx)); (_, idx); (_, full); (_, arr); _; _; (_, VNone)] =>
      tree_value mx idx full arr (ds_value [])
  | _ => v
  end.

Variable rt : fmt -> value -> value.
Hypothesis rt_leaf : forall f x, rt f (VLeaf x) = VLeaf x.

(** A replay memory saved without its data comes back empty. *)
Theorem replay_light_save : forall m fuel, 3 <= fuel ->
  exists s, save false [] (of_mem m) = Some s /\
    load rt post fuel s [] = Some (of_mem (mem_reset m)).
Proof.
  intros m fuel F. eexists. split; [reflexivity|].
  rewrite (load_save _ rt post false (of_mem m) _ fuel); [reflexivity| |simpl; lia|reflexivity].
  wf_tac.
Qed.

(** A full save loses the rows but keeps the counters: the loaded memory has no
    dataset and still reports its old size. *)
Theorem replay_full_save_refuted : forall m fuel, 3 <= fuel ->
  exists s, save true [] (of_mem m) = Some s /\
    load rt post fuel s [] = Some (replay_value (m_initial m) (m_max m) (VLeaf (LNat (m_idx m)))
                                     (VLeaf (LBool (m_full m))) VNone).
Proof.
  intros m fuel F. eexists. split; [reflexivity|].
  rewrite (load_save _ rt post true (of_mem m) _ fuel); [reflexivity| |simpl; lia|reflexivity].
  wf_tac.
Qed.

(** The prioritised memory, in both modes, comes back with its old index, flag and
    priorities over an empty dataset: it claims to hold rows it does not have. *)
Theorem sumtree_save_refuted : forall full t fuel, 3 <= fuel -> 0 < st_size t ->
  exists s t', (save full [] (of_tree t) = Some s) /\ load rt post fuel s [] = Some (of_tree t') /\
    m_data (t_mem t') = [] /\ st_size t' = st_size t /\ total_p t' = total_p t /\
    List.length (m_data (t_mem t')) <> st_size t'.
Proof.
  intros full t fuel F NZ. destruct t as [[ini mx idx fl d] arr].
  destruct full; eexists.
  - exists (mkST (mkMem ini mx idx fl []) arr); split; [reflexivity|]; split;
    [rewrite (load_save _ rt post true (of_tree (mkST (mkMem ini mx idx fl d) arr)) _ fuel); [simpl; rewrite rt_leaf; reflexivity|wf_tac|simpl; lia|reflexivity]
    |repeat split; auto; unfold st_size, size in *; simpl in *; lia].
  - exists (mkST (mkMem ini mx idx fl []) arr); split; [reflexivity|]; split;
    [rewrite (load_save _ rt post false (of_tree (mkST (mkMem ini mx idx fl d) arr)) _ fuel); [simpl; rewrite rt_leaf; reflexivity|wf_tac|simpl; lia|reflexivity]
    |repeat split; auto; unfold st_size, size in *; simpl in *; lia].
Qed.
End Memories.

(** A nested object with a list of objects, saved and loaded. *)
Example serial_demo :
  let v := VObj "Agent" [(("_n", MPrim, false), VLeaf 3); (("_w", MFile Numpy, true), VLeaf 4);
              (("_p", MMush, false), VList [VObj "P" [(("_x", MFile Json, false), VLeaf 5)]; VObj "P" []]);
              (("_none", MNone, false), VLeaf 9)] in
  let rt := fun (_ : fmt) (w : value nat) => w in let post := fun (_ : string) (w : value nat) => w in
  match save true [] v with Some s => load rt post 4 s [] | None => None end =
    Some (VObj "Agent" [(("_n", MPrim, false), VLeaf 3); (("_w", MFile Numpy, true), VLeaf 4);
              (("_p", MMush, false), VList [VObj "P" [(("_x", MFile Json, false), VLeaf 5)]; VObj "P" []]);
              (("_none", MNone, false), VNone)]) /\
  match save false [] v with Some s => load rt post 4 s [] | None => None end =
    Some (VObj "Agent" [(("_n", MPrim, false), VLeaf 3); (("_w", MFile Numpy, true), VNone);
              (("_p", MMush, false), VList [VObj "P" [(("_x", MFile Json, false), VLeaf 5)]; VObj "P" []]);
              (("_none", MNone, false), VNone)]).
Proof. split; reflexivity. Qed.

Print Assumptions serial_roundtrip.
Print Assumptions serial_full_roundtrip_partial.
Print Assumptions serial_save_total.
Print Assumptions serial_marked_nested_refuted.
Print Assumptions replay_light_save.
Print Assumptions replay_full_save_refuted.
Print Assumptions sumtree_save_refuted.

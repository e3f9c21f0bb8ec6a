(** C90: the array backends agree, and the default environment of a vectorized environment. *)
From Coq Require Import List Arith Lia Reals Lra Bool Permutation Sorted.
From Verif Require Import Common BackendModel.
Import ListNotations.
Local Open Scope nat_scope.

(** * Flattening *)
Lemma ravel_f_back sh ix : Forall2 lt ix sh -> unravel_f sh (ravel_f sh ix) = ix.
Proof.
  intros F. induction F as [|i s ix sh H F IH]; simpl; [reflexivity|].
  rewrite (Nat.mul_comm s). rewrite Nat.mod_add, Nat.mod_small by lia.
  rewrite Nat.div_add, Nat.div_small by lia. simpl. rewrite IH. reflexivity.
Qed.
Lemma ravel_c_bound sh ix : Forall2 lt ix sh -> ravel_c sh ix < fold_right Nat.mul 1 sh.
Proof.
  intros F. induction F as [|i s ix sh H F IH]; simpl; [lia|].
  assert (S i * fold_right Nat.mul 1 sh <= s * fold_right Nat.mul 1 sh) by (apply Nat.mul_le_mono_r; lia). simpl in H0. lia.
Qed.
Lemma ravel_c_back sh ix : Forall2 lt ix sh -> unravel_c sh (ravel_c sh ix) = ix.
Proof.
  intros F. induction F as [|i s ix sh H F IH]; simpl; [reflexivity|].
  assert (B := ravel_c_bound _ _ F). set (m := fold_right Nat.mul 1 sh) in *.
  replace (i * m + ravel_c sh ix) with (ravel_c sh ix + i * m) by lia.
  rewrite Nat.div_add, Nat.div_small by lia. rewrite Nat.mod_add, Nat.mod_small by lia. rewrite IH. reflexivity.
Qed.
Lemma np_flatten_at {A} (a : nd A) T N rest t n r : n_shape a = T :: N :: rest -> t < T -> n < N -> Forall2 lt r rest ->
  n_at (np_flatten a) ((n * T + t) :: r) = n_at a (t :: n :: r).
Proof.
  intros E Ht Hn F. unfold np_flatten, reshape_f. cbn [n_at]. rewrite E. cbn [merged ravel_f unravel_f]. f_equal.
  set (q := ravel_f rest r).
  replace (n * T + t + T * N * q) with (t + (n + q * N) * T) by nia.
  rewrite Nat.mod_add, Nat.mod_small by lia. rewrite Nat.div_add, Nat.div_small by lia. rewrite Nat.add_0_l.
  rewrite Nat.mod_add, Nat.mod_small by lia. rewrite Nat.div_add, Nat.div_small by lia. rewrite Nat.add_0_l.
  unfold q. rewrite ravel_f_back by auto. reflexivity.
Qed.
Lemma torch_flatten_at {A} (a : nd A) T N rest t n r : n_shape a = T :: N :: rest -> t < T -> n < N -> Forall2 lt r rest ->
  n_at (torch_flatten a) ((n * T + t) :: r) = n_at a (t :: n :: r).
Proof.
  intros E Ht Hn F. unfold torch_flatten, reshape_c, transpose01. cbn [n_at n_shape]. rewrite E. cbn [merged swap01 ravel_c unravel_c fold_right].
  set (m := fold_right Nat.mul 1 rest). set (c := ravel_c rest r).
  assert (B : c < m) by (apply ravel_c_bound; auto).
  assert (Bt : t * m + c < T * m) by nia.
  replace ((n * T + t) * m + c) with ((t * m + c) + n * (T * m)) by nia.
  assert (Z : T * m <> 0) by lia.
  rewrite (Nat.div_add _ _ _ Z). rewrite (Nat.div_small _ _ Bt). rewrite Nat.add_0_l.
  rewrite (Nat.mod_add _ _ _ Z), (Nat.mod_small _ _ Bt).
  replace (t * m + c) with (c + t * m) by lia. rewrite Nat.div_add, Nat.div_small by lia. rewrite Nat.add_0_l.
  rewrite Nat.mod_add, Nat.mod_small by lia. unfold c. rewrite ravel_c_back by auto. reflexivity.
Qed.
(** For arrays of any dimension with steps and environments in front: flattening puts the environments one after the other, each with its steps in
    order, and numpy and torch do the same. *)
Theorem backend_flatten {A} (a : nd A) T N rest : n_shape a = T :: N :: rest ->
  n_shape (np_flatten a) = T * N :: rest /\ n_shape (torch_flatten a) = T * N :: rest /\
  forall t n r, t < T -> n < N -> Forall2 lt r rest ->
    n_at (np_flatten a) ((n * T + t) :: r) = n_at a (t :: n :: r) /\ n_at (torch_flatten a) ((n * T + t) :: r) = n_at a (t :: n :: r).
Proof.
  intros E. split; [unfold np_flatten, reshape_f; cbn [n_shape]; rewrite E; reflexivity|].
  split; [unfold torch_flatten, reshape_c; cbn [n_shape]; rewrite E; reflexivity|].
  intros t n r Ht Hn F. split; [eapply np_flatten_at|eapply torch_flatten_at]; eauto.
Qed.
Example backend_flatten_demo :
  let a := mkNd [2; 3] (fun ix => nth 0 ix 0 * 10 + nth 1 ix 0) in
  map (fun k => n_at (np_flatten a) [k]) (seq 0 6) = [0; 10; 1; 11; 2; 12] /\ map (fun k => n_at (torch_flatten a) [k]) (seq 0 6) = [0; 10; 1; 11; 2; 12].
Proof. split; reflexivity. Qed.

Lemma seq_split T N : seq 0 (N * T) = concat (map (fun n => map (fun t => n * T + t) (seq 0 T)) (seq 0 N)).
Proof.
  induction N as [|N IH]; [reflexivity|]. rewrite seq_S, map_app, concat_app. cbn [map concat]. rewrite app_nil_r, plus_O_n, <- IH.
  replace (S N * T) with (N * T + T) by lia. rewrite seq_app. f_equal. rewrite plus_O_n.
  assert (G : forall k s, seq (k + s) T = map (fun t => k + t) (seq s T)).
  { clear. induction T as [|T IH]; intros k s; simpl; [reflexivity|]. f_equal. rewrite <- IH. f_equal. lia. }
  rewrite <- (Nat.add_0_r (N * T)) at 1. apply G.
Qed.
Lemma filter_concat' {A} (f : A -> bool) ls : filter f (concat ls) = concat (map (filter f) ls).
Proof. induction ls as [|l ls IH]; simpl; [auto|]. rewrite filter_app, IH. reflexivity. Qed.
Lemma filter_map' {A B} (f : B -> bool) (g : A -> B) l : filter f (map g l) = map g (filter (fun x => f (g x)) l).
Proof. induction l as [|x l IH]; simpl; [auto|]. destruct (f (g x)); simpl; congruence. Qed.
(** The rows kept by pack_padded_sequence: environment by environment, the steps in order where the mask is set, in both backends. *)
Theorem backend_pack {A} (a : nd A) (m : nd bool) T N rest r : n_shape a = T :: N :: rest -> n_shape m = [T; N] -> Forall2 lt r rest ->
  let kept := concat (map (fun n => map (fun t => n_at a (t :: n :: r)) (filter (fun t => n_at m [t; n]) (seq 0 T))) (seq 0 N)) in
  map (fun row => row r) (np_pack a m) = kept /\ map (fun row => row r) (torch_pack a m) = kept.
Proof.
  intros Ea Em F. cbn zeta.
  destruct (backend_flatten a T N rest Ea) as (_ & _ & Fa). destruct (backend_flatten m T N [] Em) as (Sn & St & Fm).
  assert (G : forall (fa : nd A) (fm : nd bool), n_shape fm = [T * N] ->
    (forall t n, t < T -> n < N -> n_at fa ((n * T + t) :: r) = n_at a (t :: n :: r)) ->
    (forall t n, t < T -> n < N -> n_at fm [n * T + t] = n_at m [t; n]) ->
    map (fun row => row r) (select_rows fa fm) =
    concat (map (fun n => map (fun t => n_at a (t :: n :: r)) (filter (fun t => n_at m [t; n]) (seq 0 T))) (seq 0 N))).
  { intros fa fm Es Ha Hm. unfold select_rows. rewrite Es. cbn [hd]. rewrite map_map, Nat.mul_comm, seq_split, filter_concat', map_map, concat_map, map_map.
    f_equal. apply map_ext_in. intros n In_. apply in_seq in In_. rewrite filter_map', map_map.
    assert (X : filter (fun x => n_at fm [n * T + x]) (seq 0 T) = filter (fun t => n_at m [t; n]) (seq 0 T)).
    { apply filter_ext_in. intros t It. apply in_seq in It. apply Hm; lia. }
    rewrite X. apply map_ext_in. intros t It. apply filter_In in It. destruct It as [It _]. apply in_seq in It. apply Ha; lia. }
  split; apply G; auto; intros t n Ht Hn; try (apply Fa; auto); apply (Fm t n []); auto.
Qed.
Example backend_pack_demo :
  let a := mkNd [2; 3] (fun ix => nth 0 ix 0 * 10 + nth 1 ix 0) in
  let m := mkNd [2; 3] (fun ix => Nat.even (nth 0 ix 0 + nth 1 ix 0)) in
  map (fun row => row []) (torch_pack a m) = [0; 11; 2].
Proof. reflexivity. Qed.

(** * Median *)
Lemma insert_perm x l : Permutation (insert x l) (x :: l).
Proof. induction l as [|y l IH]; simpl; auto. destruct (Rle_dec x y); auto. eapply perm_trans; [apply perm_skip, IH|apply perm_swap]. Qed.
Lemma sort_perm l : Permutation (sort l) l.
Proof. induction l as [|x l IH]; simpl; auto. eapply perm_trans; [apply insert_perm|auto]. Qed.
Lemma insert_sorted x l : Sorted Rle l -> Sorted Rle (insert x l).
Proof.
  induction 1 as [|y l S IH H]; simpl; [repeat constructor|]. destruct (Rle_dec x y) as [L|L].
  - constructor; [constructor; auto|constructor; auto].
  - constructor; auto. destruct l as [|z l]; simpl; [constructor; lra|]. destruct (Rle_dec x z); constructor; [lra|]. inversion H; auto.
Qed.
Lemma sort_sorted l : Sorted Rle (sort l).
Proof. induction l as [|x l IH]; simpl; [constructor|apply insert_sorted; auto]. Qed.
Lemma sort_nth_le l i j : i <= j -> j < length l -> (nth i (sort l) 0 <= nth j (sort l) 0)%R.
Proof.
  intros Hij Hj. assert (L : length (sort l) = length l) by (apply Permutation_length, sort_perm). rewrite <- L in Hj.
  assert (SS := Sorted_StronglySorted (fun a b c => Rle_trans a b c) (sort_sorted l)). clear L. revert i j Hij Hj.
  induction SS as [|x s SS IH F]; intros i j Hij Hj; [simpl in Hj; lia|]. destruct i as [|i], j as [|j]; simpl in *; try lia; [lra| |].
  - rewrite Forall_forall in F. apply F. apply nth_In. lia.
  - apply IH; lia.
Qed.
Definition count (p : R -> bool) (l : list R) : nat := length (filter p l).
Lemma count_perm p l l' : Permutation l l' -> count p l = count p l'.
Proof. unfold count. induction 1; simpl; auto; [destruct (p x); simpl; auto|destruct (p x), (p y); simpl; auto|congruence]. Qed.
Lemma count_range p s i n : i + n <= length s -> (forall k, i <= k < i + n -> p (nth k s 0%R) = true) -> n <= count p s.
Proof.
  revert i n. induction s as [|x s IH]; intros i n Hl H; simpl in *; [lia|].
  unfold count in *. destruct i as [|i].
  - destruct n as [|n]; [lia|]. assert (P := H 0 ltac:(lia)). simpl in P. simpl. rewrite P. simpl.
    assert (n <= length (filter p s)); [|lia]. apply (IH 0); [lia|]. intros k Hk. apply (H (S k)). lia.
  - assert (n <= length (filter p s)) by (apply (IH i); [lia|]; intros k Hk; apply (H (S k)); lia). simpl. destruct (p x); simpl; lia.
Qed.
Definition leb' (a b : R) : bool := if Rle_dec a b then true else false.
Lemma leb'_iff a b : leb' a b = true <-> (a <= b)%R.
Proof. unfold leb'. destruct (Rle_dec a b); split; auto; discriminate. Qed.
(** Both medians split the values: at least half of them are not above, at least half not below. The torch one is always one of the values. *)
Theorem backend_median l : l <> [] ->
  exists a b, np_median l = Some a /\ torch_median l = Some b /\ In b l /\ (b <= a)%R /\
  length l <= 2 * count (fun x => leb' x a) l /\ length l <= 2 * count (fun x => leb' a x) l /\
  length l <= 2 * count (fun x => leb' x b) l /\ length l <= 2 * count (fun x => leb' b x) l /\
  (Nat.odd (length l) = true -> a = b).
Proof.
  intros NE. set (n := length l). assert (Hn : 1 <= n) by (unfold n; destruct l; simpl; [congruence|lia]).
  assert (L : length (sort l) = n) by (apply Permutation_length, sort_perm).
  set (lo := (n - 1) / 2). set (hi := n / 2).
  assert (D : n = 2 * hi /\ hi = lo + 1 \/ n = 2 * hi + 1 /\ hi = lo).
  { unfold lo, hi. destruct (Nat.Even_or_Odd n) as [[k E]|[k E]].
    - left. rewrite E. replace (2 * k) with (k * 2) by lia. rewrite Nat.div_mul by lia. split; [lia|].
      assert (k >= 1) by lia. replace (k * 2 - 1) with (1 + (k - 1) * 2) by lia. rewrite Nat.div_add by lia. simpl. lia.
    - right. rewrite E. replace (2 * k + 1 - 1) with (k * 2) by lia. replace (2 * k + 1) with (1 + k * 2) by lia.
      rewrite Nat.div_mul, Nat.div_add by lia. simpl. lia. }
  assert (O : Nat.odd n = true <-> n = 2 * hi + 1).
  { rewrite Nat.odd_spec. split; [intros [k E]; lia|intros E; exists hi; lia]. }
  set (b := nth lo (sort l) 0%R). set (c := nth hi (sort l) 0%R).
  assert (BC : (b <= c)%R) by (apply sort_nth_le; fold n; lia).
  assert (Lo : forall v, (b <= v)%R -> n <= 2 * count (fun x => leb' x v) l).
  { intros v Hv. rewrite <- (count_perm _ _ _ (sort_perm l)).
    assert (lo + 1 <= count (fun x => leb' x v) (sort l)); [|lia]. apply (count_range _ _ 0); [lia|].
    intros k Hk. apply leb'_iff. apply Rle_trans with b; [apply sort_nth_le; fold n; lia|auto]. }
  assert (Hi : forall v, (v <= c)%R -> n <= 2 * count (fun x => leb' v x) l).
  { intros v Hv. rewrite <- (count_perm _ _ _ (sort_perm l)).
    assert (n - hi <= count (fun x => leb' v x) (sort l)); [|lia]. apply (count_range _ _ hi); [lia|].
    intros k Hk. apply leb'_iff. apply Rle_trans with c; [auto|apply sort_nth_le; fold n; lia]. }
  exists (if Nat.odd n then c else ((b + c) / 2)%R), b.
  assert (N0 : Nat.eqb n 0 = false) by (apply Nat.eqb_neq; lia).
  assert (A : (b <= (if Nat.odd n then c else (b + c) / 2) <= c)%R) by (destruct (Nat.odd n); lra).
  split.
  { unfold np_median. fold n. rewrite N0. fold hi. destruct (Nat.odd n) eqn:E; [reflexivity|].
    assert (hi = lo + 1). { destruct D as [D|D]; [lia|]. exfalso. assert (X := proj2 O ltac:(lia)). congruence. }
    unfold b. replace lo with (hi - 1) by lia. reflexivity. }
  split; [unfold torch_median; fold n; rewrite N0; reflexivity|].
  split; [apply (Permutation_in _ (sort_perm l)); apply nth_In; lia|].
  split; [lra|]. split; [apply Lo; lra|]. split; [apply Hi; lra|]. split; [apply Lo; lra|]. split; [apply Hi; lra|].
  intros E. rewrite E. apply O in E. unfold b, c. f_equal. lia.
Qed.
(** compute_metrics of the same two episodes reports different medians on numpy and torch datasets. *)
Theorem backend_median_refuted : ~ (forall l, np_median l = torch_median l).
Proof.
  intros H. specialize (H [0; 1]%R). unfold np_median, torch_median, sort in H. simpl in H.
  destruct (Rle_dec 0 1); [|lra]. simpl in H. injection H. lra.
Qed.

(** * Lists of arrays *)
(** A list of numbers, or of at least two arrays of one length, becomes the same array in both backends. *)
Theorem backend_from_list l : (forall v, l <> [Tensor v]) -> torch_from_list l = np_from_list l.
Proof.
  intros H. unfold torch_from_list, np_from_list. destruct l as [|[x|v] [|y r]]; try reflexivity.
  - exfalso. apply (H v). reflexivity.
  - destruct v as [|x [|z w]]; reflexivity.
Qed.
Lemma all_tensors_map n vs : Forall (fun v => length v = n) vs -> all_tensors n (map Tensor vs) = Some vs.
Proof. induction 1 as [|v vs E F IH]; simpl; [reflexivity|]. rewrite E, Nat.eqb_refl, IH. reflexivity. Qed.
Theorem backend_from_list_rows n vs : 2 <= length vs -> Forall (fun v => length v = n) vs ->
  torch_from_list (map Tensor vs) = Some (Mat vs) /\ np_from_list (map Tensor vs) = Some (Mat vs).
Proof.
  intros L F. rewrite backend_from_list.
  2:{ intros v E. destruct vs as [|a [|b r]]; simpl in *; try lia; discriminate. }
  assert (G : np_from_list (map Tensor vs) = Some (Mat vs)); [|split; exact G].
  destruct vs as [|v vs]; [simpl in L; lia|]. unfold np_from_list, stack. cbn [map].
  change (Tensor v :: map Tensor vs) with (map Tensor (v :: vs)). rewrite all_tensors_map; [reflexivity|].
  inversion F as [|? ? E F']; subst. auto.
Qed.
(** A single array is refused by torch, so the initial states of a torch dataset with one episode, or a fit of a black-box agent with one episode,
    raise, unless the array has one element; then a dimension is lost. *)
Theorem backend_from_list_refuted v :
  np_from_list [Tensor v] = Some (Mat [v]) /\ (length v <> 1 -> torch_from_list [Tensor v] = None) /\
  (forall x, v = [x] -> torch_from_list [Tensor v] = Some (Vec [x])).
Proof.
  split; [unfold np_from_list, stack; simpl; rewrite Nat.eqb_refl; reflexivity|]. split.
  - destruct v as [|x [|y r]]; simpl; intros H; [reflexivity|lia|reflexivity].
  - intros x ->. reflexivity.
Qed.

(** * where, squeeze, convert *)
Theorem backend_where_indices {A} cond i : exists l, @backend_where A cond None = inl l /\ (In i l <-> nth_error cond i = Some true).
Proof.
  eexists. split; [reflexivity|]. rewrite filter_In, in_seq. split.
  - intros [H E]. rewrite (List.nth_error_nth' cond false) by lia. congruence.
  - intros E. assert (i < length cond) by (apply nth_error_Some; congruence). split; [lia|]. apply nth_error_nth with (d := false) in E. auto.
Qed.
(** where with two arrays never gives an array. *)
Theorem backend_where_refuted {A} cond (x y : list A) : forall l, backend_where cond (Some (x, y)) <> inl l.
Proof. intros l H. discriminate. Qed.
(** squeeze agrees without a dimension and on a dimension of size one; on another dimension numpy raises and torch keeps the array. *)
Theorem backend_squeeze sh d :
  np_squeeze sh None = torch_squeeze sh None /\
  (nth_error sh d = Some 1 -> np_squeeze sh (Some d) = torch_squeeze sh (Some d)) /\
  (forall s, nth_error sh d = Some s -> s <> 1 -> np_squeeze sh (Some d) = None /\ torch_squeeze sh (Some d) = Some sh).
Proof.
  split; [reflexivity|]. unfold np_squeeze, torch_squeeze. split; [intros ->; reflexivity|].
  intros s -> N. destruct s as [|[|s]]; auto. lia.
Qed.
Theorem backend_squeeze_refuted : ~ (forall sh d, np_squeeze sh d = torch_squeeze sh d).
Proof. intros H. specialize (H [2] (Some 0)). discriminate. Qed.
(** Converting an array keeps its content and gives an array of the target; missing values stay missing for numpy and torch sources. *)
Theorem backend_convert {A} k (x : A) b :
  convert (Val k x) KNumpy None = Some (Val KNumpy x) /\ convert (Val k x) KTorch None = Some (Val KTorch x) /\
  (b <> KList -> convert (@Missing A) KNumpy (Some b) = Some Missing) /\ convert (@Missing A) KTorch (Some b) = Some Missing.
Proof. destruct k, b; repeat split; intros; try reflexivity; congruence. Qed.
(** Unknown or list targets are not an error: the exception class is returned. A missing value in a list becomes an array. Without a
    given backend a missing value raises. *)
Theorem backend_convert_refuted {A} k (x : A) :
  convert (Val k x) KList None = Some Klass /\ convert (@Missing A) KNumpy (Some KList) = Some ObjNone /\ convert (@Missing A) KNumpy None = None.
Proof. destruct k; repeat split. Qed.
(** What the agent passes to the environment is an array of the environment's backend with the same content, and the other way round, for numpy and torch. *)
Theorem backend_agent_env {A} env agent (x : A) : env <> KList -> agent <> KList ->
  to_backend env agent (Val agent x) = Val env x /\ to_backend agent env (to_backend env agent (Val agent x)) = Val agent x.
Proof. destruct env, agent; intros; try congruence; split; reflexivity. Qed.
Example backend_agent_env_demo : to_backend KTorch KNumpy (Val KNumpy [1; 2]) = Val KTorch [1; 2] /\ to_backend KList KTorch (Val KTorch [1; 2]) = Val KNumpy [1; 2].
Proof. split; reflexivity. Qed.

(** * Default environment *)
(** reset, step and render of a vectorized environment run exactly the selected environment. *)
Theorem default_env_mask n id d : set_default n id = Some d ->
  d = id /\ length (default_mask n d) = n /\ forall i, i < n -> nth_error (default_mask n d) i = Some (Nat.eqb i id).
Proof.
  unfold set_default. destruct (Nat.ltb id n) eqn:E; intros H; [|discriminate]. injection H as <-. apply Nat.ltb_lt in E.
  split; [reflexivity|]. unfold default_mask. split; [rewrite map_length, seq_length; reflexivity|].
  intros i Hi. erewrite map_nth_error; [reflexivity|]. rewrite (List.nth_error_nth' (seq 0 n) 0) by (rewrite seq_length; auto). rewrite seq_nth; auto.
Qed.
Example default_env_demo : set_default 3 1 = Some 1 /\ default_mask 3 1 = [false; true; false] /\ set_default 3 3 = None.
Proof. repeat split. Qed.

Print Assumptions backend_flatten.
Print Assumptions backend_pack.
Print Assumptions backend_median.
Print Assumptions backend_median_refuted.
Print Assumptions backend_from_list.
Print Assumptions backend_from_list_rows.
Print Assumptions backend_from_list_refuted.
Print Assumptions backend_where_indices.
Print Assumptions backend_where_refuted.
Print Assumptions backend_squeeze.
Print Assumptions backend_squeeze_refuted.
Print Assumptions backend_convert.
Print Assumptions backend_convert_refuted.
Print Assumptions backend_agent_env.
Print Assumptions default_env_mask.

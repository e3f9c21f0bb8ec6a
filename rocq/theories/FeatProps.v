(** Theorems C33, C34, C60. *)
From Coq Require Import List Arith Lia Reals Bool Lra Psatz ZArith Permutation.
From Verif Require Import Common FeatModel FeatSpec FeatProofs UtilProofs.
Import ListNotations.

(** * C33: tilings *)

(** A point has an index exactly when it is inside the half-open box of the tiling, and
    the index is below the declared size. *)
Theorem tile_index_range : forall rs ns x, length ns = length rs -> length x = length rs -> Forall (fun n => 1 <= n) ns ->
  (inside rs x -> exists k, tile_call rs ns x = Some k /\ k < tile_size ns) /\
  (~ inside rs x -> tile_call rs ns x = None).
Proof.
  intros rs ns x LN LX F. unfold tile_call. destruct (tile_loop_spec rs ns x 1 0 LN LX) as [A B]. split; auto.
  intros H. eexists. split; [apply A; auto|]. unfold tile_size. rewrite fold_mul. 
  pose proof (mr_lt ns _ (comps_ok rs ns x F LN H)). lia.
Qed.

(** Two points share an index exactly when they lie in the same cell along every dimension. *)
Theorem tile_same_index : forall rs ns x y, length ns = length rs -> Forall (fun n => 1 <= n) ns ->
  inside rs x -> inside rs y ->
  (tile_call rs ns x = tile_call rs ns y <->
   forall i, i < length rs -> exists k, k < nth i ns 0 /\
     in_cell (nth i rs (0, 0)%R) (nth i ns 0) k (nth i x 0%R) /\ in_cell (nth i rs (0, 0)%R) (nth i ns 0) k (nth i y 0%R)).
Proof.
  intros rs ns x y LN F IX IY. assert (LX : length x = length rs) by apply IX. assert (LY : length y = length rs) by apply IY.
  unfold tile_call. rewrite (proj1 (tile_loop_spec rs ns x 1 0 LN LX) IX), (proj1 (tile_loop_spec rs ns y 1 0 LN LY) IY).
  assert (HN : forall i, i < length rs -> 1 <= nth i ns 0).
  { intros i Hi. rewrite Forall_forall in F. apply F, nth_In. lia. }
  split.
  - intros E. injection E as E. assert (EQ : comps rs ns x = comps rs ns y) by (apply (mr_inj ns); try (apply comps_ok; auto); lia).
    intros i Hi. exists (nth i (comps rs ns x) 0). 
    pose proof (comps_nth rs ns x i LN LX Hi) as CX. pose proof (comps_nth rs ns y i LN LY Hi) as CY.
    destruct (comp_index_cell (nth i rs (0, 0)%R) (nth i ns 0) (nth i x 0%R)) as [A B]; [apply IX; auto|auto|].
    destruct (comp_index_cell (nth i rs (0, 0)%R) (nth i ns 0) (nth i y 0%R)) as [A' B']; [apply IY; auto|auto|].
    rewrite CX. split; [auto|]. split; [auto|]. rewrite <- CX, EQ, CY. auto.
  - intros H. f_equal. f_equal. f_equal. f_equal. apply nth_ext with (d := 0) (d' := 0); rewrite !comps_length; auto.
    intros i Hi. rewrite !comps_nth by auto. destruct (H i Hi) as (k & _ & KX & KY).
    destruct (comp_index_cell (nth i rs (0, 0)%R) (nth i ns 0) (nth i x 0%R)) as [A B]; [apply IX; auto|auto|].
    destruct (comp_index_cell (nth i rs (0, 0)%R) (nth i ns 0) (nth i y 0%R)) as [A' B']; [apply IY; auto|auto|].
    assert (W : (fst (nth i rs (0, 0)%R) < snd (nth i rs (0, 0)%R))%R) by (destruct IX as [_ IX]; specialize (IX i Hi); lra).
    rewrite (in_cell_unique _ _ _ _ _ W (HN i Hi) B KX), (in_cell_unique _ _ _ _ _ W (HN i Hi) B' KY). reflexivity.
Qed.

(** Every index below the size is the index of some point. *)
Theorem tile_index_onto : forall rs ns k, length ns = length rs -> Forall (fun n => 1 <= n) ns ->
  Forall (fun r => (fst r < snd r)%R) rs -> k < tile_size ns ->
  exists x, inside rs x /\ tile_call rs ns x = Some k.
Proof.
  intros rs ns k LN F FR HK. unfold tile_size in HK. rewrite fold_mul, Nat.mul_1_l in HK.
  set (corner := fun i => (fst (nth i rs (0, 0)) + INR (nth i (digits ns k) 0%nat) * ((snd (nth i rs (0, 0)) - fst (nth i rs (0, 0))) / INR (nth i ns 0%nat)))%R).
  set (x := map corner (seq 0 (length rs))).
  assert (LX : length x = length rs) by (unfold x; rewrite map_length, seq_length; auto).
  assert (NX : forall i, i < length rs -> nth i x 0%R = corner i).
  { intros i Hi. unfold x. rewrite (map_nth_in _ _ corner (seq 0 (length rs)) i 0%R 0) by (rewrite seq_length; auto).
    rewrite seq_nth by auto. reflexivity. }
  assert (D : forall i, i < length rs -> nth i (digits ns k) 0 < nth i ns 0).
  { intros i Hi. apply Forall2_lt_nth; [apply digits_ok; auto|lia]. }
  assert (HR : forall i, i < length rs -> (fst (nth i rs (0, 0)) < snd (nth i rs (0, 0)))%R).
  { intros i Hi. rewrite Forall_forall in FR. apply FR, nth_In. auto. }
  assert (IX : inside rs x).
  { split; auto. intros i Hi. rewrite NX by auto. unfold corner. specialize (D i Hi). specialize (HR i Hi).
    set (lo := fst _) in *. set (hi := snd _) in *. set (d := nth i (digits ns k) 0%nat) in *. set (N := nth i ns 0%nat) in *.
    assert (PN : (0 < INR N)%R) by (apply lt_0_INR; lia). pose proof (pos_INR d) as PD. apply lt_INR in D.
    assert (Q : (0 < (hi - lo) / INR N)%R) by (apply Rdiv_lt_0_compat; lra).
    assert (E : (INR N * ((hi - lo) / INR N) = hi - lo)%R) by (field; lra). split; nra. }
  exists x. split; auto. unfold tile_call. rewrite (proj1 (tile_loop_spec rs ns x 1 0 LN LX) IX). f_equal.
  assert (E : comps rs ns x = digits ns k).
  { apply nth_ext with (d := 0) (d' := 0).
    - rewrite comps_length by auto. rewrite <- LN. clear. revert k. induction ns; intros; simpl; auto.
    - intros i Hi. rewrite comps_length in Hi by auto. rewrite comps_nth by auto.
      assert (N1 : 1 <= nth i ns 0) by (specialize (D i Hi); lia).
      destruct (comp_index_cell (nth i rs (0, 0)%R) (nth i ns 0) (nth i x 0%R)) as [A B]; [apply IX; auto|auto|].
      apply (in_cell_unique _ _ (nth i x 0%R) _ _ (HR i Hi) N1 B).
      rewrite NX by auto. unfold corner, in_cell. specialize (HR i Hi). 
      assert (PN : (0 < INR (nth i ns 0%nat))%R) by (apply lt_0_INR; lia).
      assert (Q : (0 < (snd (nth i rs (0, 0)) - fst (nth i rs (0, 0))) / INR (nth i ns 0%nat))%R) by (apply Rdiv_lt_0_compat; lra).
      set (q := (_ / _)%R) in *. lra. }
  rewrite E, mr_digits by auto. lia.
Qed.

(** ** Tiles.generate *)
Lemma gen_range_cover : forall uniform n i j N lo hi x, 1 <= n -> 1 <= N -> (lo < hi)%R -> (lo <= x < hi)%R ->
  (fst (gen_range uniform n i j N lo hi) <= x < snd (gen_range uniform n i j N lo hi))%R.
Proof.
  intros uniform n i j N lo hi x Hn HN HL HX. unfold gen_range, gen_side. cbn [fst snd].
  set (v := gen_shift uniform n i j). assert (V : v < n) by (apply Nat.mod_upper_bound; lia).
  assert (Pn : (1 <= INR n)%R) by (change 1%R with (INR 1); apply le_INR; auto).
  assert (PN : (1 <= INR N)%R) by (change 1%R with (INR 1); apply le_INR; auto).
  assert (V1 : (0 <= INR v <= INR n - 1)%R).
  { split; [apply pos_INR|]. apply le_INR in V. rewrite S_INR in V. lra. }
  assert (BE : (0 <= (INR n - 1) / INR n < 1)%R).
  { unfold Rdiv. assert (0 < / INR n)%R by (apply Rinv_0_lt_compat; lra). assert (INR n * / INR n = 1)%R by (field; lra). split; nra. }
  set (be := ((INR n - 1) / INR n)%R) in *. set (l := ((hi - lo) / (INR N - be))%R).
  assert (PL : (0 < l)%R) by (apply Rdiv_lt_0_compat; lra).
  assert (EL : (l * (INR N - be) = hi - lo)%R) by (unfold l; field; lra).
  set (u := (INR v / INR n)%R). assert (EV : ((- INR n + 1 + INR v) / INR n = u - be)%R) by (unfold u, be; field; lra).
  assert (U : (0 <= u <= be)%R).
  { unfold u, be. assert (I : (0 < / INR n)%R) by (apply Rinv_0_lt_compat; lra). unfold Rdiv. split; [apply Rmult_le_pos; lra|]. apply Rmult_le_compat_r; lra. }
  rewrite EV. split; nra.
Qed.

Lemma gen_tiling_length : forall u n i ns low high, length (gen_tiling u n i ns low high) = length ns.
Proof. intros. unfold gen_tiling. rewrite map_length, seq_length. reflexivity. Qed.

Lemma gen_tiling_nth : forall u n i ns low high j, j < length ns ->
  nth j (gen_tiling u n i ns low high) (0, 0)%R = gen_range u n i j (nth j ns 0) (nth j low 0%R) (nth j high 0%R).
Proof.
  intros. unfold gen_tiling. rewrite (map_nth_in _ _ _ (seq 0 (length ns)) j _ 0) by (rewrite seq_length; auto).
  rewrite seq_nth by auto. reflexivity.
Qed.

(** Every generated tiling gives an index to every point of the half-open box [low, high). *)
Theorem generated_tilings_cover_partial : forall uniform n i ns low high x, 1 <= n -> i < n -> Forall (fun N => 1 <= N) ns ->
  length low = length ns -> length high = length ns -> length x = length ns ->
  (forall j, j < length ns -> (nth j low 0 < nth j high 0)%R) ->
  (forall j, j < length ns -> (nth j low 0 <= nth j x 0 < nth j high 0)%R) ->
  exists k, tile_call (gen_tiling uniform n i ns low high) ns x = Some k /\ k < tile_size ns.
Proof.
  intros uniform n i ns low high x Hn Hi F LL LH LX HLH HX.
  apply (tile_index_range (gen_tiling uniform n i ns low high)); rewrite ?gen_tiling_length; auto.
  split; rewrite gen_tiling_length; auto. intros j Hj. rewrite gen_tiling_nth by auto.
  apply gen_range_cover; auto. rewrite Forall_forall in F. apply F, nth_In. auto.
Qed.

(** The upper bound itself, which belongs to the closed observation space, gets no
    index from the first tiling (for a single tiling the feature vector is zero). *)
Theorem generated_tilings_high_refuted : forall uniform n ns low high x j, 1 <= n -> Forall (fun N => 1 <= N) ns ->
  length low = length ns -> length high = length ns -> length x = length ns -> j < length ns ->
  (nth j low 0 < nth j high 0)%R -> nth j x 0%R = nth j high 0%R ->
  tile_call (gen_tiling uniform n 0 ns low high) ns x = None.
Proof.
  intros uniform n ns low high x j Hn F LL LH LX Hj HLH E.
  apply (tile_index_range (gen_tiling uniform n 0 ns low high)); rewrite ?gen_tiling_length; auto.
  intros [_ H]. rewrite gen_tiling_length in H. specialize (H j Hj). rewrite gen_tiling_nth, E in H by auto.
  unfold gen_range, gen_shift in H. cbn [fst snd] in H. rewrite Nat.mul_0_l, Nat.mod_0_l in H by lia.
  assert (HN : 1 <= nth j ns 0) by (rewrite Forall_forall in F; apply F, nth_In; auto).
  assert (Pn : (1 <= INR n)%R) by (change 1%R with (INR 1); apply le_INR; auto).
  assert (PN : (1 <= INR (nth j ns 0%nat))%R) by (change 1%R with (INR 1); apply le_INR; auto).
  assert (BE : (0 <= (INR n - 1) / INR n < 1)%R).
  { unfold Rdiv. assert (0 < / INR n)%R by (apply Rinv_0_lt_compat; lra). assert (INR n * / INR n = 1)%R by (field; lra). split; nra. }
  unfold gen_side in H. cbn [INR] in H. set (lo := nth j low 0%R) in *. set (hi := nth j high 0%R) in *. set (N := INR (nth j ns 0%nat)) in *.
  assert (X : (lo + (- INR n + 1 + 0) / INR n * ((hi - lo) / (N - (INR n - 1) / INR n)) + (hi - lo) / (N - (INR n - 1) / INR n) * N = hi)%R).
  { assert (N - (INR n - 1) / INR n <> 0)%R by lra. field. split; [lra|]. intros Z. apply H0. apply (Rmult_eq_reg_l (INR n)); [|lra].
    rewrite Rmult_0_r, <- Z. field. lra. }
  lra.
Qed.

(** The tilings are displaced from each other: along the first dimension tiling [i] is
    shifted by [i/n] of a tile. *)
Theorem generated_tilings_displaced : forall uniform n i ns low high, i < n -> ns <> [] ->
  fst (nth 0 (gen_tiling uniform n i ns low high) (0, 0)%R) =
  (fst (nth 0 (gen_tiling uniform n 0 ns low high) (0, 0)) +
    INR i / INR n * gen_side n (nth 0 ns 0%nat) (nth 0 low 0) (nth 0 high 0))%R /\
  (snd (nth 0 (gen_tiling uniform n i ns low high) (0, 0)) - fst (nth 0 (gen_tiling uniform n i ns low high) (0, 0)) =
    INR (nth 0 ns 0%nat) * gen_side n (nth 0 ns 0%nat) (nth 0 low 0) (nth 0 high 0))%R.
Proof.
  intros uniform n i ns low high Hi NE. assert (L : 0 < length ns) by (destruct ns; simpl; [congruence|lia]).
  rewrite !gen_tiling_nth by auto. unfold gen_range, gen_shift. cbn [fst snd].
  assert (Pn : (0 < INR n)%R) by (apply lt_0_INR; lia).
  assert (E : forall u : bool, i * (if u then 1 else 2 * 0 + 1) = i) by (intros []; lia).
  rewrite E, Nat.mul_0_l, Nat.mod_0_l, Nat.mod_small by lia. cbn [INR]. split; [field; lra|ring].
Qed.

(** ** Feature vectors *)
Lemma tf_size_cons : forall t ts, tf_size (t :: ts) = fst t + tf_size ts.
Proof.
  intros. unfold tf_size. simpl. generalize (fst t) as a. intros a.
  assert (G : forall ts a b, fold_left (fun a (t : nat * option nat) => a + fst t) ts (a + b) = a + fold_left (fun a t => a + fst t) ts b).
  { induction ts0; intros; simpl; auto. rewrite <- IHts0. f_equal. lia. }
  rewrite <- (Nat.add_0_r a) at 1. apply G.
Qed.

Definition tf_ok (ts : list (nat * option nat)) : Prop := Forall (fun t => match snd t with Some i => i < fst t | None => True end) ts.

Lemma tf_indexes_range : forall ts o k, tf_ok ts -> In k (tf_indexes ts o) -> o <= k < o + tf_size ts.
Proof.
  induction ts as [|[sz [i|]] ts IH]; intros o k F H; simpl in H; [tauto| |]; inversion F as [|? ? H1 H2]; subst; rewrite tf_size_cons; simpl in *.
  - destruct H as [<-|H]; [lia|]. apply IH in H; auto. lia.
  - apply IH in H; auto. lia.
Qed.

(** The feature vector has ones exactly at the computed indexes, which are distinct,
    in range, and as many as the tilings covering the point. *)
Theorem tiles_features_indexes : forall ts, tf_ok ts ->
  length (tf_call ts) = tf_size ts /\ NoDup (tf_indexes ts 0) /\
  length (tf_indexes ts 0) = length (filter (fun t => match snd t with Some _ => true | None => false end) ts) /\
  (forall k, In k (tf_indexes ts 0) -> k < tf_size ts) /\
  (forall k, k < tf_size ts -> nth k (tf_call ts) 0%R = if in_dec Nat.eq_dec k (tf_indexes ts 0) then 1%R else 0%R).
Proof.
  intros ts F.
  assert (G : forall ts o out, tf_ok ts -> o + tf_size ts <= length out -> length (tf_loop ts o out) = length out /\
    forall k, nth k (tf_loop ts o out) 0%R = if in_dec Nat.eq_dec k (tf_indexes ts o) then 1%R else nth k out 0%R).
  { clear ts F. induction ts as [|[sz [i|]] ts IH]; intros o out F L; [split; auto| |];
      inversion F as [|? ? H1 H2]; subst; rewrite tf_size_cons in L; simpl in H1, L; cbn [tf_loop tf_indexes].
    - destruct (IH (o + sz) (setnth out (i + o) 1%R) H2) as [A B]; [rewrite setnth_length; lia|]. rewrite setnth_length in A.
      split; auto. intros k. rewrite B. destruct (in_dec Nat.eq_dec k (tf_indexes ts (o + sz))) as [I|I].
      + destruct (in_dec _ _ _) as [J|J]; auto. exfalso. apply J. simpl; auto.
      + destruct (in_dec _ _ _) as [J|J].
        * destruct J as [<-|J]; [|contradiction]. apply nth_setnth_eq. lia.
        * apply nth_setnth_neq. intros <-. apply J. simpl; auto.
    - apply IH; auto. lia. }
  destruct (G ts 0 (repeat 0%R (tf_size ts)) F) as [A B]; [rewrite repeat_length; lia|]. rewrite repeat_length in A.
  split; [exact A|]. split; [|split; [|split]].
  - assert (N : forall ts o, tf_ok ts -> NoDup (tf_indexes ts o)).
    { clear. induction ts as [|[sz [i|]] ts IH]; intros o F; simpl; [constructor| |]; inversion F as [|? ? H1 H2]; subst; auto.
      constructor; auto. intros X. apply tf_indexes_range in X; auto. simpl in H1. lia. }
    auto.
  - clear. generalize 0. induction ts as [|[sz [i|]] ts IH]; intros o; simpl; auto.
  - intros k Hk. apply tf_indexes_range in Hk; auto. lia.
  - intros k Hk. unfold tf_call. rewrite B. rewrite nth_repeat. reflexivity.
Qed.

(** VoronoiTiles answers the index of a nearest prototype, the first one in case of ties. *)
Theorem voronoi_nearest : forall protos x, protos <> [] ->
  let k := voronoi_call protos x in
  k < length protos /\
  (forall i, i < length protos -> (dist (nth k protos []) x <= dist (nth i protos []) x)%R) /\
  (forall i, i < k -> (dist (nth k protos []) x < dist (nth i protos []) x)%R).
Proof.
  intros protos x NE k. destruct (argmin_spec (map (fun p => dist p x) protos)) as (A & B & C).
  { intros E. apply map_eq_nil in E. auto. }
  rewrite map_length in *. fold (voronoi_call protos x) in A, B, C. fold k in A, B, C.
  assert (M : forall i, i < length protos -> nth i (map (fun p => dist p x) protos) 0%R = dist (nth i protos []) x).
  { intros i Hi. apply (map_nth_in _ _ (fun p => dist p x)); auto. }
  split; auto. split.
  - intros i Hi. specialize (B i Hi). rewrite !M in B; auto.
  - intros i Hi. specialize (C i Hi). rewrite !M in C; auto. lia.
Qed.

(** State-action features: the value of linear weights made of one block per action is
    the value of the block of the action on the state features. *)
Theorem action_features_block : forall phi a n (w : nat -> R), a < n ->
  length (action_features phi a n) = n * length phi /\
  rsum (map (fun k => nth k (action_features phi a n) 0 * w k)%R (seq 0 (n * length phi))) =
  rsum (map (fun k => nth k phi 0 * w (length phi * a + k)%nat)%R (seq 0 (length phi))).
Proof.
  intros phi a n w Ha. unfold action_features. set (L := length phi). set (z := repeat 0%R (n * L)).
  assert (LZ : length z = n * L) by apply repeat_length.
  assert (E1 : firstn (L * a) z = repeat 0%R (L * a)).
  { unfold z. replace (n * L) with (L * a + (n * L - L * a)) by nia. rewrite repeat_app, firstn_app, repeat_length, Nat.sub_diag.
    simpl. rewrite app_nil_r. apply firstn_all2. rewrite repeat_length. lia. }
  assert (E2 : skipn (L * a + L) z = repeat 0%R (n * L - (L * a + L))).
  { unfold z. replace (n * L) with ((L * a + L) + (n * L - (L * a + L))) at 1 by nia. rewrite repeat_app, skipn_app, repeat_length, Nat.sub_diag.
    rewrite skipn_all2 by (rewrite repeat_length; lia). reflexivity. }
  rewrite E1, E2. split.
  - rewrite !app_length, !repeat_length. fold L. nia.
  - assert (SQ : seq 0 (n * L) = seq 0 (L * a) ++ seq (L * a) L ++ seq (L * a + L) (n * L - (L * a + L))).
    { rewrite <- seq_app, <- (seq_app (L * a)). f_equal. nia. }
    rewrite SQ, !map_app, !rsum_app.
    assert (Z : forall l, (forall k, In k l -> nth k (repeat 0%R (L * a) ++ phi ++ repeat 0%R (n * L - (L * a + L))) 0%R = 0%R) ->
       rsum (map (fun k => nth k (repeat 0 (L * a) ++ phi ++ repeat 0 (n * L - (L * a + L))) 0 * w k)%R l) = 0%R).
    { induction l as [|k l IH]; intros H; auto. cbn [map rsum]. rewrite IH, H by (simpl; auto; intros; apply H; simpl; auto). ring. }
    rewrite Z.
    2:{ intros k Hk. apply in_seq in Hk. rewrite app_nth1 by (rewrite repeat_length; lia). apply nth_repeat. }
    rewrite (Z (seq (L * a + L) _)).
    2:{ intros k Hk. apply in_seq in Hk. rewrite app_nth2 by (rewrite repeat_length; lia). rewrite repeat_length.
        rewrite app_nth2 by (fold L; lia). apply nth_repeat. }
    rewrite Rplus_0_l, Rplus_0_r. 
    assert (S : forall m o, seq o m = map (fun k => o + k) (seq 0 m)).
    { intros m o. clear. revert o. induction m; intros; simpl; auto. f_equal; [lia|]. rewrite IHm. rewrite <- seq_shift, map_map. apply map_ext. intros; lia. }
    rewrite (S L (L * a)), map_map. apply rsum_map_ext. intros k Hk. apply in_seq in Hk.
    rewrite app_nth2 by (rewrite repeat_length; lia). rewrite repeat_length. replace (L * a + k - L * a) with k by lia.
    rewrite app_nth1 by (fold L; lia). reflexivity.
Qed.

(** * C34: generators *)

(** PolynomialBasis.generate terminates and produces every exponent vector of degree
    between 1 and the maximum exactly once (the constant is added separately). *)
Theorem polynomial_exponents_complete : forall order n, 1 <= n -> exists fuel0 l, forall fuel, fuel0 <= fuel ->
  poly_exponents fuel order n = Some l /\ NoDup l /\
  (forall e, In e l <-> length e = n /\ 1 <= degree e <= order).
Proof.
  intros order n Hn. destruct n as [|n]; [lia|].
  set (all := fun ss => flat_map (compositions (S n)) ss).
  assert (G : forall ss, exists fuel0, forall fuel, fuel0 <= fuel -> poly_loop fuel ss (repeat 0 (S n)) = Some (all ss)).
  { induction ss as [|s ss (f & IH)]; [exists 0; reflexivity|]. exists (Nat.max f (length (compositions (S n) s))).
    intros fuel HF. cbn [poly_loop]. rewrite poly_degree_spec by lia. rewrite IH by lia. reflexivity. }
  destruct (G (seq 1 order)) as (f & H). exists f, (all (seq 1 order)). intros fuel HF. split; [apply H; auto|]. split.
  - unfold all. clear H. assert (K : forall m, NoDup (flat_map (compositions (S n)) (seq 1 m))).
    { induction m as [|m IH]; [constructor|]. rewrite seq_S, flat_map_app. apply NoDup_app_intro; auto.
      - simpl flat_map at 1. rewrite app_nil_r. apply compositions_NoDup.
      - intros e He Hf. apply in_flat_map in He, Hf. destruct He as (s & Hs & He). destruct Hf as (t & Ht & Hf).
        apply compositions_In in He, Hf. apply in_seq in Hs. destruct Ht as [<-|[]]. lia. }
    apply K.
  - intros e. unfold all. rewrite in_flat_map. split.
    + intros (s & Hs & He). apply in_seq in Hs. apply compositions_In in He. lia.
    + intros [L D]. exists (degree e). split; [apply in_seq; lia|]. apply compositions_In. auto.
Qed.

(** The basis function built from an exponent vector is its monomial. *)
Theorem polynomial_basis_value : forall e x, poly_call (poly_basis e) x = monomial e x.
Proof.
  intros e x. unfold poly_call, poly_basis, monomial. cbn [fst snd].
  pose proof (poly_basis_fold e x 0 1%R) as H.
  rewrite (filter_ext _ (fun i => negb (Nat.eqb (nth (i - 0) e 0) 0))) by (intros; rewrite Nat.sub_0_r; reflexivity).
  rewrite H, Rmult_1_l. f_equal. apply map_ext. intros i. rewrite Nat.sub_0_r. reflexivity.
Qed.

(** FourierBasis.generate produces every coefficient vector with entries up to [n]
    exactly once. *)
Theorem fourier_coefficients_complete : forall d n,
  length (fourier_generate d n) = (n + 1) ^ d /\ NoDup (fourier_generate d n) /\
  (forall c, In c (fourier_generate d n) <-> length c = d /\ Forall (fun k => k <= n) c).
Proof.
  intros d n. unfold fourier_generate. split; [rewrite map_length, seq_length; auto|].
  assert (F : Forall (fun m => 1 <= m) (repeat (n + 1) d)) by (apply Forall_forall; intros m Hm; apply repeat_spec in Hm; lia).
  split.
  - assert (K : forall l, NoDup l -> (forall v, In v l -> v < (n + 1) ^ d) -> NoDup (map (fourier_c d n) l)).
    { induction l as [|v l IH]; intros ND HL; [constructor|]. inversion ND; subst. simpl. constructor.
      - intros X. apply in_map_iff in X. destruct X as (u & E & Hu). rewrite !fourier_digits in E. assert (u = v); [|congruence].
        rewrite <- (mr_digits (repeat (n + 1) d) u), <- (mr_digits (repeat (n + 1) d) v), E; auto; rewrite prod_repeat; apply HL; simpl; auto.
      - apply IH; auto. intros; apply HL; simpl; auto. }
    apply K; [apply seq_NoDup|]. intros v Hv. apply in_seq in Hv. lia.
  - intros c. rewrite in_map_iff. split.
    + intros (v & <- & Hv). rewrite fourier_digits. pose proof (digits_ok (repeat (n + 1) d) v F) as G. 
      pose proof (Forall2_len _ _ _ _ _ G) as LG. rewrite repeat_length in LG. split; auto. clear -G.
      remember (repeat (n + 1) d) as ns. assert (A : Forall (eq (n + 1)) ns) by (subst; apply Forall_forall; intros m Hm; apply repeat_spec in Hm; auto).
      clear Heqns. induction G; constructor; inversion A; subst; auto. lia.
    + intros [L Fc]. exists (mr (repeat (n + 1) d) c).
      assert (G : Forall2 lt c (repeat (n + 1) d)).
      { subst d. clear F. induction Fc; simpl; constructor; auto. lia. }
      rewrite fourier_digits, digits_mr by auto. split; auto. apply in_seq. rewrite <- prod_repeat. pose proof (mr_lt _ _ G). lia.
Qed.

(** The grid has one row per combination of centers: row [a] takes in column [b] the
    center selected by the mixed-radix digit [b] of [a]. *)
Theorem grid_rows_complete : forall cs, Forall (fun c : list R => c <> []) cs ->
  length (grid_of cs) = prod (map (@length R) cs) /\
  (forall ks, Forall2 lt ks (map (@length R) cs) ->
     exists a, a < length (grid_of cs) /\ nth a (grid_of cs) [] = map (fun b => nth (nth b ks 0) (nth b cs []) 0%R) (seq 0 (length cs))) /\
  (forall a, a < length (grid_of cs) -> exists ks, Forall2 lt ks (map (@length R) cs) /\
     nth a (grid_of cs) [] = map (fun b => nth (nth b ks 0) (nth b cs []) 0%R) (seq 0 (length cs))) /\
  (Forall (@NoDup R) cs -> NoDup (grid_of cs)).
Proof.
  intros cs F. set (ns := map (@length R) cs).
  assert (FN : Forall (fun n => 1 <= n) ns).
  { unfold ns. induction F as [|c cs Hc F IH]; simpl; constructor; auto. destruct c; simpl; [congruence|lia]. }
  assert (L : length (grid_of cs) = prod ns) by (unfold grid_of; rewrite map_length, seq_length, fold_mul; fold ns; lia).
  assert (ROW : forall a, a < prod ns -> nth a (grid_of cs) [] = map (fun b => nth (nth b (digits ns a) 0) (nth b cs []) 0%R) (seq 0 (length cs))).
  { intros a Ha. unfold grid_of. rewrite (map_nth_in _ _ _ (seq 0 _) a [] 0) by (rewrite seq_length, fold_mul; fold ns; lia).
    rewrite seq_nth by (rewrite fold_mul; fold ns; lia). cbn [plus]. apply map_ext_in. intros b Hb. apply in_seq in Hb.
    apply (grid_dim_rows cs [] (fun _ _ => 0%R) ltac:(constructor) F []); [reflexivity|intros a' b' _ Hb'; simpl in Hb'; lia|exact Ha|simpl; lia]. }
  split; auto. rewrite L. split; [|split].
  - intros ks G. exists (mr ns ks). split; [apply mr_lt; auto|].
    rewrite ROW by (apply mr_lt; auto). rewrite digits_mr by auto. reflexivity.
  - intros a Ha. exists (digits ns a). split; [apply digits_ok; auto|]. apply ROW; auto.
  - intros ND. apply NoDup_nth with (d := []). rewrite L. intros a b Ha Hb E. rewrite !ROW in E by auto.
    rewrite <- (mr_digits ns a), <- (mr_digits ns b) by auto. f_equal.
    assert (DL : forall v, length (digits ns v) = length cs).
    { intros v. rewrite <- (map_length (@length R) cs). fold ns. clear. revert v. induction ns; intros; simpl; auto. }
    apply nth_ext with (d := 0) (d' := 0); [rewrite !DL; auto|]. intros i Hi. rewrite DL in Hi.
    assert (Ei : nth i (map (fun b => nth (nth b (digits ns a) 0) (nth b cs []) 0%R) (seq 0 (length cs))) 0%R =
                 nth i (map (fun b0 => nth (nth b0 (digits ns b) 0) (nth b0 cs []) 0%R) (seq 0 (length cs))) 0%R) by (rewrite E; auto).
    rewrite !(map_nth_in _ _ _ (seq 0 (length cs)) i 0%R 0) in Ei by (rewrite seq_length; auto). rewrite !seq_nth in Ei by auto. cbn [plus] in Ei.
    rewrite Forall_forall in ND. specialize (ND (nth i cs []) ltac:(apply nth_In; auto)).
    assert (DR : forall v, nth i (digits ns v) 0 < length (nth i cs [])).
    { intros v. assert (K : nth i (digits ns v) 0 < nth i ns 0).
      { apply Forall2_lt_nth; [apply digits_ok; auto|]. unfold ns. rewrite map_length. auto. }
      unfold ns in K. rewrite (map_nth_in _ _ _ cs i 0 []) in K by auto. exact K. }
    rewrite NoDup_nth in ND. apply (ND (nth i (digits ns a) 0) (nth i (digits ns b) 0)); auto. exact Ei.
Qed.

(** Centers: in the range, equally spaced, from the lower to the upper bound; for a
    cyclic variable the next center after the last is the first one, one period on. *)
Theorem grid_centers_uniform : forall cyclic n lo hi, 1 <= n -> (lo < hi)%R ->
  let c := grid_centers cyclic n lo hi in
  let step := ((hi - lo) / INR (if cyclic then n else n - 1))%R in
  length c = n /\ (forall k, k < n -> (lo <= nth k c 0 <= hi)%R) /\
  (2 <= n -> (forall k, k < n -> nth k c 0%R = (lo + INR k * step)%R) /\
     (cyclic = false -> nth (n - 1) c 0%R = hi) /\ (cyclic = true -> (nth (n - 1) c 0 + step = hi)%R)) /\
  NoDup c.
Proof.
  intros cyclic n lo hi Hn HL c step. destruct (Nat.eq_dec n 1) as [->|N1].
  - unfold c, grid_centers. simpl. split; auto. split; [|split; [lia|repeat constructor; simpl; tauto]].
    intros [|k] Hk; [lra|lia].
  - assert (C : c = linspace lo (if cyclic then hi - Rabs (hi - lo) / INR n else hi) n).
    { unfold c, grid_centers. replace (Nat.eqb n 1) with false by (symmetry; apply Nat.eqb_neq; auto). reflexivity. }
    assert (P : (0 < INR (n - 1))%R) by (apply lt_0_INR; lia).
    assert (Q : INR n = (INR (n - 1) + 1)%R) by (rewrite <- S_INR; f_equal; lia).
    assert (K : forall k, k < n -> nth k c 0%R = (lo + INR k * step)%R).
    { intros k Hk. rewrite C. unfold linspace. rewrite (map_nth_in _ _ _ (seq 0 n) k 0%R 0) by (rewrite seq_length; auto).
      rewrite seq_nth by auto. cbn [plus]. unfold step. destruct cyclic; [|reflexivity]. rewrite (Rabs_right (hi - lo)) by lra.
      rewrite Q. field. lra. }
    assert (SP : (0 < step)%R) by (unfold step; apply Rdiv_lt_0_compat; [lra|destruct cyclic; lra]).
    assert (LC : length c = n) by (rewrite C; unfold linspace; rewrite map_length, seq_length; auto).
    assert (TOP : (INR (n - 1) * step = if cyclic then hi - lo - step else hi - lo)%R).
    { unfold step. destruct cyclic; [rewrite Q|]; field; lra. }
    split; auto. split; [|split].
    + intros k Hk. rewrite K by auto. pose proof (pos_INR k). assert (INR k <= INR (n - 1))%R by (apply le_INR; lia).
      destruct cyclic; nra.
    + intros _. split; auto. split; intros ->; rewrite K by lia; lra.
    + apply NoDup_nth with (d := 0%R). rewrite LC. intros a b Ha Hb E. rewrite !K in E by auto.
      assert (INR a = INR b) by nra. apply INR_eq. auto.
Qed.

(** Radial basis functions take values in (0,1] and have value one at their center. *)
Theorem rbf_range : forall mean scale x, length mean = length scale -> length x = length mean -> Forall (fun s => (0 < s)%R) scale ->
  (0 < rbf_call mean scale x <= 1)%R /\ rbf_call mean scale mean = 1%R.
Proof.
  intros mean scale x L1 L2 F. unfold rbf_call. split; [split; [apply exp_pos|]|].
  - assert (S : (0 <= rsum (map (fun q => (fst (fst q) - snd (fst q)) ^ 2 / snd q) (combine (combine x mean) scale)))%R).
    { apply rsum_nonneg. intros v Hv. apply in_map_iff in Hv. destruct Hv as ([[a b] s] & <- & Hq). cbn [fst snd].
      apply in_combine_r in Hq. rewrite Forall_forall in F. specialize (F s Hq). unfold Rdiv.
      apply Rmult_le_pos; [apply pow2_ge_0|]. left. apply Rinv_0_lt_compat; auto. }
    rewrite <- exp_0. destruct S as [S|S]; [left; apply exp_increasing; lra|]. right. rewrite <- S. f_equal. ring.
  - rewrite <- exp_0. f_equal. replace (rsum _) with 0%R; [ring|]. symmetry.
    assert (G : forall l, (forall q, In q l -> fst (fst q) = snd (fst q)) -> rsum (map (fun q : R * R * R => (fst (fst q) - snd (fst q)) ^ 2 / snd q)%R l) = 0%R).
    { induction l as [|q l IH]; intros H; auto. cbn [map rsum]. rewrite IH, (H q) by (simpl; auto; intros; apply H; simpl; auto). unfold Rdiv. ring. }
    apply G. intros [[a b] s] Hq. apply in_combine_l in Hq. simpl. clear -Hq. induction mean as [|m mean IH]; simpl in Hq; [tauto|].
    destruct Hq as [E|Hq]; auto. congruence.
Qed.

(** * Concrete cases *)
Example poly_demo : poly_exponents 20 2 3 = Some
  [[1; 0; 0]; [0; 1; 0]; [0; 0; 1]; [2; 0; 0]; [1; 1; 0]; [1; 0; 1]; [0; 2; 0]; [0; 1; 1]; [0; 0; 2]].
Proof. reflexivity. Qed.
Example fourier_demo : fourier_generate 2 1 = [[0; 0]; [1; 0]; [0; 1]; [1; 1]].
Proof. reflexivity. Qed.
Example tf_demo : tf_indexes [(4, Some 3); (4, None); (4, Some 0)] 0 = [3; 8] /\
  tf_call [(2, Some 1); (2, None); (2, Some 0)] = [0; 1; 0; 0; 1; 0]%R.
Proof. split; reflexivity. Qed.
Example grid_demo : grid_of [[1; 2]; [5; 6; 7]]%R = [[1; 5]; [2; 5]; [1; 6]; [2; 6]; [1; 7]; [2; 7]]%R.
Proof. reflexivity. Qed.
Example monomial_demo : monomial [2; 0; 1] [3; 5; 7]%R = 63%R.
Proof. unfold monomial. simpl. ring. Qed.

Print Assumptions tile_index_range.
Print Assumptions tile_same_index.
Print Assumptions tile_index_onto.
Print Assumptions generated_tilings_cover_partial.
Print Assumptions generated_tilings_high_refuted.
Print Assumptions generated_tilings_displaced.
Print Assumptions tiles_features_indexes.
Print Assumptions voronoi_nearest.
Print Assumptions action_features_block.
Print Assumptions polynomial_exponents_complete.
Print Assumptions polynomial_basis_value.
Print Assumptions fourier_coefficients_complete.
Print Assumptions grid_rows_complete.
Print Assumptions grid_centers_uniform.
Print Assumptions rbf_range.

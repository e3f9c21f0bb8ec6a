(** Theorems C45, C63. *)
From Coq Require Import List Arith Lia Reals Bool Lra Psatz Permutation ZArith.
From Verif Require Import Common FeatModel FeatProofs FeatProps TdModel TdProofs UtilProofs ApproxModel ApproxProofs.
Import ListNotations.
Local Open Scope nat_scope.

Lemma length_cons : forall A (x : A) l, length (x :: l) = S (length l).
Proof. reflexivity. Qed.

(** * Parameters of the linear approximator *)

(** set_weights accepts exactly the flat arrays of the right size, get_weights returns them,
    and setting the weights just read changes nothing. *)
Theorem linear_weights_roundtrip : forall c W w, W <> [] -> rect c W ->
  (length w = length W * c -> exists W', lin_set W w = Some W' /\ lin_get W' = w /\ rect c W' /\ length W' = length W) /\
  (length w <> length W * c -> lin_set W w = None) /\
  lin_set W (lin_get W) = Some W.
Proof.
  intros c W w N HR. unfold lin_set, lin_get. rewrite (rect_hd c W HR N). split; [|split].
  - intros L. rewrite (proj2 (Nat.eqb_eq _ _)) by auto. destruct (concat_chunk (length W) c w L) as (A & B & C). eauto.
  - intros L. rewrite (proj2 (Nat.eqb_neq _ _)); auto.
  - rewrite (rect_concat c) by auto. rewrite Nat.eqb_refl. rewrite chunk_concat; auto.
Qed.

(** diff is the gradient: every output is a linear function of the flat weights, with
    diff as coefficients. *)
Theorem linear_diff_gradient : forall c W phi, W <> [] -> rect c W -> length phi = c ->
  (forall a, a < length W -> exists g, lin_diff W phi (Some a) = Some (GVec g) /\ length g = length W * c /\
     forall w W2, lin_set W w = Some W2 -> nth a (lin_row W2 phi) 0%R = dot w g) /\
  (2 <= length W -> exists G, lin_diff W phi None = Some (GCols G) /\ length G = length W /\
     forall w W2 i, i < length W -> lin_set W w = Some W2 -> nth i (lin_row W2 phi) 0%R = dot w (nth i G [])) /\
  (length W = 1 -> lin_diff W phi None = Some (GVec phi)).
Proof.
  intros c W phi N HR HP.
  assert (K : forall w W2, lin_set W w = Some W2 -> w = concat W2 /\ rect c W2 /\ length W2 = length W).
  { intros w W2 H. unfold lin_set in H. rewrite (rect_hd c W HR N) in H. destruct (Nat.eqb_spec (length w) (length W * c)); [|discriminate].
    injection H as <-. destruct (concat_chunk (length W) c w e) as (A & B & C). auto. }
  assert (NR : forall W2 a, a < length W2 -> nth a (lin_row W2 phi) 0%R = dot phi (nth a W2 [])).
  { intros W2 a Ha. unfold lin_row. apply (map_nth_in _ _ (fun w => dot phi w)). auto. }
  unfold lin_diff. rewrite (rect_hd c W HR N). split; [|split].
  - intros a Ha. destruct (Nat.eqb_spec (length W) 1) as [E|E].
    + exists phi. split; auto. split; [lia|]. intros w W2 H. destruct (K w W2 H) as (-> & R2 & L2).
      rewrite NR by lia. assert (a = 0) by lia. subst a. destruct W2 as [|r [|r2 W2]]; simpl in *; try lia. rewrite app_nil_r. apply dot_comm.
    + rewrite (proj2 (Nat.ltb_lt _ _)) by auto. destruct (dot_block c W a phi HR HP Ha) as [_ L]. eexists. split; [reflexivity|]. split; [exact L|].
      intros w W2 H. destruct (K w W2 H) as (-> & R2 & L2). rewrite NR by lia. rewrite <- L2.
      destruct (dot_block c W2 a phi R2 HP ltac:(lia)) as [D _]. auto.
  - intros H2. rewrite (proj2 (Nat.eqb_neq _ _)) by lia. eexists. split; [reflexivity|]. split; [rewrite map_length, seq_length; auto|].
    intros w W2 i Hi H. destruct (K w W2 H) as (-> & R2 & L2). rewrite NR by lia.
    rewrite (map_nth_in _ _ _ _ _ [] 0) by (rewrite seq_length; auto). rewrite seq_nth by auto. rewrite <- L2.
    destruct (dot_block c W2 i phi R2 HP ltac:(lia)) as [D _]. auto.
  - intros E. rewrite E. reflexivity.
Qed.

(** With several outputs, predict(s, a) of the Q regressor is entry a of predict(s), for
    every batch; with one output too, as LinearApproximator keeps the two dimensions. *)
Theorem q_regressor_linear : forall W phis actions, length actions = length phis ->
  exists q, q_select (A2 (lin_predict W phis)) actions = Some q /\ length q = length phis /\
    forall k, k < length phis -> nth k q 0%R = nth (nth k actions 0) (nth k (lin_predict W phis) []) 0%R.
Proof.
  intros W phis actions L. eexists. split; [reflexivity|]. unfold lin_predict.
  split; [rewrite map_length, combine_length, map_length; lia|]. intros k Hk.
  rewrite (map_nth_in _ _ _ _ _ 0%R ([], 0)) by (rewrite combine_length, map_length; lia).
  rewrite combine_nth by (rewrite map_length; lia). reflexivity.
Qed.

(** LinearApproximator.fit with a pseudo-inverse (the two Penrose equations used here) is a
    least squares solution, output by output. *)
Theorem linear_fit_least_squares : forall N F (phi P : nat -> nat -> R) (y : nat -> nat -> R) o (w : nat -> R),
  let mul := fun i l => rs F (fun k => phi i k * P k l)%R in
  (forall i j, i < N -> j < F -> rs N (fun l => mul i l * phi l j)%R = phi i j) ->
  (forall i l, i < N -> l < N -> mul i l = mul l i) ->
  let err := fun v : nat -> R => rs N (fun i => (rs F (fun j => phi i j * v j) - y i o) ^ 2)%R in
  (err (lin_fit N P y o) <= err w)%R.
Proof.
  intros N F phi P y o w mul H1 H2 err. set (ws := lin_fit N P y o). set (d := fun j => (w j - ws j)%R).
  set (res := fun i => (rs F (fun j => phi i j * ws j) - y i o)%R).
  assert (PW : forall i, rs F (fun j => phi i j * ws j)%R = rs N (fun l => mul i l * y l o)%R).
  { intros i. unfold ws, lin_fit, mul. change (fun j : nat => (phi i j * rsum (map (fun l => P j l * y l o) (seq 0 N)))%R) with (fun j : nat => (phi i j * rs N (fun l => P j l * y l o))%R).
    rewrite (rs_ext F _ (fun j => rs N (fun l => phi i j * (P j l * y l o))%R)) by (intros; rewrite <- rs_scal; auto).
    rewrite rs_swap. apply rs_ext. intros l _. rewrite <- (Rmult_comm (y l o)), <- rs_scal. apply rs_ext. intros. ring. }
  assert (NE : forall j, j < F -> rs N (fun i => phi i j * res i)%R = 0%R).
  { intros j Hj. unfold res.
    rewrite (rs_ext N _ (fun i => phi i j * rs N (fun l => mul i l * y l o) + (-1) * (phi i j * y i o))%R) by (intros; rewrite PW; ring).
    rewrite rs_plus, rs_scal.
    rewrite (rs_ext N (fun i => phi i j * rs N (fun l => mul i l * y l o))%R (fun i => rs N (fun l => phi i j * (mul i l * y l o))%R)) by (intros; rewrite <- rs_scal; auto).
    rewrite rs_swap.
    rewrite (rs_ext N (fun l => rs N (fun i => phi i j * (mul i l * y l o))%R) (fun l => phi l j * y l o)%R); [lra|].
    intros l Hl. rewrite <- (H1 l j Hl Hj). rewrite <- (Rmult_comm (y l o)), <- rs_scal. apply rs_ext. intros i Hi. rewrite (H2 i l) by auto. ring. }
  assert (CR : rs N (fun i => rs F (fun j => phi i j * d j) * res i)%R = 0%R).
  { rewrite (rs_ext N _ (fun i => rs F (fun j => d j * (phi i j * res i))%R)).
    - rewrite rs_swap. rewrite <- (rs_0 F). apply rs_ext. intros j Hj. rewrite rs_scal, NE by auto. lra.
    - intros i _. rewrite Rmult_comm, <- rs_scal. apply rs_ext. intros. ring. }
  assert (E : err w = (err ws + rs N (fun i => (rs F (fun j => phi i j * d j)) ^ 2) + 2 * rs N (fun i => rs F (fun j => phi i j * d j) * res i))%R).
  { unfold err. rewrite <- rs_scal, <- !rs_plus. apply rs_ext. intros i _.
    assert (X : rs F (fun j => phi i j * w j)%R = (rs F (fun j => phi i j * ws j) + rs F (fun j => phi i j * d j))%R).
    { rewrite <- rs_plus. apply rs_ext. intros. unfold d. ring. }
    rewrite X. unfold res. ring. }
  rewrite E, CR. pose proof (rs_nonneg N (fun i => (rs F (fun j => phi i j * d j)) ^ 2)%R (fun i _ => pow2_ge_0 _)). lra.
Qed.

(** * CMAC *)

(** Its prediction is the linear one on the tile features. *)
Theorem cmac_predict_linear : forall X (ts : tilings X) W x, tilings_ok ts -> rect (size ts) W -> cmac_row ts W x = lin_row W (cmac_phi ts x).
Proof.
  intros X ts W x H HR. unfold cmac_row, lin_row. apply map_ext_in. intros w Hw. eapply Forall_forall in HR; eauto. symmetry. apply phi_dot; auto.
Qed.

Definition covered {X} (ts : tilings X) (x : X) : Prop := cmac_indexes ts x <> [].
Definition active {X} (ts : tilings X) (xs : list X) (dx : X) (j : nat) : list nat :=
  filter (fun i => if in_dec Nat.eq_dec j (cmac_indexes ts (nth i xs dx)) then true else false) (seq 0 (length xs)).

(** One fit moves weight [j] of output [o] by the learning rate times the average, over the
    samples that use it, of the error divided by the number of tiles of the sample; weights
    no sample uses keep their value.  An input outside every tiling spoils the weights. *)
Theorem cmac_fit_average : forall X (ts : tilings X) alpha W xs ys dx, tilings_ok ts -> rect (size ts) W -> length ys = length W ->
  Forall (fun y => length y = length xs) ys ->
  (Forall (covered ts) xs <-> exists W', cmac_fit ts alpha W xs ys = Some W') /\
  (forall W', cmac_fit ts alpha W xs ys = Some W' -> length W' = length W /\ rect (size ts) W' /\
   forall o j, o < length W -> j < size ts ->
    let act := active ts xs dx j in
    let err := fun i => ((nth i (nth o ys []) 0 - nth o (cmac_row ts W (nth i xs dx)) 0) / INR (length (cmac_indexes ts (nth i xs dx))))%R in
    (act = [] -> nth j (nth o W' []) 0%R = nth j (nth o W []) 0%R) /\
    (act <> [] -> nth j (nth o W' []) 0%R = (nth j (nth o W []) 0 + alpha * (rsum (map err act) / INR (length act)))%R)).
Proof.
  intros X ts alpha W xs ys dx HT HR HL HY. split.
  - unfold cmac_fit. destruct (forallb _ xs) eqn:E.
    + split; eauto. intros _. rewrite forallb_forall in E. apply Forall_forall. intros x Hx C. specialize (E x Hx).
      rewrite phi_sum, C in E by auto. simpl in E. destruct (Req_EM_T 0 0); [discriminate|]. lra.
    + split; [|intros [? C]; discriminate]. intros F. exfalso. apply Bool.not_true_iff_false in E. apply E. rewrite forallb_forall. intros x Hx.
      rewrite phi_sum by auto. eapply Forall_forall in F; eauto. destruct (Req_EM_T _ _) as [C|]; auto. unfold covered in F.
      destruct (cmac_indexes ts x); [congruence|]. rewrite length_cons, S_INR in C. pose proof (pos_INR (length l)). lra.
  - intros W' H. unfold cmac_fit in H. destruct (forallb _ xs) eqn:E; [|discriminate]. inversion H; subst W'; clear H.
    assert (WL : forall o, o < length W -> length (nth o W []) = size ts) by (intros o Ho; eapply Forall_forall in HR; [eauto|apply nth_In; auto]).
    assert (YL : forall o, o < length W -> length (nth o ys []) = length xs) by (intros o Ho; eapply Forall_forall in HY; [eauto|apply nth_In; lia]).
    rewrite map_length, combine_length, HL, Nat.min_id. split; auto. split.
    { apply Forall_forall. intros r Hr. apply in_map_iff in Hr. destruct Hr as ([w y] & <- & Hr). apply in_combine_l in Hr. rewrite map_length, seq_length.
      cbn [fst]. eapply Forall_forall in HR; eauto. }
    intros o j Ho Hj act err. rewrite (map_nth_in _ _ _ _ _ [] ([], [])) by (rewrite combine_length; lia). rewrite combine_nth by auto. cbn [fst snd].
    rewrite (map_nth_in _ _ _ _ _ 0%R 0) by (rewrite seq_length, WL; auto). rewrite seq_nth by (rewrite WL; auto). simpl plus.
    set (w := nth o W []). set (y := nth o ys []).
    assert (PH : forall i, i < length xs -> nth j (cmac_phi ts (nth i xs dx)) 0%R = if in_dec Nat.eq_dec j (cmac_indexes ts (nth i xs dx)) then 1%R else 0%R).
    { intros i Hi. destruct (phi_facts X ts (nth i xs dx) HT) as (_ & _ & _ & D). apply D. auto. }
    assert (SP : rsum (map (fun x => nth j (cmac_phi ts x) 0%R) xs) = INR (length act)).
    { rewrite rsum_seq_nth, map_length. rewrite (rsum_map_ext _ _ (fun i => (if (if in_dec Nat.eq_dec j (cmac_indexes ts (nth i xs dx)) then true else false) then 1 else 0) * 1)%R).
      - rewrite <- (rsum_filter _ (fun i => if in_dec Nat.eq_dec j (cmac_indexes ts (nth i xs dx)) then true else false)). fold (active ts xs dx j). fold act. rewrite rsum_map_const. lra.
      - intros i Hi. apply in_seq in Hi. rewrite (map_nth_in _ _ _ _ _ 0%R dx) by lia. rewrite PH by lia. destruct (in_dec _ _ _); lra. }
    assert (DL : length (cmac_delta ts w xs y) = length xs).
    { unfold cmac_delta. rewrite map_length, combine_length. unfold y. rewrite YL by auto. lia. }
    assert (NU : rsum (map (fun p => snd p * (nth j (cmac_phi ts (fst p)) 0 / rsum (cmac_phi ts (fst p))))%R (combine xs (cmac_delta ts w xs y))) = rsum (map err act)).
    { unfold act, active. rewrite rsum_filter. rewrite rsum_seq_nth, map_length, combine_length, DL, Nat.min_id. apply rsum_map_ext. intros i Hi. apply in_seq in Hi.
      rewrite (map_nth_in _ _ _ _ _ 0%R (dx, 0%R)) by (rewrite combine_length; lia). rewrite combine_nth by auto. cbn [fst snd]. rewrite PH by lia.
      rewrite phi_sum by auto. unfold cmac_delta. rewrite (map_nth_in _ _ _ _ _ 0%R (dx, 0%R)) by (rewrite combine_length; unfold y; rewrite YL by auto; lia).
      rewrite combine_nth by (unfold y; rewrite YL; auto). cbn [fst snd].
      assert (RO : nth o (cmac_row ts W (nth i xs dx)) 0%R = rsum (map (fun j => nth j w 0%R) (cmac_indexes ts (nth i xs dx)))).
      { unfold cmac_row. rewrite (map_nth_in _ _ _ _ _ 0%R []) by auto. reflexivity. }
      unfold err. fold y. rewrite RO. destruct (in_dec _ _ _); unfold Rdiv; ring. }
    unfold cmac_dw. rewrite SP, NU. split.
    + intros ->. simpl. destruct (Req_EM_T _ _); lra.
    + intros NE. destruct (Req_EM_T _ _) as [C|C]; [|reflexivity]. exfalso. destruct act; [congruence|].
      rewrite length_cons, S_INR in C. pose proof (pos_INR (length act)). lra.
Qed.

(** A sample that shares no tile with the others (in particular a single sample) is moved
    the fraction alpha of the way to its target; a batch with no error changes nothing. *)
Theorem cmac_fit_relax : forall X (ts : tilings X) alpha W xs ys dx W' i o, tilings_ok ts -> rect (size ts) W -> length ys = length W ->
  Forall (fun y => length y = length xs) ys -> cmac_fit ts alpha W xs ys = Some W' -> i < length xs -> o < length W ->
  (forall k j, k < length xs -> In j (cmac_indexes ts (nth i xs dx)) -> In j (cmac_indexes ts (nth k xs dx)) -> k = i) ->
  let before := nth o (cmac_row ts W (nth i xs dx)) 0%R in
  nth o (cmac_row ts W' (nth i xs dx)) 0%R = (before + alpha * (nth i (nth o ys []) 0 - before))%R.
Proof.
  intros X ts alpha W xs ys dx W' i o HT HR HL HY H Hi Ho PR before.
  destruct (cmac_fit_average X ts alpha W xs ys dx HT HR HL HY) as [[_ CV] B]. destruct (B W' H) as (L' & R' & F). clear B.
  assert (COV : covered ts (nth i xs dx)). { specialize (CV (ex_intro _ W' H)). eapply Forall_forall in CV; [eauto|apply nth_In; auto]. }
  destruct (phi_facts X ts (nth i xs dx) HT) as (_ & ND & RG & _).
  assert (ACT : forall j, In j (cmac_indexes ts (nth i xs dx)) -> active ts xs dx j = [i]).
  { intros j Hj. unfold active. apply Permutation_length_1_inv. apply NoDup_Permutation.
    - repeat constructor; auto.
    - apply NoDup_filter, seq_NoDup.
    - intros k. rewrite filter_In, in_seq. split.
      + intros [<-|[]]. split; [lia|]. destruct (in_dec _ _ _); auto.
      + intros [Hk X1]. destruct (in_dec _ _ _) as [I|]; [|discriminate]. left. symmetry. apply (PR k j); auto. lia. }
  assert (RB : before = rsum (map (fun j => nth j (nth o W []) 0%R) (cmac_indexes ts (nth i xs dx)))).
  { unfold before, cmac_row. rewrite (map_nth_in _ _ _ _ _ 0%R []) by auto. reflexivity. }
  unfold cmac_row at 1. rewrite (map_nth_in _ _ _ _ _ 0%R []) by lia.
  set (e := ((nth i (nth o ys []) 0 - before) / INR (length (cmac_indexes ts (nth i xs dx))))%R).
  rewrite (rsum_map_ext _ _ (fun j => nth j (nth o W []) 0 + alpha * e)%R).
  - rewrite rsum_map_plus, <- RB, rsum_map_const. unfold e. field.
    unfold covered in COV. destruct (cmac_indexes ts (nth i xs dx)); [congruence|]. rewrite length_cons, S_INR. pose proof (pos_INR (length l)). lra.
  - intros j Hj. destruct (F o j Ho (RG j Hj)) as [_ G]. rewrite G by (rewrite ACT by auto; discriminate). rewrite ACT by auto. simpl. fold before. unfold e. field.
    unfold covered in COV. destruct (cmac_indexes ts (nth i xs dx)); [congruence|]. rewrite length_cons, S_INR. pose proof (pos_INR (length l)). lra.
Qed.

Theorem cmac_fit_fixpoint : forall X (ts : tilings X) alpha W xs ys dx W', tilings_ok ts -> rect (size ts) W -> length ys = length W ->
  Forall (fun y => length y = length xs) ys -> cmac_fit ts alpha W xs ys = Some W' ->
  (forall o i, o < length W -> i < length xs -> nth i (nth o ys []) 0%R = nth o (cmac_row ts W (nth i xs dx)) 0%R) -> W' = W.
Proof.
  intros X ts alpha W xs ys dx W' HT HR HL HY H EQ.
  destruct (cmac_fit_average X ts alpha W xs ys dx HT HR HL HY) as [_ B]. destruct (B W' H) as (L' & R' & F). clear B.
  apply (nth_ext _ _ [] []); auto. intros o Ho. rewrite L' in Ho.
  assert (A1 : length (nth o W' []) = size ts) by (eapply Forall_forall in R'; [eauto|apply nth_In; lia]).
  assert (A2 : length (nth o W []) = size ts) by (eapply Forall_forall in HR; [eauto|apply nth_In; lia]).
  apply (nth_ext _ _ 0%R 0%R); [lia|]. intros j Hj. destruct (F o j Ho ltac:(lia)) as [P Q].
  destruct (active ts xs dx j) as [|a act] eqn:AC; [apply P; auto|]. rewrite Q by discriminate.
  rewrite (rsum_map_ext _ _ (fun _ => 0%R)).
  - rewrite rsum_map_const. unfold Rdiv. ring.
  - intros i Hi. rewrite <- AC in Hi. unfold active in Hi. apply filter_In in Hi. destruct Hi as [Hi _]. apply in_seq in Hi. rewrite EQ by lia. unfold Rdiv. ring.
Qed.

(** predict(s, a) = predict(s)[a] through the Q regressor, two actions or more. *)
Theorem q_regressor_cmac : forall X (ts : tilings X) W xs actions, 2 <= length W -> xs <> [] -> length actions = length xs ->
  exists q, q_select (cmac_predict ts W xs) actions = Some q /\
    forall k dx, k < length xs -> nth k q 0%R = nth (nth k actions 0) (cmac_row ts W (nth k xs dx)) 0%R.
Proof.
  intros X ts W xs actions H2 NE L. unfold cmac_predict, squeeze.
  destruct xs as [|x xs]; [congruence|]. destruct W as [|w [|w2 W]]; simpl in H2; try lia.
  destruct xs as [|x2 xs].
  - destruct actions as [|a [|]]; simpl in L; try lia. eexists. split; [reflexivity|]. intros [|k] dx Hk; simpl in *; [|lia]. reflexivity.
  - eexists. split; [reflexivity|]. intros k dx Hk. change (map (cmac_row ts (w :: w2 :: W)) (x :: x2 :: xs)) with (map (cmac_row ts (w :: w2 :: W)) (x :: x2 :: xs)).
    rewrite (map_nth_in _ _ (fun p => nth (snd p) (fst p) 0%R) (combine (map (cmac_row ts (w :: w2 :: W)) (x :: x2 :: xs)) actions) k 0%R ([], 0)) by (rewrite combine_length, map_length; lia).
    rewrite combine_nth by (rewrite map_length; auto). cbn [fst snd]. rewrite (map_nth_in _ _ _ _ _ [] dx) by auto. reflexivity.
Qed.

(** But asking the regressor for one state at a time does not return the row of the batch. *)
Lemma regressor_single_state : forall W phi phis, reg_single (A2 (lin_predict W (phi :: phis))) = Some (A1 (lin_row W phi)).
Proof. reflexivity. Qed.
Theorem regressor_single_state_cmac_refuted : exists (ts : tilings (list R)) W x, tilings_ok ts /\ rect (size ts) W /\ length W = 2 /\
  cmac_row ts W x = [3; 8]%R /\ reg_single (cmac_predict ts W [x]) = Some (A0 3%R).
Proof.
  exists [(1, fun _ => Some 0)], [[3%R]; [8%R]], []. split; [|split; [|split; [|split]]].
  - constructor; [|constructor]. intros ? i H. cbn in H. inversion H. cbn. auto.
  - repeat constructor.
  - reflexivity.
  - unfold cmac_row. simpl. f_equal; [|f_equal]; lra.
  - unfold cmac_predict, squeeze, cmac_row. simpl. f_equal. f_equal. lra.
Qed.

(** diff of a CMAC is not the gradient of its prediction: it takes the features of the features. *)
Definition demo_ts : tilings (list R) := [(5, fun x => tile_call [(0, 10)]%R [5] x)].
Theorem cmac_diff_refuted : exists W x g w, rect (size demo_ts) W /\ W <> [] /\ cmac_diff demo_ts W x None = Some (GVec g) /\
  lin_set W w = Some W /\ nth 0 (cmac_row demo_ts W x) 0%R <> dot w g.
Proof.
  assert (T : forall v k, (INR k * 2 <= v < INR k * 2 + 2)%R -> k < 5 -> tile_call [(0, 10)]%R [5] [v] = Some k).
  { intros v k Hv Hk. unfold tile_call, tile_loop, in_rangeb. cbn [fst snd]. assert (KB : (INR k <= 4)%R) by (replace 4%R with (INR 4) by (simpl; lra); apply le_INR; lia). pose proof (pos_INR k).
    destruct (Rle_dec 0 v); [|lra]. destruct (Rlt_dec v 10); [|lra]. f_equal. rewrite Nat.mul_1_r. simpl plus. unfold comp_index. cbn [fst snd].
    replace (Int_part (INR 5 * (v - 0) / (10 - 0))) with (Z.of_nat k); [apply Nat2Z.id|].
    set (z := (INR 5 * (v - 0) / (10 - 0))%R). assert (ZB : (INR k <= z < INR k + 1)%R) by (unfold z; simpl (INR 5); lra).
    pose proof (Int_part_bounds z) as IB. rewrite INR_IZR_INZ in ZB.
    assert (Z.of_nat k < Int_part z + 1)%Z by (apply lt_IZR; rewrite plus_IZR; lra).
    assert (Int_part z < Z.of_nat k + 1)%Z by (apply lt_IZR; rewrite plus_IZR; lra). lia. }
  assert (P7 : cmac_phi demo_ts [7%R] = [0; 0; 0; 1; 0]%R).
  { unfold cmac_phi, answers, demo_ts. simpl map. rewrite (T 7%R 3) by (simpl; lra || lia). reflexivity. }
  assert (P0 : cmac_phi demo_ts [0; 0; 0; 1; 0]%R = [1; 0; 0; 0; 0]%R).
  { assert (Q : tile_call [(0, 10)]%R [5] [0; 0; 0; 1; 0]%R = Some 0).
    { rewrite <- (T 0%R 0) by (simpl; lra || lia). unfold tile_call, tile_loop. destruct (in_rangeb _ _); auto. }
    unfold cmac_phi, answers, demo_ts. simpl map. rewrite Q. reflexivity. }
  exists [[0; 0; 0; 1; 0]%R], [7%R], [1; 0; 0; 0; 0]%R, [0; 0; 0; 1; 0]%R.
  split; [repeat constructor|]. split; [discriminate|]. split; [unfold cmac_diff; rewrite P7, P0; reflexivity|]. split; [reflexivity|].
  unfold cmac_row, cmac_indexes, answers, demo_ts. simpl map. rewrite (T 7%R 3) by (simpl; lra || lia). simpl. lra.
Qed.

(** * One regressor per action *)
Section ActionReg.
Variables M X : Type.
Variable pred : M -> X -> R.
Variable fit1 : M -> list X -> list R -> M.
Variables (dx : X) (dm : M).

(** predict(s, a) is entry [a] of predict(s); an action without regressor gives 0. *)
Theorem action_regressor_predict : forall ms states actions k, length actions = length states -> k < length states ->
  nth k (ar_predict_sa M X pred dx dm ms states actions) 0%R =
    (if nth k actions 0 <? length ms then nth (nth k actions 0) (nth k (ar_predict_s M X pred dm ms states) []) 0%R else 0%R).
Proof.
  intros ms states actions k L Hk. unfold ar_predict_sa.
  set (step := fun q i => _).
  assert (G : forall n a q, length q = length states ->
    nth k (fold_left step (seq a n) q) 0%R =
      (if (a <=? nth k actions 0) && (nth k actions 0 <? a + n) then pred (nth (nth k actions 0) ms dm) (nth k states dx) else nth k q 0%R)).
  { induction n as [|n IH]; intros a q HQ.
    - simpl. destruct (Nat.leb_spec a (nth k actions 0)), (Nat.ltb_spec (nth k actions 0) (a + 0)); simpl; auto; lia.
    - cbn [seq fold_left]. assert (SL : length (step q a) = length states).
      { unfold step. destruct (Nat.eqb _ 0); auto. rewrite scatter_length. auto. }
      rewrite IH by auto. clear IH.
      destruct (Nat.eq_dec (nth k actions 0) a) as [E|NE].
      + assert (IN : In k (idxs_of actions a)) by (apply idxs_spec; split; auto; lia).
        replace (nth k (step q a) 0%R) with (pred (nth a ms dm) (nth k states dx)).
        * rewrite E. rewrite (proj2 (Nat.leb_gt (S a) a)) by lia. simpl. rewrite Nat.leb_refl. destruct (Nat.ltb_spec a (a + S n)); [reflexivity|lia].
        * unfold step. destruct (Nat.eqb_spec (length (idxs_of actions a)) 0) as [Z|_]; [destruct (idxs_of actions a); [inversion IN|discriminate]|].
          unfold gather. rewrite map_map. rewrite (scatter_in _ (fun x => pred (nth a ms dm) (nth x states dx))) by (auto using idxs_NoDup; lia). reflexivity.
      + replace (nth k (step q a) 0%R) with (nth k q 0%R).
        * destruct (Nat.leb_spec (S a) (nth k actions 0)), (Nat.leb_spec a (nth k actions 0)), (Nat.ltb_spec (nth k actions 0) (S a + n)), (Nat.ltb_spec (nth k actions 0) (a + S n)); simpl; auto; lia.
        * unfold step. destruct (Nat.eqb _ 0); auto. rewrite scatter_notin; auto. intros I. apply idxs_spec in I. tauto. }
  rewrite G by apply repeat_length. simpl plus. rewrite (proj2 (Nat.leb_le 0 (nth k actions 0))) by lia. simpl andb.
  destruct (Nat.ltb_spec (nth k actions 0) (length ms)) as [B|B].
  - unfold ar_predict_s. rewrite (map_nth_in _ _ _ _ _ [] dx) by auto. rewrite (map_nth_in _ _ _ _ _ 0%R 0) by (rewrite seq_length; auto). rewrite seq_nth by auto. reflexivity.
  - apply nth_repeat.
Qed.

(** fit gives regressor [i] the samples of action [i], in order, and leaves a regressor
    without samples as it is. *)
Theorem action_regressor_fit : forall ms states actions q i, length actions = length states -> length q = length states -> i < length ms ->
  let mine := filter (fun z => snd (fst z) =? i) (combine (combine states actions) q) in
  nth i (ar_fit M X fit1 dx dm ms states actions q) dm =
    (if (length mine =? 0) then nth i ms dm else fit1 (nth i ms dm) (map (fun z => fst (fst z)) mine) (map snd mine)).
Proof.
  intros ms states actions q i L1 L2 Hi mine.
  assert (GA : forall A (d : A) (l : list A), length l = length actions -> gather d l (idxs_of actions i) = map snd (filter (fun z => fst z =? i) (combine actions l))).
  { clear. intros A d l. unfold gather, idxs_of. revert actions. induction l as [|x l IH]; intros [|a actions] H; try discriminate; auto. cbn [length] in *. cbn [seq combine].
    rewrite <- seq_shift.
    assert (F : forall l0, map (fun k => nth k (x :: l) d) (filter (fun k => nth k (a :: actions) 0 =? i) (map S l0)) = map (fun k => nth k l d) (filter (fun k => nth k actions 0 =? i) l0)).
    { induction l0 as [|y l0 IHl]; [reflexivity|]. cbn [map filter]. change (nth (S y) (a :: actions) 0) with (nth y actions 0).
      destruct (nth y actions 0 =? i); [|exact IHl]. cbn [map]. rewrite IHl. reflexivity. }
    cbn [filter fst]. change (nth 0 (a :: actions) 0) with a.
    destruct (a =? i); cbn [map]; rewrite F, (IH actions) by lia; reflexivity. }
  assert (M1 : gather dx states (idxs_of actions i) = map (fun z => fst (fst z)) mine /\ gather 0%R q (idxs_of actions i) = map snd mine /\ length (idxs_of actions i) = length mine).
  { rewrite !GA by lia. split; [|split].
    - unfold mine. clear - L1 L2. revert actions q L1 L2. induction states as [|s st IH]; intros [|a ac] [|v q] L1 L2; simpl in *; try discriminate; auto.
      destruct (a =? i); simpl; rewrite (IH ac q) by lia; reflexivity.
    - unfold mine. clear - L1 L2. revert actions q L1 L2. induction states as [|s st IH]; intros [|a ac] [|v q] L1 L2; simpl in *; try discriminate; auto.
      destruct (a =? i); simpl; rewrite (IH ac q) by lia; reflexivity.
    - rewrite <- (map_length (fun k => nth k states dx)). fold (gather dx states (idxs_of actions i)). rewrite GA by lia. rewrite map_length.
      unfold mine. clear - L1 L2. revert actions q L1 L2. induction states as [|s st IH]; intros [|a ac] [|v q] L1 L2; simpl in *; try discriminate; auto.
      destruct (a =? i); simpl; rewrite (IH ac q) by lia; reflexivity. }
  destruct M1 as (E1 & E2 & E3). unfold ar_fit. set (step := fun ms0 i0 => _).
  assert (G : forall n a cur, length cur = length ms -> (a + n <= length ms) -> (forall k, a <= k -> nth k cur dm = nth k ms dm) ->
    nth i (fold_left step (seq a n) cur) dm =
      (if (a <=? i) && (i <? a + n) then (if length mine =? 0 then nth i ms dm else fit1 (nth i ms dm) (map (fun z => fst (fst z)) mine) (map snd mine)) else nth i cur dm)).
  { induction n as [|n IH]; intros a cur HL HB HC.
    - simpl. destruct (Nat.leb_spec a i), (Nat.ltb_spec i (a + 0)); simpl; auto; lia.
    - cbn [seq fold_left].
      assert (SL : length (step cur a) = length ms) by (unfold step; destruct (length (idxs_of actions a) =? 0); rewrite ?setnth_length; auto).
      rewrite IH; auto; try lia.
      + destruct (Nat.eq_dec a i) as [->|NE].
        * rewrite (proj2 (Nat.leb_gt (S i) i)) by lia. rewrite Nat.leb_refl. destruct (Nat.ltb_spec i (i + S n)); [|lia]. simpl andb. cbv iota.
          unfold step. rewrite E3. destruct (length mine =? 0) eqn:Z; [apply HC; auto|].
          rewrite nth_setnth_eq by lia. rewrite E1, E2, HC by lia. reflexivity.
        * replace (nth i (step cur a) dm) with (nth i cur dm).
          -- destruct (Nat.leb_spec (S a) i), (Nat.leb_spec a i), (Nat.ltb_spec i (S a + n)), (Nat.ltb_spec i (a + S n)); simpl; auto; lia.
          -- unfold step. destruct (length (idxs_of actions a) =? 0); auto. rewrite nth_setnth_neq; auto.
      + intros k Hk. unfold step. destruct (length (idxs_of actions a) =? 0); [apply HC; lia|]. rewrite nth_setnth_neq by lia. apply HC. lia. }
  rewrite G by (auto; lia). simpl plus. rewrite (proj2 (Nat.leb_le 0 i)) by lia. rewrite (proj2 (Nat.ltb_lt i _)) by auto. reflexivity.
Qed.
End ActionReg.

(** Flat weights of the action regressor: the blocks of the models one after the other. *)
Theorem action_weights_roundtrip : forall r c ms w, ms <> [] -> 0 < r -> Forall (fun W => rect c W /\ length W = r) ms ->
  (length w = length ms * (r * c) -> exists ms', ar_set ms w = Some ms' /\ ar_get ms' = w /\ length ms' = length ms) /\
  ar_set ms (ar_get ms) = Some ms.
Proof.
  intros r c ms w NE Hr F.
  assert (HS : weights_size (hd [] ms) = r * c).
  { destruct ms as [|m ms]; [congruence|]. inversion F as [|? ? [A B] _]; subst. simpl. unfold weights_size. rewrite (rect_hd c m A); [auto|]. destruct m; [simpl in Hr; lia|discriminate]. }
  assert (NN : forall W : list (list R), length W = r -> W <> []) by (intros [|] E; [simpl in E; lia|discriminate]).
  assert (G : forall ms i w pre, Forall (fun W => rect c W /\ length W = r) ms -> length pre = i * (r * c) -> length w = length ms * (r * c) ->
    exists ms', ar_set_loop (r * c) i ms (pre ++ w) = Some ms' /\ ar_get ms' = w /\ length ms' = length ms).
  { clear - NN. induction ms as [|m ms IH]; intros i w pre F HP HW.
    - exists []. destruct w; [|discriminate]. auto.
    - inversion F as [|? ? [A B] F']; subst. cbn [ar_set_loop]. simpl in HW.
      assert (SL : slice (i * (length m * c)) (i * (length m * c) + length m * c) (pre ++ w) = firstn (length m * c) w).
      { unfold slice. rewrite skipn_app, skipn_all2 by lia. rewrite HP, Nat.sub_diag. simpl. f_equal. lia. }
      rewrite SL. destruct (linear_weights_roundtrip c m (firstn (length m * c) w)) as [P _]; auto.
      destruct P as (m' & E1 & E2 & _ & _); [rewrite firstn_length; lia|]. rewrite E1.
      destruct (IH (S i) (skipn (length m * c) w) (pre ++ firstn (length m * c) w)) as (ms' & E3 & E4 & E5); auto.
      + rewrite app_length, firstn_length, HP. simpl. lia.
      + rewrite skipn_length. lia.
      + rewrite <- app_assoc, firstn_skipn in E3. rewrite E3. eexists. split; [reflexivity|]. split; [|simpl; auto].
        unfold ar_get in *. simpl. unfold lin_get in *. rewrite E2, E4. apply firstn_skipn. }
  unfold ar_set. rewrite HS. split.
  - intros L. destruct (G ms 0 w [] F) as (ms' & A & B & C); auto. simpl in A. eauto.
  - clear G w NE HS.
    assert (G : forall ms i pre, Forall (fun W => rect c W /\ length W = r) ms -> length pre = i * (r * c) -> ar_set_loop (r * c) i ms (pre ++ ar_get ms) = Some ms).
    { clear - NN. induction ms as [|m ms IH]; intros i pre F HP; [reflexivity|]. inversion F as [|? ? [A B] F']; subst. cbn [ar_set_loop].
      unfold ar_get. simpl. fold (ar_get ms).
      assert (SL : slice (i * (length m * c)) (i * (length m * c) + length m * c) (pre ++ lin_get m ++ ar_get ms) = lin_get m).
      { unfold slice. rewrite skipn_app, skipn_all2 by lia. rewrite HP, Nat.sub_diag. simpl.
        replace (i * (length m * c) + length m * c - i * (length m * c)) with (length (lin_get m)) by (unfold lin_get; rewrite (rect_concat c); auto; lia).
        rewrite firstn_app, Nat.sub_diag, firstn_all. simpl. apply app_nil_r. }
      rewrite SL. destruct (linear_weights_roundtrip c m []) as (_ & _ & P); auto. rewrite P. rewrite app_assoc. rewrite IH; auto.
      rewrite app_length, HP. unfold lin_get. rewrite (rect_concat c) by auto. simpl. lia. }
    apply (G ms 0 []); auto.
Qed.

(** diff of the action regressor (linear models with one output) is the gradient. *)
Theorem action_diff_gradient : forall c ms phi a, Forall (fun W => exists w, W = [w] /\ length w = c) ms -> length phi = c -> a < length ms ->
  dot (ar_get ms) (ar_diff ms phi a) = nth 0 (lin_row (nth a ms []) phi) 0%R /\ length (ar_diff ms phi a) = length (ar_get ms).
Proof.
  intros c ms phi a F HP Ha. set (W := map (fun m => hd [] m) ms).
  assert (HR : rect c W). { apply Forall_forall. intros r Hr. unfold W in Hr. apply in_map_iff in Hr. destruct Hr as (m & <- & Hm). eapply Forall_forall in F; eauto. destruct F as (w & -> & L). auto. }
  assert (LW : length W = length ms) by apply map_length.
  assert (GE : ar_get ms = concat W).
  { unfold ar_get, W. clear - F. induction ms as [|m ms IH]; simpl; auto. inversion F as [|? ? (w & -> & _) F']; subst. cbn [map concat hd]. change (lin_get [w]) with (w ++ []). rewrite app_nil_r, IH; auto. }
  assert (NA : exists w, nth a ms [] = [w] /\ length w = c) by (eapply Forall_forall in F; [eauto|apply nth_In; auto]).
  destruct NA as (w & NA & LWc). assert (NW : nth a W [] = w). { unfold W. rewrite (map_nth_in _ _ _ _ _ [] []) by auto. rewrite NA. reflexivity. }
  unfold ar_diff. rewrite NA. unfold weights_size, n_phi. simpl hd. change (length [w]) with 1. rewrite LWc, Nat.mul_1_l, GE.
  destruct (dot_block c W a phi HR HP ltac:(lia)) as [D1 D2]. rewrite LW in D1, D2.
  rewrite (Nat.mul_comm c a). split.
  - rewrite D1, NW. unfold lin_row. reflexivity.
  - rewrite D2. rewrite (rect_concat c) by auto. lia.
Qed.

(** * Ensembles *)
Lemma lmin_spec : forall l, l <> [] -> In (lmin l) l /\ forall x, In x l -> (lmin l <= x)%R.
Proof.
  intros [|x l] N; [congruence|]. unfold lmin. simpl. clear N. revert x. induction l as [|y l IH]; intros x; simpl.
  - split; auto. intros z [<-|[]]. lra.
  - destruct (IH (Rmin x y)) as [A B]. split.
    + destruct A as [A|A]; [|tauto]. rewrite <- A. unfold Rmin. destruct (Rle_dec x y); auto.
    + intros z [<-|[<-|Hz]].
      * pose proof (B _ (or_introl eq_refl)). pose proof (Rmin_l x y). lra.
      * pose proof (B _ (or_introl eq_refl)). pose proof (Rmin_r x y). lra.
      * apply B. auto.
Qed.
Lemma lmax_spec : forall l, l <> [] -> In (lmax l) l /\ forall x, In x l -> (x <= lmax l)%R.
Proof.
  intros [|x l] N; [congruence|]. unfold lmax. simpl. clear N. revert x. induction l as [|y l IH]; intros x; simpl.
  - split; auto. intros z [<-|[]]. lra.
  - destruct (IH (Rmax x y)) as [A B]. split.
    + destruct A as [A|A]; [|tauto]. rewrite <- A. unfold Rmax. destruct (Rle_dec x y); auto.
    + intros z [<-|[<-|Hz]].
      * pose proof (B _ (or_introl eq_refl)). pose proof (Rmax_l x y). lra.
      * pose proof (B _ (or_introl eq_refl)). pose proof (Rmax_r x y). lra.
      * apply B. auto.
Qed.

(** The aggregations: min and max are attained bounds, the mean lies between them, the sum is
    n times the mean, and the variances are the usual ones (population for numpy, sample for
    torch), zero exactly when the models agree. *)
Theorem ensemble_aggregation : forall preds, preds <> [] ->
  let n := INR (length preds) in
  In (ens_predict EMin preds) preds /\ In (ens_predict EMax preds) preds /\
  (forall p, In p preds -> (ens_predict EMin preds <= p <= ens_predict EMax preds)%R) /\
  (ens_predict EMin preds <= ens_predict EMean preds <= ens_predict EMax preds)%R /\
  ens_predict ESum preds = (n * ens_predict EMean preds)%R /\
  ens_var false preds = (rsum (map (fun p => p ^ 2) preds) / n - ens_predict EMean preds ^ 2)%R /\
  (0 <= ens_var false preds)%R /\
  (ens_var false preds = 0%R <-> forall p, In p preds -> p = ens_predict EMean preds) /\
  ((2 <= length preds) -> (n * ens_var false preds = (n - 1) * ens_var true preds)%R).
Proof.
  intros preds NE n. assert (HN : (1 <= n)%R). { unfold n. destruct preds; [congruence|]. rewrite length_cons, S_INR. pose proof (pos_INR (length preds)). lra. }
  destruct (lmin_spec preds NE) as [A1 A2]. destruct (lmax_spec preds NE) as [B1 B2]. cbn [ens_predict].
  split; auto. split; auto. split; [intros p Hp; split; auto|].
  assert (SB : forall lo hi l, (forall p, In p l -> lo <= p <= hi)%R -> (INR (length l) * lo <= rsum l <= INR (length l) * hi)%R).
  { intros lo hi. induction l as [|x l IH]; intros H; [simpl; lra|]. rewrite length_cons, S_INR. simpl rsum. pose proof (H x (or_introl eq_refl)). assert (forall p, In p l -> (lo <= p <= hi)%R) by (intros; apply H; simpl; auto). specialize (IH H1). lra. }
  specialize (SB (lmin preds) (lmax preds) preds (fun p Hp => conj (A2 p Hp) (B2 p Hp))). fold n in SB. fold n.
  split. { split; [apply Rmult_le_reg_r with n|apply Rmult_le_reg_r with n]; try lra; unfold Rdiv; rewrite Rmult_assoc, Rinv_l by lra; lra. }
  split. { field. lra. }
  set (m := (rsum preds / n)%R).
  assert (SQ : rsum (map (fun p => (p - m) ^ 2)%R preds) = (rsum (map (fun p => p ^ 2) preds) - n * m ^ 2)%R).
  { assert (Q : forall l, rsum (map (fun p => (p - m) ^ 2)%R l) = (rsum (map (fun p => p ^ 2) l) - 2 * m * rsum l + INR (length l) * m ^ 2)%R).
    { induction l as [|x l IH]; [simpl; lra|]. rewrite length_cons, S_INR. cbn [map rsum]. rewrite IH. ring. }
    rewrite Q. fold n. assert (rsum preds = n * m)%R by (unfold m; field; lra). rewrite H. ring. }
  assert (NS : (0 <= rsum (map (fun p => (p - m) ^ 2)%R preds))%R). { apply rsum_nonneg. intros x Hx. apply in_map_iff in Hx. destruct Hx as (y & <- & _). apply pow2_ge_0. }
  unfold ens_var. fold n. fold m. split. { rewrite SQ. field. lra. }
  split. { apply Rmult_le_pos; [auto|]. left. apply Rinv_0_lt_compat. lra. }
  split.
  - split.
    + intros Z p Hp. assert (Z' : rsum (map (fun p => (p - m) ^ 2)%R preds) = 0%R).
      { apply (Rmult_eq_reg_r (/ n)); [|apply Rinv_neq_0_compat; lra]. rewrite Rmult_0_l. exact Z. }
      assert (L : ((p - m) ^ 2 <= 0)%R).
      { rewrite <- Z'. apply rsum_in_le.
        - intros y Hy. apply in_map_iff in Hy. destruct Hy as (z & <- & _). apply pow2_ge_0.
        - apply (in_map (fun p => (p - m) ^ 2)%R). auto. }
      assert (p - m = 0)%R by (pose proof (pow2_ge_0 (p - m)); nra). lra.
    + intros H. rewrite (rsum_map_ext _ _ (fun _ => 0%R)); [rewrite rsum_map_const; unfold Rdiv; ring|]. intros p Hp. rewrite (H p Hp). ring.
  - intros L2. assert (2 <= n)%R. { unfold n. replace 2%R with (INR 2) by (simpl; lra). apply le_INR. auto. } field. lra.
Qed.

(** * Sharing of the weight buffer *)

(** set_weights keeps the caller's array: a later CMAC fit overwrites it. *)
Theorem set_weights_shares_buffer_refuted : exists (ts : tilings unit) (h h' : heap) v addr,
  addr <> v_addr v /\ view_fit ts 1 h (view_set v addr) [tt] [[5%R]] = Some h' /\ h addr = [0%R] /\ h' addr = [5%R].
Proof.
  exists [(1, fun _ => Some 0)], (fun _ => [0%R]).
  assert (E : exists W, cmac_fit [(1, fun _ : unit => Some 0)] 1 [[0%R]] [tt] [[5%R]] = Some W /\ concat W = [5%R]).
  { unfold cmac_fit. simpl. unfold cmac_phi, tf_call. simpl.
    destruct (Req_EM_T (1 + 0) 0); [lra|]. simpl. eexists. split; [reflexivity|]. simpl. unfold cmac_dw, cmac_phi, tf_call. simpl.
    destruct (Req_EM_T (1 + 0) 0); [lra|]. f_equal. field. }
  destruct E as (W & E1 & E2).
  exists (fun a => if Nat.eqb a 1 then concat W else [0%R]), {| v_addr := 0; v_rows := 1; v_cols := 1 |}, 1.
  split; [discriminate|]. split; [|split; [reflexivity|exact E2]]. unfold view_fit, view_rows. cbn [view_set v_addr v_rows v_cols chunk firstn]. rewrite E1. reflexivity.
Qed.

(** * Concrete cases *)
Example linear_demo : lin_set [[0; 0]; [0; 0]; [0; 0]]%R [1; 2; 3; 4; 5; 6]%R = Some [[1; 2]; [3; 4]; [5; 6]]%R /\
  lin_diff [[1; 2]; [3; 4]; [5; 6]]%R [7; 8]%R (Some 1) = Some (GVec [0; 0; 7; 8; 0; 0]%R).
Proof. split; reflexivity. Qed.
Example action_demo : ar_set [[[0; 0]]; [[0; 0]]]%R [1; 2; 3; 4]%R = Some [[[1; 2]]; [[3; 4]]]%R /\ ar_diff [[[1; 2]]; [[3; 4]]]%R [7; 8]%R 1 = [0; 0; 7; 8]%R.
Proof. split; reflexivity. Qed.
Example action_fit_demo : ar_fit (list R) nat (fun m xs q => m ++ q) 0 [] [[]; [9%R]; []] [10; 11; 12; 13] [0; 2; 0; 2] [1; 2; 3; 4]%R = [[1; 3]; [9]; [2; 4]]%R.
Proof. reflexivity. Qed.
Example ensemble_demo : ens_predict EMin [3; 1; 2]%R = 1%R /\ ens_predict EMax [3; 1; 2]%R = 3%R /\ ens_predict EMean [3; 1; 2]%R = 2%R /\
  ens_var false [3; 1; 2]%R = (2 / 3)%R /\ ens_var true [3; 1; 2]%R = 1%R.
Proof.
  unfold ens_predict, ens_var, lmin, lmax. simpl. unfold Rmin, Rmax. repeat split; repeat destruct (Rle_dec _ _); try lra; field.
Qed.

Print Assumptions linear_weights_roundtrip.
Print Assumptions linear_diff_gradient.
Print Assumptions q_regressor_linear.
Print Assumptions linear_fit_least_squares.
Print Assumptions cmac_predict_linear.
Print Assumptions cmac_fit_average.
Print Assumptions cmac_fit_relax.
Print Assumptions cmac_fit_fixpoint.
Print Assumptions q_regressor_cmac.
Print Assumptions regressor_single_state_cmac_refuted.
Print Assumptions cmac_diff_refuted.
Print Assumptions action_regressor_predict.
Print Assumptions action_regressor_fit.
Print Assumptions action_weights_roundtrip.
Print Assumptions action_diff_gradient.
Print Assumptions ensemble_aggregation.
Print Assumptions set_weights_shares_buffer_refuted.

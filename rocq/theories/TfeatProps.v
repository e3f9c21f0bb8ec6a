(** Theorems about torch feature tensors (C83). *)
From Coq Require Import List Arith Lia Reals Lra Bool.
From Verif Require Import Common FeatModel FeatProps TfeatModel.
Import ListNotations.
Local Open Scope R_scope.

Definition all_fns (ms : list tensor_mod) : list (list R -> R) := concat (map tm_fns ms).
Lemma tf_total_len : forall ms, tf_total ms = length (all_fns ms).
Proof.
  intros ms. unfold tf_total, all_fns. 
  assert (G : forall l a, fold_left Nat.add (map (fun m => length (tm_fns m)) l) a = (a + length (concat (map tm_fns l)))%nat).
  { induction l as [|m l IH]; intros a; simpl; [lia|]. rewrite IH, app_length. lia. }
  rewrite G. reflexivity.
Qed.
Lemma combine_map2 : forall {A B C D} (f : A -> B) (g : A -> C) (h : B * C -> D) (l : list A),
  map h (combine (map f l) (map g l)) = map (fun x => h (f x, g x)) l.
Proof. induction l; simpl; congruence. Qed.
Definition ok_mod (m : tensor_mod) : Prop := tm_squeeze m = true -> length (tm_fns m) <> 1%nat.
Lemma cat_ok : forall ms xs, Forall ok_mod ms ->
  cat1 (length xs) (map (fun m => tm_forward m xs) ms) = Some (map (fun x => map (fun f => f x) (all_fns ms)) xs).
Proof.
  induction ms as [|m ms IH]; intros xs F; simpl.
  - f_equal. induction xs; simpl; congruence.
  - inversion F as [|? ? Hm Fm]; subst. unfold tm_forward at 1.
    replace (tm_squeeze m && Nat.eqb (length (tm_fns m)) 1)%bool with false.
    2:{ destruct (tm_squeeze m) eqn:E; [|reflexivity]. symmetry. apply Nat.eqb_neq. apply Hm. exact E. }
    rewrite IH by auto. f_equal. rewrite combine_map2. apply map_ext. intros x. cbn [fst snd]. unfold all_fns. simpl. rewrite map_app. reflexivity.
Qed.

(** TorchFeatures built from modules that have at least two centres each (constant and Fourier modules may have one), with
    at least two features in all, evaluates to the features of its functions in the order of the modules, in the
    same shape as BasisFeatures: a vector for one state and one row per state for more. *)
Theorem torch_features_value : forall ms xs, Forall ok_mod ms -> (2 <= tf_total ms)%nat -> xs <> [] ->
  torch_features ms xs = Some (basis_features (all_fns ms) xs).
Proof.
  intros ms xs F H2 Hx. unfold torch_features. rewrite cat_ok by auto. unfold basis_features.
  replace (Nat.eqb (tf_total ms) 1) with false by (symmetry; apply Nat.eqb_neq; lia).
  destruct xs as [|x [|x' xs]]; [congruence| |reflexivity]. simpl. rewrite app_nil_r. reflexivity.
Qed.

(** The Gaussian tensor and the list of Gaussian basis functions generated with the same arguments are interchangeable. *)
Theorem gauss_tensor_agrees : forall ns low high dim eta xs, (2 <= length (uniform_grid false ns low high))%nat -> xs <> [] ->
  torch_features [gauss_tensor ns low high dim eta false] xs = Some (basis_features (rbf_generate ns low high dim eta) xs).
Proof.
  intros ns low high dim eta xs H2 Hx. rewrite torch_features_value; auto.
  - unfold all_fns, gauss_tensor, basis_tensor. simpl. rewrite app_nil_r. reflexivity.
  - constructor; [|constructor]. intros _. unfold gauss_tensor, basis_tensor. cbn [tm_fns]. rewrite map_length. lia.
  - rewrite tf_total_len. unfold all_fns, gauss_tensor, basis_tensor. simpl. rewrite app_nil_r, map_length. exact H2.
Qed.

(** With one centre they are not: the module drops its feature dimension and concatenation raises, whatever the states. *)
Theorem single_center_refuted : forall m ms xs, tm_squeeze m = true -> length (tm_fns m) = 1%nat -> torch_features (m :: ms) xs = None.
Proof.
  intros m ms xs E1 E2. unfold torch_features. simpl. unfold tm_forward at 1. rewrite E1, E2. reflexivity.
Qed.
(** A single feature in all cannot be evaluated in one state, and for a batch it comes back as a vector, unlike
    BasisFeatures, which returns one row per state. *)
Theorem single_feature_refuted : forall m xs f, tm_squeeze m = false -> tm_fns m = [f] ->
  (forall x, torch_features [m] [x] = None) /\
  ((2 <= length xs)%nat -> torch_features [m] xs = Some (F1 (map f xs)) /\ basis_features [f] xs = F2 (map (fun x => [f x]) xs)).
Proof.
  intros m xs f E1 E2. split.
  - intros x. unfold torch_features. simpl. unfold tm_forward at 1. rewrite E1, E2. simpl. unfold tf_total. simpl. rewrite E2. reflexivity.
  - intros H. split.
    + unfold torch_features. rewrite cat_ok by (constructor; [|constructor]; intros E; congruence).
      replace (Nat.eqb (length xs) 1) with false by (symmetry; apply Nat.eqb_neq; lia).
      replace (Nat.eqb (tf_total [m]) 1) with true by (unfold tf_total; simpl; rewrite E2; reflexivity).
      do 2 f_equal. unfold all_fns. simpl. rewrite E2. simpl. clear. induction xs as [|x xs IH]; simpl; congruence.
    + unfold basis_features. destruct xs as [|x [|x' xs]]; simpl in *; try lia. reflexivity.
Qed.

(** Normalised features of positive functions are positive and sum to one in every state, and keep their ratios. *)
Theorem normalize_partition : forall fs x, fs <> [] -> (forall f, In f fs -> 0 < f x) ->
  rsum (map (fun f => f x) (normalize fs)) = 1 /\ (forall f, In f (normalize fs) -> 0 < f x <= 1) /\
  (forall i j d, (i < length fs)%nat -> (j < length fs)%nat -> nth i (normalize fs) d x / nth j (normalize fs) d x = nth i fs d x / nth j fs d x).
Proof.
  intros fs x NE Hp. set (s := rsum (map (fun g => g x) fs)).
  assert (Ps : 0 < s).
  { unfold s. destruct fs as [|f fs]; [congruence|]. simpl. assert (0 <= rsum (map (fun g => g x) fs)).
    { clear NE. assert (forall f', In f' fs -> 0 < f' x) by (intros; apply Hp; right; auto). clear Hp. induction fs as [|h fs IH]; simpl; [lra|].
      assert (0 < h x) by (apply H; left; auto). assert (0 <= rsum (map (fun g => g x) fs)) by (apply IH; intros; apply H; right; auto). lra. }
    specialize (Hp f (or_introl eq_refl)). lra. }
  assert (E : rsum (map (fun f => f x) (normalize fs)) = s / s).
  { assert (G : forall c (l : list (list R -> R)), rsum (map (fun f => f x / c) l) = rsum (map (fun f => f x) l) / c).
    { intros c l. induction l as [|f l IH]; simpl; [unfold Rdiv; ring|]. rewrite IH. unfold Rdiv. ring. }
    unfold normalize. rewrite map_map. apply (G s fs). }
  split; [rewrite E; field; lra|]. split.
  - intros f I. unfold normalize in I. apply in_map_iff in I. destruct I as [g [<- I]]. fold s.
    assert (G : g x <= s).
    { unfold s. clear - I Hp. induction fs as [|h fs IH]; [destruct I|]. simpl. 
      assert (N : 0 <= rsum (map (fun f => f x) fs)).
      { assert (forall f', In f' fs -> 0 < f' x) by (intros; apply Hp; right; auto). clear - H. induction fs as [|h fs IH]; simpl; [lra|].
        assert (0 < h x) by (apply H; left; auto). assert (0 <= rsum (map (fun f => f x) fs)) by (apply IH; intros; apply H; right; auto). lra. }
      destruct I as [->|I]; [lra|]. assert (0 < h x) by (apply Hp; left; auto). assert (g x <= rsum (map (fun f => f x) fs)) by (apply IH; auto; intros; apply Hp; right; auto). lra. }
    specialize (Hp g I). split; [apply Rdiv_lt_0_compat; auto|]. apply Rmult_le_reg_r with s; [auto|]. unfold Rdiv. rewrite Rmult_assoc, Rinv_l by lra. lra.
  - intros i j d Hi Hj. assert (N : forall k, (k < length fs)%nat -> nth k (normalize fs) d x = nth k fs d x / s).
    { intros k Hk. unfold normalize. set (F := fun f : list R -> R => fun y : list R => f y / rsum (map (fun g : list R -> R => g y) fs)).
      rewrite (nth_indep _ d (F d)) by (rewrite map_length; auto). rewrite (map_nth F). reflexivity. }
    rewrite !N by auto. assert (0 < nth j fs d x) by (apply Hp, nth_In; auto). field. split; lra.
Qed.

(** A generated basis function is a Gaussian bell whose standard deviation in each dimension is a third of the width of the grid: a state
    [k] j widths away from the centre in dimension j has the value of a standard normal density (up to its factor) at the point 3 k. *)
Fixpoint off_by (mu w ks : list R) : list R := match mu, w, ks with m :: mu', v :: w', k :: ks' => (m + k * v) :: off_by mu' w' ks' | _, _, _ => [] end.
Theorem rbf_width : forall mu w ks, length w = length mu -> length ks = length mu -> Forall (fun v => v <> 0) w ->
  rbf_call mu (gauss_scale w) (off_by mu w ks) = exp (- (rsum (map (fun k => (3 * k) ^ 2) ks) / 2)).
Proof.
  intros mu w ks L1 L2 F. unfold rbf_call. do 2 f_equal. unfold gauss_scale.
  revert w ks L1 L2 F. induction mu as [|m mu IH]; intros [|v w] [|k ks] L1 L2 F; try discriminate; cbn [map combine off_by rsum fold_right].
  - unfold rsum; simpl. lra.
  - inversion F; subst. injection L1 as L1. injection L2 as L2. specialize (IH w ks L1 L2 H2). cbn [fst snd].
    change (rsum (?a :: ?l)) with (a + rsum l). rewrite IH. field. auto.
Qed.
Example rbf_width_demo : rbf_call [1; 2] (gauss_scale [2; 4]) [3; 2] = exp (- (9 / 2)).
Proof.
  replace [3; 2] with (off_by [1; 2] [2; 4] [1; 0]) by (simpl; repeat (f_equal; try lra)).
  rewrite rbf_width; [|reflexivity|reflexivity|repeat constructor; lra]. f_equal. unfold rsum. simpl. field.
Qed.
(** With normalized=True the features of a state are positive, sum to one, and are proportional to the basis functions. *)
Theorem gauss_tensor_normalized : forall ns low high dim eta x, (2 <= length (uniform_grid false ns low high))%nat ->
  exists l c, torch_features [gauss_tensor ns low high dim eta true] [x] = Some (F1 l) /\ rsum l = 1 /\ Forall (fun v => 0 < v) l /\ 0 < c /\
    map (fun f => f x) (rbf_generate ns low high dim eta) = map (Rmult c) l.
Proof.
  intros ns low high dim eta x H2. set (fs := rbf_generate ns low high dim eta).
  assert (Lf : length fs = length (uniform_grid false ns low high)) by (unfold fs, rbf_generate; apply map_length).
  assert (Hp : forall f, In f fs -> 0 < f x).
  { intros f I. unfold fs, rbf_generate in I. apply in_map_iff in I. destruct I as [m [<- _]]. unfold rbf_call. apply exp_pos. }
  assert (NE : fs <> []) by (intros E; rewrite E in Lf; simpl in Lf; lia).
  destruct (normalize_partition fs x NE Hp) as [S1 [P1 _]].
  exists (map (fun f => f x) (normalize fs)), (rsum (map (fun g => g x) fs)).
  assert (A : all_fns [gauss_tensor ns low high dim eta true] = normalize fs).
  { unfold all_fns, gauss_tensor, basis_tensor. simpl. rewrite app_nil_r. reflexivity. }
  assert (Ln : length (normalize fs) = length fs) by (unfold normalize; apply map_length).
  assert (Ps : 0 < rsum (map (fun g => g x) fs)).
  { destruct fs as [|f fs']; [congruence|]. assert (0 < f x) by (apply Hp; left; auto).
    assert (0 <= rsum (map (fun g => g x) fs')); [|simpl; unfold rsum in *; simpl in *; lra].
    assert (Q : forall f', In f' fs' -> 0 < f' x) by (intros; apply Hp; right; auto). clear - Q.
    induction fs' as [|h l IH]; simpl; [lra|]. assert (0 < h x) by (apply Q; left; auto).
    assert (0 <= rsum (map (fun g => g x) l)) by (apply IH; intros; apply Q; right; auto). lra. }
  split; [|split; [auto|split; [|split; [auto|]]]].
  - rewrite torch_features_value.
    + unfold basis_features. rewrite A. reflexivity.
    + constructor; [|constructor]. intros _. unfold gauss_tensor, basis_tensor. cbn [tm_fns]. unfold normalize. rewrite !map_length. lia.
    + rewrite tf_total_len, A, Ln, Lf. auto.
    + discriminate.
  - apply Forall_forall. intros v I. apply in_map_iff in I. destruct I as [f [<- I]]. apply P1; auto.
  - unfold normalize. rewrite !map_map. apply map_ext. intros f. field. lra.
Qed.

(** * Von Mises features *)
Lemma cos_int_period : forall (k : Z) x, cos (x + 2 * PI * IZR k) = cos x.
Proof.
  assert (P : forall n x, cos (x + 2 * PI * INR n) = cos x).
  { intros n x. replace (x + 2 * PI * INR n) with (x + 2 * INR n * PI) by ring. apply cos_period. }
  intros k x. destruct (Z_le_dec 0 k) as [H|H].
  - rewrite <- (Z2Nat.id k) by lia. rewrite <- INR_IZR_INZ. apply P.
  - rewrite <- (P (Z.to_nat (- k)) (x + 2 * PI * IZR k)). f_equal. rewrite INR_IZR_INZ, Z2Nat.id by lia. rewrite opp_IZR. ring.
Qed.
Fixpoint shift_by (x : list R) (ks : list Z) : list R := match x, ks with v :: x', k :: ks' => (v + IZR k) :: shift_by x' ks' | _, _ => x end.
(** Values in (0, 1], the value 1 at the centre, and period one in every coordinate. *)
Theorem von_mises_range : forall mu scale x, length mu = length scale -> length x = length mu -> Forall (fun s => 0 < s) scale ->
  0 < von_mises mu scale x <= 1 /\ von_mises mu scale mu = 1 /\ (forall ks, von_mises mu scale (shift_by x ks) = von_mises mu scale x).
Proof.
  intros mu scale x L1 L2 F. split; [split; [apply exp_pos|]|split].
  - rewrite <- exp_0. unfold von_mises.
    assert (G : rsum (map (fun q => cos (2 * PI * (fst (fst q) - snd (fst q))) / snd q) (combine (combine x mu) scale)) <= rsum (map (fun s => / s) scale)).
    { clear - L1 L2 F. revert mu x L1 L2. induction F as [|s scale Hs F IH]; intros [|m mu] [|v x] L1 L2; simpl in *; try lia; [lra|].
      specialize (IH mu x ltac:(lia) ltac:(lia)). pose proof (COS_bound (2 * PI * (v - m))) as [_ C].
      assert (cos (2 * PI * (v - m)) / s <= / s). { unfold Rdiv. rewrite <- (Rmult_1_l (/ s)) at 2. apply Rmult_le_compat_r; [left; apply Rinv_0_lt_compat; auto|auto]. }
      lra. }
    destruct (Rle_lt_or_eq_dec _ _ G) as [L|E]; [left; apply exp_increasing; lra|right; f_equal; lra].
  - unfold von_mises. rewrite <- exp_0. f_equal. clear x L2.
    revert mu L1. induction F as [|s scale Hs F IH]; intros [|m mu] L1; simpl in *; try lia; [ring|]. specialize (IH mu ltac:(lia)).
    replace (2 * PI * (m - m)) with 0 by ring. rewrite cos_0. lra.
  - intros ks. unfold von_mises. do 2 f_equal. clear L1 L2 F. revert mu scale ks. induction x as [|v x IH]; intros mu scale ks; [reflexivity|].
    destruct ks as [|k ks]; [reflexivity|]. destruct mu as [|m mu]; [reflexivity|]. destruct scale as [|s scale]; [reflexivity|]. simpl. rewrite IH. do 2 f_equal.
    replace (2 * PI * (v + IZR k - m)) with (2 * PI * (v - m) + 2 * PI * IZR k) by ring. apply cos_int_period.
Qed.
(** The generated grid treats [low, high] as a ring, but the period is one whatever the range: over [0, 1/2] the
    two ends of the ring get different features. *)
Theorem von_mises_ring_refuted : forall eta, 0 < eta < 1 ->
  exists f, In f (tm_fns (von_mises_tensor [2%nat] [0] [/ 2] None eta false)) /\ f [0] <> f [/ 2].
Proof.
  intros eta He. eexists. split.
  - unfold von_mises_tensor, basis_tensor. cbn [tm_fns]. apply in_map_iff. exists [0]. split; [reflexivity|].
    unfold uniform_grid, grid_of, grid_centers, linspace. simpl. left. f_equal. unfold grid_dim, grid_row. simpl. ring.
  - cbn [pick]. unfold von_mises, grid_widths, grid_width. simpl. intros E. apply exp_inv in E.
    replace (2 * PI * (0 - 0)) with 0 in E by ring. replace (2 * PI * (/ 2 - 0)) with PI in E by field. rewrite cos_0, cos_PI in E.
    assert (W : 0 < (1 + eta) * Rabs (/ 2 - Rabs (/ 2 - 0) / (1 + 1) - 0) / (1 + 1)).
    { rewrite (Rabs_right (/ 2 - 0)) by lra. rewrite Rabs_right by lra. apply Rdiv_lt_0_compat; [apply Rmult_lt_0_compat; lra|lra]. }
    set (w := (1 + eta) * Rabs (/ 2 - Rabs (/ 2 - 0) / (1 + 1) - 0) / (1 + 1)) in *. assert (P : 0 < / w) by (apply Rinv_0_lt_compat; auto). unfold Rdiv in E. lra.
Qed.

(** * Random Fourier features *)
(** With n_output features requested, the generated tensors give n_output features in [-1, 1], the last of which is one when
    the bias is used; scaling the bandwidth is the same as scaling the input. *)
Theorem random_fourier : forall nu n bias P phi x, (bias = true -> (1 <= n)%nat) -> (forall k, length (P k) = k /\ length (phi k) = k) ->
  let fs := all_fns (fourier_generate_t nu n bias P phi) in
  length fs = n /\ Forall (fun f => -1 <= f x <= 1) fs /\ (bias = true -> last (map (fun f => f x) fs) 0 = 1) /\
  (forall c p b, 0 < c -> nu <> 0 -> fourier_fn (c * nu) p b (map (Rmult c) x) = fourier_fn nu p b x).
Proof.
  intros nu n bias P phi x Hn HP fs. unfold fs, all_fns, fourier_generate_t. split; [|split; [|split]].
  - destruct (HP (n - 1)%nat) as [A1 A2]. destruct (HP n) as [B1 B2]. destruct bias; simpl; rewrite app_length, map_length, combine_length; simpl; [specialize (Hn eq_refl)|]; lia.
  - rewrite Forall_forall. intros f I. destruct bias; simpl in I; rewrite ?app_nil_r in I; try (apply in_app_or in I; destruct I as [I|[<-|[]]]; [|lra]);
      apply in_map_iff in I; destruct I as [q [<- _]]; unfold fourier_fn; apply SIN_bound.
  - intros ->. simpl. rewrite map_app. simpl. apply last_last.
  - intros c p b Hc Hnu. unfold fourier_fn. do 2 f_equal.
    replace (rsum (map (fun q => fst q * snd q) (combine (map (Rmult c) x) p))) with (c * rsum (map (fun q => fst q * snd q) (combine x p))).
    + field. lra.
    + revert p. induction x as [|v x IH]; intros [|u p]; simpl; try ring. rewrite <- IH. ring.
Qed.

(** * Concrete cases *)
Example torch_features_demo : torch_features [fourier_tensor 1 [[0]] [0]; constant_tensor] [[5]; [7]] = Some (F2 [[sin (0 / 1 + 0); 1]; [sin (0 / 1 + 0); 1]]).
Proof.
  rewrite torch_features_value.
  - unfold basis_features, all_fns. simpl. unfold fourier_fn. simpl. do 2 f_equal. repeat (f_equal; try ring).
  - repeat constructor; intros E; discriminate.
  - unfold tf_total. simpl. lia.
  - discriminate.
Qed.
Example gauss_tensor_demo : exists a b, torch_features [gauss_tensor [2%nat] [0] [1] None (/ 4) false] [[0]] = Some (F1 [a; b]) /\ 0 < b < a /\ a = 1.
Proof.
  rewrite gauss_tensor_agrees by (try discriminate; unfold uniform_grid, grid_of; simpl; lia).
  assert (G : uniform_grid false [2%nat] [0] [1] = [[0]; [1]]).
  { unfold uniform_grid, grid_of, grid_centers, linspace. simpl. unfold grid_dim, grid_row. simpl. repeat (f_equal; try field). }
  unfold basis_features, rbf_generate. rewrite G. simpl. do 2 eexists. split; [reflexivity|].
  unfold rbf_call, grid_widths, grid_width. simpl.
  rewrite (Rabs_right (1 - 0)) by lra. split; [split; [apply exp_pos|apply exp_increasing; lra]|].
  transitivity (exp 0); [f_equal; field|apply exp_0].
Qed.
Example single_feature_demo : torch_features [constant_tensor] [[3]] = None /\ torch_features [constant_tensor] [[3]; [4]] = Some (F1 [1; 1]).
Proof. split; reflexivity. Qed.
Example normalize_demo : map (fun f => f [2]) (normalize [fun x => hd 0 x; fun _ => 6]) = [/ 4; 3 / 4].
Proof. unfold normalize. simpl. repeat (f_equal; try field). Qed.
Example von_mises_demo : von_mises [/ 4] [2] [/ 4 + 3] = 1.
Proof.
  destruct (von_mises_range [/ 4] [2] [/ 4] eq_refl eq_refl ltac:(repeat constructor; lra)) as (_ & E & P).
  transitivity (von_mises [/ 4] [2] [/ 4]); [exact (P [3%Z])|exact E].
Qed.
Example random_fourier_demo : length (all_fns (fourier_generate_t 2 5 true (fun n => repeat [1] n) (fun n => repeat 0 n))) = 5%nat.
Proof. reflexivity. Qed.

Print Assumptions torch_features_value.
Print Assumptions gauss_tensor_agrees.
Print Assumptions single_center_refuted.
Print Assumptions single_feature_refuted.
Print Assumptions normalize_partition.
Print Assumptions von_mises_range.
Print Assumptions von_mises_ring_refuted.
Print Assumptions random_fourier.
Print Assumptions rbf_width.
Print Assumptions gauss_tensor_normalized.

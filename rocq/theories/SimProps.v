(** C92: the wrappers of Habitat, iGibson and Isaac. *)
From Coq Require Import List Arith Reals Lra Bool Lia.
From Verif Require Import Common SimModel.
Import ListNotations.
Local Open Scope nat_scope.

(** * Images *)
(** The observation has the channels first and is in the declared space exactly when the images are square. *)
Theorem sim_obs_shape im : i_c im = 3 -> (obs_shape im = declared_shape im <-> i_h im = i_w im).
Proof. intros C. unfold obs_shape, declared_shape. rewrite C. cbn [fst snd]. split; [intros E; injection E; congruence|intros ->; reflexivity]. Qed.
Theorem sim_obs_shape_refuted : ~ (forall im, i_c im = 3 -> obs_shape im = declared_shape im).
Proof. intros H. specialize (H (mkImg 2 4 3 (fun _ _ _ => 0%R)) eq_refl). discriminate. Qed.
(** The values of a simulator image in [0, 1] are in the declared range. *)
Theorem ig_obs_range im : (forall i j c, 0 <= i_px im i j c <= 1)%R -> forall c i j, (0 <= obs_at (ig_image im) c i j <= 255)%R.
Proof. intros H c i j. unfold obs_at, ig_image. cbn [i_px]. specialize (H i j c). lra. Qed.
Example sim_obs_demo : obs_shape (mkImg 2 2 3 (fun i j c => INR (i + 2 * j + c))) = [3; 2; 2] /\ obs_at (mkImg 2 2 3 (fun i j c => INR (i + 2 * j + 5 * c))) 1 0 1 = INR 7.
Proof. split; reflexivity. Qed.

(** * Actions *)
(** A navigation action reaches the simulator as its index. *)
Example nav_action_index a : nav_action [a] = Some (Index a).
Proof. reflexivity. Qed.
(** A discrete iGibson action reaches it as an array. *)
Example ig_action_refuted : forall a, ig_action [a] <> Some (Index a).
Proof. discriminate. Qed.
(** The arm gets the first part of the action and the gripper the rest, as long as there is a gripper. *)
Theorem rearrange_split {A} (arm grip : list A) : grip <> [] -> rearrange_action (length grip) (arm ++ grip) = (arm, grip).
Proof.
  intros N. unfold rearrange_action, py_init, py_last. assert (Z : Nat.eqb (length grip) 0 = false) by (destruct grip; [congruence|reflexivity]).
  rewrite Z, app_length. replace (length arm + length grip - length grip) with (length arm) by lia.
  rewrite firstn_app, firstn_all, Nat.sub_diag, firstn_O, app_nil_r, skipn_app, skipn_all, Nat.sub_diag. reflexivity.
Qed.
Theorem rearrange_no_gripper_refuted {A} (arm : list A) : arm <> [] -> rearrange_action 0 arm <> (arm, []).
Proof. intros N E. unfold rearrange_action, py_init, py_last in E. simpl in E. injection E as E _. congruence. Qed.
Example rearrange_demo : rearrange_action 1 [1; 2; 3] = ([1; 2], [3]).
Proof. reflexivity. Qed.

(** * Step limits *)
(** Within the horizon of the MDP the absorbing flag of Habitat is that of the task, for a given or default horizon; the same holds for iGibson with the default
    one. *)
Theorem sim_absorbing terminal default given k : 
  (let '(h, l) := habitat_limits default given in k <= h -> sim_done terminal l k = terminal k) /\
  (let '(h, l) := ig_limits default None in k <= h -> sim_done terminal l k = terminal k).
Proof.
  unfold habitat_limits, ig_limits, sim_done. split; intros H.
  - replace (Nat.leb (_ + 1) k) with false; [apply orb_false_r|]. symmetry. apply Nat.leb_gt. lia.
  - replace (Nat.leb (_ + 1) k) with false; [apply orb_false_r|]. symmetry. apply Nat.leb_gt. lia.
Qed.
(** A horizon given to iGibson makes its last step absorbing, whatever the task says. *)
Theorem ig_horizon_refuted terminal default h : sim_done terminal (snd (ig_limits default (Some h))) h = true.
Proof. unfold sim_done, ig_limits. cbn [snd]. rewrite Nat.leb_refl. apply orb_true_r. Qed.
Example sim_absorbing_demo : ig_limits 500 (Some 20) = (20, 20) /\ habitat_limits 500 (Some 20) = (20, 21).
Proof. split; reflexivity. Qed.

(** * Rendering *)
(** After a step render shows the image of that step. *)
Theorem sim_render_step {I} (ev : list (sim_event I)) im : shown (ev ++ [SStep im]) = Some im.
Proof. unfold shown. rewrite fold_left_app. reflexivity. Qed.
(** After a reset it still shows the last image of the episode before, and nothing at the start. *)
Theorem sim_render_reset_refuted {I} (ev : list (sim_event I)) im : shown (ev ++ [SReset im]) = shown ev /\ shown [SReset im] = None.
Proof. unfold shown. rewrite fold_left_app. split; reflexivity. Qed.

(** * Return of the shortest path *)
(** The rewards are summed up to the first done step; without one, over the whole path. *)
Theorem optimal_return_sum before r after : Forall (fun p => snd p = false) before ->
  optimal_return (Some (before ++ (r, true) :: after)) = Some (rsum (map fst before) + r)%R /\ optimal_return (Some before) = Some (rsum (map fst before)).
Proof.
  intros F. cbn [optimal_return option_map]. split; f_equal; induction F as [|[x d] l E F IH]; simpl in *; subst; simpl; rewrite ?IH; lra.
Qed.
(** No path is an exception. *)
Example optimal_return_refuted : optimal_return None = None.
Proof. reflexivity. Qed.
Example optimal_return_demo : optimal_return (Some [(1, false); (2, true); (5, false)]%R) = Some (1 + 2)%R.
Proof. reflexivity. Qed.

(** * Isaac *)
(** Every environment of the mask is reset, except when there is just one. *)
Theorem isaac_reset_mask mask i : length (masked mask) <> 1 -> (In i (isaac_reset mask) <-> nth_error mask i = Some true).
Proof.
  intros L. assert (E : isaac_reset mask = masked mask) by (unfold isaac_reset; destruct (masked mask) as [|a [|b r]]; auto; simpl in L; lia).
  rewrite E. unfold masked. rewrite filter_In, in_seq. split.
  - intros [H T]. rewrite (List.nth_error_nth' mask false) by lia. congruence.
  - intros T. assert (i < length mask) by (apply nth_error_Some; congruence). apply nth_error_nth with (d := false) in T. split; [lia|auto].
Qed.
Theorem isaac_reset_one_refuted mask i : masked mask = [i] -> isaac_reset mask = [] /\ nth_error mask i = Some true.
Proof.
  intros E. unfold isaac_reset. rewrite E. split; auto. assert (I1 : In i (masked mask)) by (rewrite E; simpl; auto).
  unfold masked in I1. apply filter_In in I1. destruct I1 as [H T]. apply in_seq in H. rewrite (List.nth_error_nth' mask false) by lia. congruence.
Qed.
(** The single-environment interface, which builds a numpy mask, raises. *)
Example isaac_single_refuted m : isaac_reset_all (NumpyMask m) = None.
Proof. reflexivity. Qed.
(** An environment outside the mask is never reported done. *)
Theorem isaac_done_mask done mask i : length done = length mask ->
  nth i (isaac_done done mask) false = andb (nth i done false) (nth i mask false).
Proof.
  revert mask i. induction done as [|d done IH]; intros [|m mask] i L; try discriminate; [destruct i; reflexivity|].
  destruct i; simpl; auto. apply IH. simpl in L. lia.
Qed.
Fixpoint nest {X} (k : nat) (x : X) (others : list (task_obs X)) : task_obs X := match k with O => Tens x | S k' => Dict (nest k' x others :: others) end.
(** The observation is the first tensor found, up to five dictionaries deep; deeper ones give a dictionary. *)
Theorem isaac_observation {X} k (x : X) others :
  (k <= 5 -> task_observation (nest k x others) = Some (Tens x)) /\ (5 < k -> forall y, task_observation (nest k x others) <> Some (Tens y)).
Proof.
  unfold task_observation. assert (G : forall f k, (k <= f -> descend f (nest k x others) = Some (Tens x)) /\ (f < k -> descend f (nest k x others) = Some (nest (k - f) x others))).
  { clear. induction f as [|f IH]; intros k; split; intros H.
    - replace k with 0 by lia. reflexivity.
    - rewrite Nat.sub_0_r. reflexivity.
    - destruct k as [|k]; [reflexivity|]. cbn [nest descend]. apply IH. lia.
    - destruct k as [|k]; [lia|]. cbn [nest descend]. rewrite (proj2 (IH k)) by lia. reflexivity. }
  split; intros H; [apply G; auto|]. intros y. rewrite (proj2 (G 5 k)) by auto. destruct (k - 5) as [|m] eqn:E; [lia|]. discriminate.
Qed.
Example isaac_demo : isaac_reset [true; false; true] = [0; 2] /\ isaac_reset [false; true; false] = [] /\
  task_observation (Dict [Dict [Tens 4]; Tens 5]) = Some (Tens 4).
Proof. repeat split. Qed.

Print Assumptions sim_obs_shape.
Print Assumptions sim_obs_shape_refuted.
Print Assumptions ig_obs_range.
Print Assumptions rearrange_split.
Print Assumptions rearrange_no_gripper_refuted.
Print Assumptions sim_absorbing.
Print Assumptions ig_horizon_refuted.
Print Assumptions sim_render_step.
Print Assumptions sim_render_reset_refuted.
Print Assumptions optimal_return_sum.
Print Assumptions isaac_reset_mask.
Print Assumptions isaac_reset_one_refuted.
Print Assumptions isaac_done_mask.
Print Assumptions isaac_observation.

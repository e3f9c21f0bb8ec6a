(** Theorems about spaces, MDP descriptions and the registry of environments (C86). *)
From Coq Require Import List Arith Lia Reals Lra Bool.
From Verif Require Import Common SpaceModel.
Import ListNotations.
Local Open Scope R_scope.

Definition wf (a : arr) : Prop := length (data_of a) = fold_right Nat.mul 1%nat (shape_of a).
Definition wfb (b : bound) : Prop := match b with Arr a => wf a | _ => True end.
Definition cell (a : arr) (k : nat) : R := nth k (data_of a) 0.
Definition scalar_value (b : bound) : option R := match b with Num x | NpScalar x => Some x | Arr _ => None end.

Lemma shape_eqb_spec : forall a b, shape_eqb a b = true <-> a = b.
Proof. intros a b. unfold shape_eqb. destruct (list_eq_dec Nat.eq_dec a b); split; intro; auto; discriminate. Qed.

(** Two numbers and a shape: every component of the space has these bounds. *)
Theorem box_scalars : forall low high x y sh, scalar_value low = Some x -> scalar_value high = Some y ->
  exists b, box_init low high (Some sh) = Some b /\ b_shape b = sh /\ shape_of (b_low b) = sh /\ shape_of (b_high b) = sh /\ wf (b_low b) /\ wf (b_high b) /\
    forall k, (k < fold_right Nat.mul 1 sh)%nat -> cell (b_low b) k = x /\ cell (b_high b) k = y.
Proof.
  assert (N : forall (v : R) n k, (k < n)%nat -> nth k (repeat v n) 0 = v).
  { intros v n. induction n; intros k Hk; [lia|]. destruct k; [reflexivity|]. simpl. apply IHn. lia. }
  intros low high x y sh Hx Hy. exists (mkBox (mkArr sh (repeat x (fold_right Nat.mul 1%nat sh))) (mkArr sh (repeat y (fold_right Nat.mul 1%nat sh))) sh).
  assert (E : shape_eqb sh sh = true) by (apply shape_eqb_spec; reflexivity).
  split; [destruct low, high; simpl in Hx, Hy; try discriminate; inversion Hx; inversion Hy; subst; unfold box_init, box_check; simpl; rewrite E; reflexivity|].
  simpl. unfold wf, cell. simpl. rewrite !repeat_length. repeat split; auto.
Qed.
(** Two arrays: accepted exactly when their shapes agree, and then the bounds are these arrays. *)
Theorem box_arrays : forall a1 a2, 
  (shape_of a1 = shape_of a2 -> box_init (Arr a1) (Arr a2) None = Some (mkBox a1 a2 (shape_of a1))) /\
  (shape_of a1 <> shape_of a2 -> forall sh, box_init (Arr a1) (Arr a2) sh = None).
Proof.
  intros a1 a2. split.
  - intros E. unfold box_init, box_check. simpl. rewrite (proj2 (shape_eqb_spec _ _) E). reflexivity.
  - intros E sh. destruct (shape_eqb (shape_of a1) (shape_of a2)) eqn:Q; [apply shape_eqb_spec in Q; contradiction|].
    destruct sh; unfold box_init, box_check; simpl; rewrite Q; reflexivity.
Qed.
(** One number and one array raises, with or without a shape, although the documentation allows each bound to be either. *)
Theorem box_mixed_refuted : forall x a sh, (length (shape_of a) > 0)%nat ->
  box_init (Num x) (Arr a) sh = None /\ box_init (Arr a) (Num x) sh = None /\
  box_init (NpScalar x) (Arr a) sh = None /\ box_init (Arr a) (NpScalar x) sh = None.
Proof.
  intros x a sh L. destruct (shape_of a) as [|n s] eqn:E; [simpl in L; lia|].
  destruct sh; unfold box_init, box_check; simpl; rewrite ?E; repeat split; reflexivity.
Qed.
(** A shape that contradicts the arrays is accepted, and then lost by saving and loading. *)
Theorem box_shape_mismatch_refuted : forall a1 a2 sh, shape_of a1 = shape_of a2 -> sh <> shape_of a1 ->
  exists b, box_init (Arr a1) (Arr a2) (Some sh) = Some b /\ b_shape b = sh /\ shape_of (b_low b) <> b_shape b /\ b_shape (box_reload b) <> b_shape b.
Proof.
  intros a1 a2 sh E N. exists (mkBox a1 a2 sh). unfold box_init, box_check. simpl. rewrite (proj2 (shape_eqb_spec _ _) E). repeat split; auto.
Qed.
(** In every other case the reported shape is that of both bounds and saving and loading changes nothing. *)
Theorem box_consistent : forall low high sh b, box_init low high sh = Some b -> wfb low -> wfb high ->
  shape_of (b_low b) = shape_of (b_high b) /\ wf (b_low b) /\ wf (b_high b) /\
  ((forall s, sh = Some s -> bshape low = Some s \/ (is_scalar low = true /\ is_scalar high = true)) ->
   b_shape b = shape_of (b_low b) /\ box_reload b = b).
Proof.
  intros low high sh b E W1 W2.
  assert (P : forall l h s, wfb l -> wfb h -> box_check l h s = Some b -> shape_of (b_low b) = shape_of (b_high b) /\ wf (b_low b) /\ wf (b_high b) /\ b_shape b = s /\ bshape l = Some (shape_of (b_low b))).
  { clear. intros l h s W1 W2 E. unfold box_check in E. destruct (bshape l) as [s1|] eqn:E1; [|discriminate]. destruct (bshape h) as [s2|] eqn:E2; [|discriminate].
    destruct (shape_eqb s1 s2) eqn:Q; [|discriminate]. apply shape_eqb_spec in Q. subst s2. inversion E; subst. clear E.
    destruct l, h; simpl in *; inversion E1; inversion E2; subst; simpl; unfold wf; simpl; repeat split; auto; congruence. }
  assert (Wf : forall l s, wfb l -> wfb (filled l s)) by (intros [x|x|a] s W; simpl; unfold wf; simpl; try apply repeat_length; exact W).
  unfold box_init in E. destruct sh as [s|].
  - destruct (andb (is_scalar low) (is_scalar high)) eqn:A.
    + destruct (P _ _ _ (Wf low s W1) (Wf high s W2) E) as (P1 & P2 & P3 & P4 & P5). split; [exact P1|]. split; [exact P2|]. split; [exact P3|]. intros _.
      assert (B : b_shape b = shape_of (b_low b)).
      { rewrite P4. apply andb_prop in A. destruct A as [A _]. destruct low; simpl in A, P5; try discriminate; inversion P5; reflexivity. }
      split; [exact B|]. unfold box_reload. rewrite <- B. destruct b; reflexivity.
    + destruct (P _ _ _ W1 W2 E) as (P1 & P2 & P3 & P4 & P5). split; [exact P1|]. split; [exact P2|]. split; [exact P3|]. intros H.
      assert (B : b_shape b = shape_of (b_low b)).
      { destruct (H s eq_refl) as [Q|[Q1 Q2]]; [|rewrite Q1, Q2 in A; discriminate]. rewrite P4. congruence. }
      split; [exact B|]. unfold box_reload. rewrite <- B. destruct b; reflexivity.
  - destruct (bshape low) as [s|] eqn:Q; [|discriminate].
    destruct (P _ _ _ W1 W2 E) as (P1 & P2 & P3 & P4 & P5). split; [exact P1|]. split; [exact P2|]. split; [exact P3|]. intros _.
    assert (B : b_shape b = shape_of (b_low b)) by congruence.
    split; [exact B|]. unfold box_reload. rewrite <- B. destruct b; reflexivity.
Qed.

(** A discrete space has the values 0, ..., n-1; a discrete MDP of n states and m actions has the size (n, m), a table of that size has one
    entry per pair, and the size exists for no other MDP. *)
Theorem mdp_sizes : forall obs act,
  (forall sz, mdp_size obs act = Some sz -> exists n m, obs = SDiscrete n /\ act = SDiscrete m /\ sz = [n; m] /\
     fold_right Nat.mul 1%nat sz = length (list_prod (discrete_values n) (discrete_values m)) /\
     forall i j, (In i (discrete_values n) /\ In j (discrete_values m) <-> (i < n /\ j < m)%nat)) /\
  (mdp_size obs act = None <-> exists b, obs = SBox b \/ act = SBox b) /\
  length (mdp_shape obs act) = (length (sp_shape obs) + length (sp_shape act))%nat.
Proof.
  intros obs act. split; [|split].
  - intros sz E. destruct obs as [b|n], act as [b'|m]; simpl in E; try discriminate. inversion E; subst. exists n, m. repeat split; auto.
    + unfold discrete_values. rewrite prod_length, !seq_length. simpl. lia.
    + unfold discrete_values in *. destruct H as [H1 H2]. apply in_seq in H1. lia.
    + unfold discrete_values in *. destruct H as [H1 H2]. apply in_seq in H2. lia.
    + apply in_seq. lia.
    + apply in_seq. lia.
  - destruct obs as [b|n], act as [b'|m]; simpl; split; intro H; auto; try discriminate; try (exists b; auto; fail); try (exists b'; auto; fail).
    destruct H as [b [H|H]]; discriminate.
  - unfold mdp_shape. apply app_length.
Qed.

(** * Registry *)
Section RegistryProps.
Context {C K V : Type}.
Variable ceq : forall a b : C, {a = b} + {a <> b}.
Variable dot : C.
Notation name := (@name C).
Notation lookup := (lookup (K := K) ceq).
Notation register := (register (K := K) ceq).
Notation make := (make (K := K) (V := V) ceq dot).

Definition plain (n : name) : Prop := ~ In dot n.
(** pieces joined with dots *)
Fixpoint join (ps : list name) : name := match ps with [] => [] | [p] => p | p :: r => p ++ dot :: join r end.

Lemma name_eqb_spec : forall a b, name_eqb ceq a b = true <-> a = b.
Proof. intros a b. unfold name_eqb. destruct (list_eq_dec ceq a b); split; intro; auto; discriminate. Qed.
Lemma split_plain : forall p, plain p -> split ceq dot p = [p].
Proof.
  induction p as [|c p IH]; intros H; [reflexivity|]. simpl. destruct (ceq c dot) as [->|N]; [exfalso; apply H; left; reflexivity|].
  rewrite IH; [reflexivity|]. intros I1. apply H. right. exact I1.
Qed.
Lemma split_join1 : forall p s, plain p -> split ceq dot (p ++ dot :: s) = p :: split ceq dot s.
Proof.
  induction p as [|c p IH]; intros s H; simpl.
  - destruct (ceq dot dot); [reflexivity|congruence].
  - destruct (ceq c dot) as [->|N]; [exfalso; apply H; left; reflexivity|]. rewrite IH; [reflexivity|]. intros I1. apply H. right. exact I1.
Qed.
Lemma split_join : forall ps, ps <> [] -> Forall plain ps -> split ceq dot (join ps) = ps.
Proof.
  induction ps as [|p [|q ps] IH]; intros NE F; [congruence| |].
  - simpl. apply split_plain. inversion F; assumption.
  - change (join (p :: q :: ps)) with (p ++ dot :: join (q :: ps)). inversion F; subst. rewrite split_join1 by assumption. f_equal. apply IH; [discriminate|assumption].
Qed.
Lemma has_dot : forall n, existsb (fun c => if ceq c dot then true else false) n = true <-> In dot n.
Proof.
  intros n. rewrite existsb_exists. split.
  - intros (x & I1 & E). destruct (ceq x dot); [subst; exact I1|discriminate].
  - intros I1. exists dot. split; [exact I1|]. destruct (ceq dot dot); congruence.
Qed.

(** make with a name and parameters joined by dots selects the environment by the first piece and passes the others, as strings, before the
    explicit arguments. An unknown name raises. *)
Theorem make_dots : forall r e ps args, plain e -> Forall plain ps ->
  make r (join (e :: ps)) args = match lookup r e with Some k => Some (k, map inl ps ++ map inr args) | None => None end.
Proof.
  intros r e ps args He Hp. unfold SpaceModel.make. destruct ps as [|p ps].
  - change (join [e]) with e. destruct (existsb _ e) eqn:D; [apply has_dot in D; contradiction|]. reflexivity.
  - assert (D : In dot (join (e :: p :: ps))) by (change (join (e :: p :: ps)) with (e ++ dot :: join (p :: ps)); apply in_or_app; right; left; reflexivity).
    apply has_dot in D. rewrite D. rewrite split_join; [reflexivity|discriminate|constructor; assumption].
Qed.
(** A parameter that contains a dot itself, such as a decimal number, does not arrive in one piece. *)
Theorem make_decimal_refuted : forall r e p1 p2 k args, plain e -> plain p1 -> plain p2 -> lookup r e = Some k ->
  make r (join [e; p1 ++ dot :: p2]) args = Some (k, inl p1 :: inl p2 :: map inr args).
Proof.
  intros r e p1 p2 k args He H1 H2 L.
  replace (join [e; p1 ++ dot :: p2]) with (join [e; p1; p2]) by (simpl; reflexivity).
  rewrite make_dots; [rewrite L; reflexivity|exact He|constructor; [exact H1|constructor; [exact H2|constructor]]].
Qed.

Lemma lookup_app : forall r r' n, lookup (r ++ r') n = match lookup r n with Some k => Some k | None => lookup r' n end.
Proof. induction r as [|[m k] r IH]; intros r' n; simpl; [reflexivity|]. destruct (name_eqb ceq m n); [reflexivity|apply IH]. Qed.
(** Registering keeps every environment that was there, under its name, and the order of the list; the first registration of a name is the one
    that counts. *)
Theorem register_first : forall r n k m,
  lookup (register r n k) m = match lookup r m with Some k' => Some k' | None => if name_eqb ceq n m then Some k else None end /\
  (exists l, map fst (register r n k) = map fst r ++ l) /\
  (NoDup (map fst r) -> NoDup (map fst (register r n k))) /\
  (forall x, In x (map fst (register r n k)) <-> In x (map fst r) \/ x = n).
Proof.
  intros r n k m. unfold SpaceModel.register.
  assert (LI : forall r x, lookup r x <> None <-> In x (map fst r)).
  { clear. induction r as [|[y k] r IH]; intros x; simpl; [split; [congruence|tauto]|].
    destruct (name_eqb ceq y x) eqn:Q; [apply name_eqb_spec in Q; subst; split; [auto|discriminate]|].
    rewrite IH. split; [auto|]. intros [->|H]; [|exact H]. rewrite (proj2 (name_eqb_spec x x) eq_refl) in Q. discriminate. }
  destruct (lookup r n) as [k0|] eqn:L.
  - split; [|split; [|split]].
    + destruct (lookup r m) eqn:Lm; [reflexivity|]. destruct (name_eqb ceq n m) eqn:Q; [|reflexivity]. apply name_eqb_spec in Q. subst. congruence.
    + exists []. rewrite app_nil_r. reflexivity.
    + auto.
    + intros x. split; [auto|]. intros [H| ->]; [exact H|]. apply LI. congruence.
  - split; [|split; [|split]].
    + rewrite lookup_app. simpl. reflexivity.
    + exists [n]. rewrite map_app. reflexivity.
    + intros ND. rewrite map_app. simpl.
      rewrite <- (rev_involutive (map fst r ++ [n])), rev_app_distr. apply NoDup_rev. simpl. constructor; [|apply NoDup_rev; exact ND].
      rewrite <- in_rev. intros I1. apply LI in I1. congruence.
    + intros x. rewrite map_app, in_app_iff. simpl. intuition.
Qed.
End RegistryProps.

(** * Examples *)
Example box_ex : exists b, box_init (Num 0) (NpScalar 1) (Some [2; 3]%nat) = Some b /\ length (data_of (b_low b)) = 6%nat /\ cell (b_high b) 5 = 1.
Proof. eexists. repeat split; reflexivity. Qed.
Example box_reload_ex : let b := mkBox (mkArr [4]%nat [0; 0; 0; 0]) (mkArr [4]%nat [1; 1; 1; 1]) [2; 2]%nat in b_shape (box_reload b) = [4]%nat.
Proof. reflexivity. Qed.
Example make_ex : (* "7.12.3" with '.' as 0: environment 7 with parameters 12 and 3 *)
  SpaceModel.make (V := bool) Nat.eq_dec 0%nat [([7]%nat, true)] [7; 0; 1; 2; 0; 3]%nat [false] = Some (true, [inl [1; 2]%nat; inl [3]%nat; inr false]).
Proof. reflexivity. Qed.
Print Assumptions box_scalars.
Print Assumptions box_arrays.
Print Assumptions box_mixed_refuted.
Print Assumptions box_shape_mismatch_refuted.
Print Assumptions box_consistent.
Print Assumptions mdp_sizes.
Print Assumptions make_dots.
Print Assumptions make_decimal_refuted.
Print Assumptions register_first.

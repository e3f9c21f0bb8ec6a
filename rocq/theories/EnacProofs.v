(** Least squares with the Moore-Penrose inverse, and its reading on episodes. *)
From Coq Require Import List Arith Lia Reals Lra.
From Verif Require Import Common PgModel PgSpec Mat EnacModel EnacSpec.
Import ListNotations.
Local Open Scope R_scope.

Lemma sm_sq_zero : forall n f, sm n (fun i => f i ^ 2) = 0 -> forall i, (i < n)%nat -> f i = 0.
Proof.
  induction n as [|n IH]; intros f H i Hi; [lia|]. rewrite sm_S in H.
  assert (0 <= sm n (fun i => f i ^ 2)) by (apply sm_nonneg; intros; nra). assert (0 <= f n ^ 2) by nra.
  destruct (Nat.eq_dec i n) as [->|NE]; [nra|]. apply IH; [lra|lia].
Qed.

Section Ls.
Variables (n m : nat) (A P : mat) (b : vec).
Hypothesis HP : penrose n m A P.
Let x := mv n P b.
Definition err (y : vec) : R := sm n (fun i => (b i - mv m A y i) ^ 2).

Lemma ls_normal : forall j, (j < m)%nat -> sm n (fun i => A i j * (b i - mv m A x i)) = 0.
Proof.
  intros j Hj. destruct HP as (H1 & _ & H3 & _).
  rewrite (sm_ext n _ (fun i => A i j * b i - A i j * mv m A x i)) by (intros; ring). rewrite sm_minus.
  assert (E : sm n (fun i => A i j * mv m A x i) = sm n (fun l => A l j * b l)); [|rewrite E; ring].
  rewrite (sm_ext n _ (fun i => sm n (fun l => A i j * (mm m A P i l * b l)))).
  2:{ intros i Hi. unfold x. rewrite <- mv_mm. unfold mv at 1. rewrite <- sm_scal. reflexivity. }
  rewrite sm_swap. apply sm_ext. intros l Hl. rewrite <- (H1 l j Hl Hj). unfold mm at 2. rewrite <- sm_scal_r. apply sm_ext. intros i Hi.
  rewrite (H3 i l Hi Hl). ring.
Qed.

Lemma ls_split : forall y, err y = err x + sm n (fun i => mv m A (vsub y x) i ^ 2).
Proof.
  intros y. unfold err.
  assert (C : sm n (fun i => (b i - mv m A x i) * mv m A (vsub y x) i) = 0).
  { rewrite (sm_ext n _ (fun i => sm m (fun j => vsub y x j * (A i j * (b i - mv m A x i))))).
    2:{ intros i _. unfold mv at 2. rewrite <- sm_scal. apply sm_ext. intros. ring. }
    rewrite sm_swap. apply sm_zero. intros j Hj. rewrite sm_scal, ls_normal by exact Hj. ring. }
  rewrite <- sm_plus. rewrite (sm_ext n _ (fun i => ((b i - mv m A x i) ^ 2 + mv m A (vsub y x) i ^ 2) + (-2) * ((b i - mv m A x i) * mv m A (vsub y x) i))).
  - rewrite sm_plus, sm_scal, C. ring.
  - intros i _. rewrite mv_sub. unfold vsub. ring.
Qed.

Lemma ls_min : forall y, err x <= err y.
Proof. intros y. rewrite (ls_split y). assert (0 <= sm n (fun i => mv m A (vsub y x) i ^ 2)); [apply sm_nonneg; intros; nra|lra]. Qed.

Lemma ls_unique : forall y, err y = err x -> forall i, (i < n)%nat -> mv m A y i = mv m A x i.
Proof.
  intros y H i Hi. rewrite (ls_split y) in H. assert (Z : sm n (fun i => mv m A (vsub y x) i ^ 2) = 0) by lra.
  pose proof (sm_sq_zero _ _ Z i Hi) as Q. cbn beta in Q. rewrite mv_sub in Q. unfold vsub in Q. lra.
Qed.

Lemma ls_least : forall y, err y = err x -> dot m x x <= dot m y y.
Proof.
  intros y H. pose proof (ls_unique y H) as U. destruct HP as (_ & H2 & _ & H4).
  assert (XX : forall j, (j < m)%nat -> mv m (mm n P A) x j = x j).
  { intros j Hj. unfold x. rewrite <- mv_mm. apply mv_ext; [|reflexivity]. intros l Hl. apply H2; assumption. }
  assert (C : dot m x (vsub y x) = 0).
  { rewrite (dot_ext m x (vsub y x) (mv m (mm n P A) x) (vsub y x)) by (auto; intros; symmetry; auto).
    rewrite dot_comm, dot_mv.
    rewrite (dot_ext m _ x (fun _ => 0) x); [unfold dot; apply sm_zero; intros; ring| |reflexivity].
    intros j Hj. rewrite (mv_ext m (mt (mm n P A)) (mm n P A) _ (vsub y x)); [|intros l Hl; unfold mt; apply H4; assumption|reflexivity].
    rewrite mv_mm. unfold mv at 1. apply sm_zero. intros i Hi. rewrite mv_sub. unfold vsub. rewrite U by exact Hi. ring. }
  assert (E : dot m y y = dot m x x + 2 * dot m x (vsub y x) + dot m (vsub y x) (vsub y x)).
  { unfold dot. rewrite <- sm_scal, <- !sm_plus. apply sm_ext. intros. unfold vsub. ring. }
  pose proof (dot_nonneg m (vsub y x)). lra.
Qed.
End Ls.

(** The coefficients of a pair of vectors, and back. *)
Definition join (d : nat) (w v : vec) : vec := fun j => if (j <? d)%nat then w j else v (j - d)%nat.
Lemma join_l : forall d w v j, (j < d)%nat -> join d w v j = w j.
Proof. intros. unfold join. rewrite (proj2 (Nat.ltb_lt _ _) H). reflexivity. Qed.
Lemma join_r : forall d w v j, join d w v (d + j)%nat = v j.
Proof. intros. unfold join. destruct (Nat.ltb_spec (d + j)%nat d); [lia|]. f_equal. lia. Qed.

Lemma dot_join : forall d c w v, dot (d + c) (join d w v) (join d w v) = dot d w w + dot c v v.
Proof.
  intros. unfold dot. rewrite sm_app. f_equal; apply sm_ext; intros j Hj; [rewrite join_l by exact Hj|rewrite join_r]; reflexivity.
Qed.

Lemma predicted_ext : forall gamma d c w v w' v' e, (forall j, (j < d)%nat -> w j = w' j) -> (forall j, (j < c)%nat -> v j = v' j) ->
  predicted gamma d c w v e = predicted gamma d c w' v' e.
Proof. intros. unfold predicted, dot. f_equal; apply sm_ext; intros; f_equal; auto. Qed.

Lemma predicted_sub : forall gamma d c w v w' v' e,
  predicted gamma d c (vsub w w') (vsub v v') e = predicted gamma d c w v e - predicted gamma d c w' v' e.
Proof.
  intros. unfold predicted. rewrite dot_sub_r. rewrite (sm_ext c _ (fun j => nth j (match e with [] => [] | x :: _ => phi_c x end) 0 * v j - nth j (match e with [] => [] | x :: _ => phi_c x end) 0 * v' j)).
  - rewrite sm_minus. ring.
  - intros. unfold vsub. ring.
Qed.

(** What [_compute_gradient] collected for the episodes. *)
Definition rows_of (gamma : R) (c : nat) (eps : list (list sample)) (psi : list (vec * list R)) : Prop :=
  length psi = length eps /\ Forall (fun e => exists x t, e = x :: t /\ length (phi_c x) = c) eps /\
  forall k e x, nth_error eps k = Some (x :: e) -> exists v, nth_error psi k = Some (v, phi_c x) /\ forall i, v i = discounted_score gamma (x :: e) i.

Section Episodes.
Variables (gamma : R) (d c : nat) (eps : list (list sample)) (psi : list (vec * list R)) (pinv : nat -> nat -> mat -> mat).
Hypothesis RO : rows_of gamma c eps psi.
Hypothesis NE : eps <> [].

Lemma rows_at : forall i, (i < length eps)%nat -> exists x t v, nth i eps [] = x :: t /\ nth i psi (vzero, []) = (v, phi_c x) /\ length (phi_c x) = c /\
  (forall k, v k = discounted_score gamma (x :: t) k).
Proof.
  intros i Hi. destruct RO as (HL & HF & HR). rewrite Forall_forall in HF. destruct (HF (nth i eps [])) as (x & t & E & L). { apply nth_In. exact Hi. }
  destruct (HR i t x) as (v & Ev & Hv). { rewrite <- E. apply List.nth_error_nth'. exact Hi. }
  exists x, t, v. split; [exact E|]. split; [apply nth_error_nth; exact Ev|]. auto.
Qed.

Lemma cols : en_cols d psi = (d + c)%nat.
Proof.
  assert (L0 : (0 < length eps)%nat) by (destruct eps; [congruence|cbn; lia]).
  destruct (rows_at 0 L0) as (x & t & v & _ & E & L & _). unfold en_cols. destruct psi as [|p q]; [cbn in E; injection E as _ E; cbn; rewrite <- L, <- E; reflexivity|].
  cbn in E. cbn [hd]. rewrite E. cbn [snd]. rewrite L. reflexivity.
Qed.

Lemma mat_predicted : forall i w v, (i < length eps)%nat -> mv (d + c) (en_mat d psi) (join d w v) i = predicted gamma d c w v (nth i eps []).
Proof.
  intros i w v Hi. destruct (rows_at i Hi) as (x & t & u & E & Ep & L & Hu). rewrite E. unfold mv, predicted, dot. rewrite sm_app. f_equal; apply sm_ext; intros j Hj.
  - rewrite join_l by exact Hj. unfold en_mat, en_row. rewrite (proj2 (Nat.ltb_lt _ _) Hj), Ep. cbn [fst]. rewrite Hu. reflexivity.
  - rewrite join_r. unfold en_mat, en_row. destruct (Nat.ltb_spec (d + j)%nat d); [lia|]. rewrite Ep. cbn [snd]. f_equal. f_equal. lia.
Qed.

Lemma rsum_sm : forall {A} (f : A -> R) (l : list A) (z : A), rsum (map f l) = sm (length l) (fun i => f (nth i l z)).
Proof.
  intros A f l z. induction l as [|a l IH]; [reflexivity|]. cbn [map rsum length]. change (S (length l)) with (1 + length l)%nat. rewrite sm_app.
  unfold sm at 1. cbn [seq map rsum]. rewrite IH. cbn [nth Nat.add]. lra.
Qed.

Lemma error_err : forall w v, squared_error gamma d c eps w v =
  err (length psi) (en_cols d psi) (en_mat d psi) (fun i => nth i (map (return_ gamma) eps) 0) (join d w v).
Proof.
  intros w v. unfold squared_error, err. rewrite (rsum_sm _ eps []). rewrite cols, (proj1 RO). apply sm_ext. intros i Hi.
  rewrite mat_predicted by exact Hi. rewrite (nth_indep _ 0 (return_ gamma [])) by (rewrite map_length; exact Hi). rewrite map_nth. reflexivity.
Qed.

Hypothesis HP : penrose (length psi) (en_cols d psi) (en_mat d psi) (pinv (length psi) (en_cols d psi) (en_mat d psi)).

Lemma direction_join : exists v, forall j, (j < d + c)%nat ->
  mv (length psi) (pinv (length psi) (en_cols d psi) (en_mat d psi)) (fun i => nth i (map (return_ gamma) eps) 0) j =
  join d (en_direction pinv d (psi, map (return_ gamma) eps)) v j.
Proof.
  exists (fun j => mv (length psi) (pinv (length psi) (en_cols d psi) (en_mat d psi)) (fun i => nth i (map (return_ gamma) eps) 0) (d + j)%nat).
  intros j Hj. unfold join. destruct (Nat.ltb_spec j d) as [L|L].
  - unfold en_direction. rewrite (proj2 (Nat.ltb_lt _ _) L). reflexivity.
  - f_equal. lia.
Qed.

Lemma err_ext : forall n m A b y z, (forall j, (j < m)%nat -> y j = z j) -> err n m A b y = err n m A b z.
Proof. intros. unfold err. apply sm_ext. intros i _. f_equal. f_equal. apply mv_ext; auto. Qed.

Lemma direction_least : least_squares gamma d c eps (en_direction pinv d (psi, map (return_ gamma) eps)).
Proof.
  destruct direction_join as (v & Hv). exists v. intros w' v'. rewrite !error_err.
  set (b := fun i => nth i (map (return_ gamma) eps) 0) in *.
  set (PP := pinv (length psi) (en_cols d psi) (en_mat d psi)) in *.
  rewrite <- (err_ext _ _ _ b (mv (length psi) PP b) (join d (en_direction pinv d (psi, map (return_ gamma) eps)) v)) by (rewrite cols; exact Hv).
  split; [apply ls_min; exact HP|]. intros H. pose proof (ls_least _ _ _ _ b HP _ H) as Q. rewrite cols in Q.
  rewrite dot_join in Q. rewrite (dot_ext _ _ _ _ _ Hv Hv), dot_join in Q. exact Q.
Qed.
End Episodes.

(** Minimisers predict the same. *)
Lemma minimisers_agree : forall gamma d c eps w v w' v',
  (forall a b, squared_error gamma d c eps w v <= squared_error gamma d c eps a b) ->
  squared_error gamma d c eps w' v' = squared_error gamma d c eps w v ->
  forall e, In e eps -> predicted gamma d c w' v' e = predicted gamma d c w v e.
Proof.
  intros gamma d c eps w v w' v' H E.
  set (mid := fun (a b : vec) j => (a j + b j) / 2). specialize (H (mid w w') (mid v v')).
  assert (M : forall e, predicted gamma d c (mid w w') (mid v v') e = (predicted gamma d c w v e + predicted gamma d c w' v' e) / 2).
  { intros e. unfold predicted, dot, mid.
    assert (Z : forall n f g h, sm n (fun j => f j * ((g j + h j) / 2)) = (sm n (fun j => f j * g j) + sm n (fun j => f j * h j)) / 2).
    { intros. unfold Rdiv. rewrite <- sm_plus, <- sm_scal_r. apply sm_ext. intros. field. }
    rewrite !Z. field. }
  unfold squared_error in *.
  assert (I : rsum (map (fun e => (predicted gamma d c w' v' e - predicted gamma d c w v e) ^ 2) eps) <= 0).
  { assert (S : rsum (map (fun e => (return_ gamma e - predicted gamma d c (mid w w') (mid v v') e) ^ 2) eps) =
      / 2 * rsum (map (fun e => (return_ gamma e - predicted gamma d c w v e) ^ 2) eps) + / 2 * rsum (map (fun e => (return_ gamma e - predicted gamma d c w' v' e) ^ 2) eps)
      + - / 4 * rsum (map (fun e => (predicted gamma d c w' v' e - predicted gamma d c w v e) ^ 2) eps)).
    { rewrite <- !rsum_map_scal, <- !rsum_map_plus. apply rsum_map_ext. intros e _. rewrite M. field. }
    rewrite S, E in H. lra. }
  clear -I. induction eps as [|e eps IH]; intros e' Hin; [destruct Hin|]. cbn [map rsum] in I.
  assert (0 <= rsum (map (fun e => (predicted gamma d c w' v' e - predicted gamma d c w v e) ^ 2) eps)).
  { apply rsum_nonneg. intros y Hy. apply in_map_iff in Hy as (z & <- & _). apply pow2_ge_0. }
  pose proof (pow2_ge_0 (predicted gamma d c w' v' e - predicted gamma d c w v e)) as Q.
  destruct Hin as [<-|Hin]; [|apply IH; [lra|exact Hin]].
  assert (Z : (predicted gamma d c w' v' e - predicted gamma d c w v e) ^ 2 = 0) by lra.
  destruct (Req_dec (predicted gamma d c w' v' e - predicted gamma d c w v e) 0) as [|N]; [lra|]. apply (pow_nonzero _ 2) in N. contradiction.
Qed.

(** The normal equations of a least squares fit. *)
Lemma quad_zero : forall a b, (forall t, 0 <= a * t + b * t ^ 2) -> 0 <= b -> a = 0.
Proof.
  intros a b H B. destruct (Req_dec a 0) as [|N]; [assumption|exfalso]. assert (AA : 0 < a * a) by (destruct (Rdichotomy _ _ N); nra).
  destruct (Req_dec b 0) as [->|NB].
  - pose proof (H (- a)). nra.
  - assert (P : 0 < b) by lra. pose proof (H (- a / (2 * b))) as Q.
    assert (E : a * (- a / (2 * b)) + b * (- a / (2 * b)) ^ 2 = - (a * a / (4 * b))) by (field; lra). rewrite E in Q.
    assert (0 < a * a / (4 * b)). { apply Rdiv_lt_0_compat; nra. } lra.
Qed.

Lemma normal_equations : forall gamma d c eps w v, (forall a b, squared_error gamma d c eps w v <= squared_error gamma d c eps a b) ->
  forall w' v', rsum (map (fun e => predicted gamma d c w' v' e * (return_ gamma e - predicted gamma d c w v e)) eps) = 0.
Proof.
  intros gamma d c eps w v H w' v'.
  assert (S : forall t, squared_error gamma d c eps (vadd w (vscal t w')) (vadd v (vscal t v')) = squared_error gamma d c eps w v +
     ((-2 * rsum (map (fun e => predicted gamma d c w' v' e * (return_ gamma e - predicted gamma d c w v e)) eps)) * t +
      rsum (map (fun e => predicted gamma d c w' v' e ^ 2) eps) * t ^ 2)).
  { intros t. unfold squared_error. rewrite (Rmult_comm _ (t ^ 2)), (Rmult_comm _ t), <- !rsum_map_scal, <- !rsum_map_plus. apply rsum_map_ext. intros e _.
    assert (L : predicted gamma d c (vadd w (vscal t w')) (vadd v (vscal t v')) e = predicted gamma d c w v e + t * predicted gamma d c w' v' e).
    { unfold predicted. rewrite dot_add_r, dot_scal_r. rewrite (sm_ext c _ (fun j => nth j (match e with [] => [] | x :: _ => phi_c x end) 0 * v j + t * (nth j (match e with [] => [] | x :: _ => phi_c x end) 0 * v' j))).
      - rewrite sm_plus, sm_scal. ring.
      - intros. unfold vadd, vscal. ring. }
    rewrite L. ring. }
  assert (Q : -2 * rsum (map (fun e => predicted gamma d c w' v' e * (return_ gamma e - predicted gamma d c w v e)) eps) = 0); [|lra].
  apply quad_zero with (b := rsum (map (fun e => predicted gamma d c w' v' e ^ 2) eps)).
  - intros t. pose proof (H (vadd w (vscal t w')) (vadd v (vscal t v'))) as Q. rewrite S in Q. lra.
  - apply rsum_nonneg. intros y Hy. apply in_map_iff in Hy as (z & <- & _). nra.
Qed.

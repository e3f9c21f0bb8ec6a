(** Theorems C48. *)
From Coq Require Import List Arith Lia Bool Reals Lra Psatz FunctionalExtensionality.
From Verif Require Import Common OptModel.
Import ListNotations.
Local Open Scope R_scope.

Lemma vdot_comm : forall d a b, vdot d a b = vdot d b a.
Proof. intros. unfold vdot. apply rsum_map_ext. intros. ring. Qed.
Lemma vdot_scal_l : forall d c a b, vdot d (fun i => c * a i) b = c * vdot d a b.
Proof. intros. unfold vdot. rewrite <- rsum_map_scal. apply rsum_map_ext. intros. ring. Qed.
Lemma vdot_scal_r : forall d c a b, vdot d a (fun i => c * b i) = c * vdot d a b.
Proof. intros. rewrite vdot_comm, vdot_scal_l, vdot_comm. reflexivity. Qed.
Lemma vdot_plus_l : forall d a a' b, vdot d (fun i => a i + a' i) b = vdot d a b + vdot d a' b.
Proof. intros. unfold vdot. rewrite <- rsum_map_plus. apply rsum_map_ext. intros. ring. Qed.
Lemma vdot_ext : forall d a a' b, (forall i, a i = a' i) -> vdot d a b = vdot d a' b.
Proof. intros. unfold vdot. apply rsum_map_ext. intros. rewrite H. reflexivity. Qed.

(** A metric: linear, symmetric, positive. *)
Definition metric (d : nat) (M : vec -> vec) : Prop :=
  (forall c u i, M (fun k => c * u k) i = c * M u i) /\ (forall u v i, M (fun k => u k + v k) i = M u i + M v i) /\
  (forall u v, vdot d u (M v) = vdot d (M u) v) /\ (forall u, 0 <= vdot d u (M u)).

(** The metric length of the step never exceeds eps; it is exactly eps unless the gradient is
    tiny (the numerical guard), and then the step is the best one within that length. *)
Theorem adaptive_step : forall d M eps params g ng p' arr, metric d M -> 0 < eps -> (forall i, M ng i = g i) ->
  adaptive d eps true params g ng = (p', arr) ->
  let delta := fun i => p' i - params i in
  let tiny := sqrt (vdot d g ng / (4 * eps)) < / 100000000 in
  vdot d delta (M delta) <= eps /\ (~ tiny -> vdot d delta (M delta) = eps) /\ 0 <= vdot d delta g /\
  (~ tiny -> forall delta', vdot d delta' (M delta') <= eps -> vdot d delta' g <= vdot d delta g) /\ arr = ng.
Proof.
  intros d M eps params g ng p' arr (ML & MA & MS & MP) He MG H delta tiny. unfold adaptive in H. inversion H; subst p' arr; clear H.
  set (lr := step_length d eps g ng) in *. set (q := vdot d g ng) in *.
  assert (DE : forall i, delta i = lr * ng i) by (intros; unfold delta; ring).
  assert (EXT : delta = (fun i => lr * ng i)) by (apply functional_extensionality; auto).
  assert (Q0 : 0 <= q). { unfold q. rewrite vdot_comm. rewrite (vdot_comm d ng g), (vdot_ext d g (M ng)) by (intros; symmetry; apply MG). rewrite vdot_comm. apply MP. }
  assert (MD : vdot d delta (M delta) = lr ^ 2 * q).
  { rewrite EXT. rewrite vdot_scal_l, vdot_comm. rewrite (vdot_ext d (M (fun i => lr * ng i)) (fun i => lr * g i)) by (intros; rewrite ML, MG; auto).
    rewrite vdot_scal_l. fold q. ring. }
  assert (DG : vdot d delta g = lr * q) by (rewrite EXT, vdot_scal_l, vdot_comm; reflexivity).
  set (l0 := sqrt (q / (4 * eps))) in *. assert (L0 : 0 <= l0) by apply sqrt_pos.
  assert (SQ : l0 * l0 = q / (4 * eps)). { apply sqrt_sqrt. apply Rmult_le_pos; auto. left. apply Rinv_0_lt_compat. lra. }
  assert (QE : q = 4 * eps * (l0 * l0)) by (rewrite SQ; field; lra).
  assert (LR : lr = 1 / (2 * Rmax l0 (/ 100000000))) by reflexivity.
  assert (C0 : 0 < / 100000000) by lra. set (c := / 100000000) in *.
  assert (MX : 0 < Rmax l0 c) by (apply Rlt_le_trans with c; auto; apply Rmax_r).
  assert (LP : 0 < lr) by (rewrite LR; apply Rdiv_lt_0_compat; lra).
  split; [|split; [|split; [|split]]]; auto.
  - rewrite MD, LR, QE. replace ((1 / (2 * Rmax l0 c)) ^ 2 * (4 * eps * (l0 * l0))) with (eps * ((l0 / Rmax l0 c) * (l0 / Rmax l0 c))) by (field; lra).
    assert (B : 0 <= l0 / Rmax l0 c <= 1). { split; [apply Rmult_le_pos; auto; left; apply Rinv_0_lt_compat; auto|]. apply Rmult_le_reg_r with (Rmax l0 c); auto. unfold Rdiv. rewrite Rmult_assoc, Rinv_l by lra. pose proof (Rmax_l l0 c). lra. }
    set (z := l0 / Rmax l0 c) in *. assert (ZZ : z * z <= 1) by (clear - B; nra). clear - ZZ He. nra.
  - intros NT. unfold tiny in NT. assert (R1 : Rmax l0 c = l0) by (apply Rmax_left; lra). rewrite MD, LR, QE, R1. field. lra.
  - rewrite DG. apply Rmult_le_pos; lra.
  - intros NT delta' HD. unfold tiny in NT. assert (R1 : Rmax l0 c = l0) by (apply Rmax_left; lra). rewrite R1 in LR.
    assert (LL : 0 < l0) by lra. rewrite DG, LR, QE.
    replace (1 / (2 * l0) * (4 * eps * (l0 * l0))) with (2 * eps * l0) by (field; lra).
    (* 0 <= |delta' - c ng|^2 *)
    assert (G1 : vdot d delta' g = vdot d delta' (M ng)). { rewrite (vdot_comm d delta' g), (vdot_comm d delta' (M ng)). apply vdot_ext. intros; auto. }
    set (k := - (1 / (2 * l0))).
    pose proof (MP (fun i => delta' i + k * ng i)) as P.
    assert (E : vdot d (fun i => delta' i + k * ng i) (M (fun i => delta' i + k * ng i)) = vdot d delta' (M delta') + 2 * k * vdot d delta' g + k ^ 2 * q).
    { rewrite vdot_comm. rewrite (vdot_ext d _ (fun i => M delta' i + k * g i)) by (intros; rewrite MA, ML, MG; auto).
      rewrite vdot_plus_l, vdot_scal_l. rewrite !(vdot_comm d _ (fun i => delta' i + k * ng i)). rewrite !vdot_plus_l, !vdot_scal_l.
      replace (vdot d ng (M delta')) with (vdot d delta' g) by (rewrite MS, (vdot_ext d (M ng) g) by auto; apply vdot_comm).
      rewrite (vdot_comm d ng g). fold q. ring. }
    rewrite E in P. rewrite QE in P. unfold k in P.
    replace ((- (1 / (2 * l0))) ^ 2 * (4 * eps * (l0 * l0))) with eps in P by (field; lra).
    set (x := vdot d delta' g) in *. clearbody x.
    assert (P2 : 2 * (1 / (2 * l0)) * x <= 2 * eps) by lra.
    replace (2 * (1 / (2 * l0)) * x) with (x / l0) in P2 by (field; lra).
    apply Rmult_le_reg_r with (/ l0); [apply Rinv_0_lt_compat; auto|]. rewrite Rmult_assoc, Rinv_r by lra. unfold Rdiv in P2. lra.
Qed.

(** Minimising with a gradient is maximising with its opposite, for the three optimizers, and
    over any sequence of Adam steps. *)
Theorem minimize_negates : forall d eps lr b1 b2 ae params g ng calls st i,
  fst (adaptive d eps false params g ng) i = fst (adaptive d eps true params (fun k => - g k) (fun k => - ng k)) i /\
  fst (sgd lr false params g) i = fst (sgd lr true params (fun k => - g k)) i /\
  snd (adam_run b1 b2 ae false st params calls) i = snd (adam_run b1 b2 ae true st params (map (fun c => (fst c, fun k => - snd c k)) calls)) i.
Proof.
  intros d eps lr b1 b2 ae params g ng calls st i. split; [|split].
  - unfold adaptive. cbn [fst]. unfold step_length.
    assert (E : vdot d (fun k => - g k) (fun k => - ng k) = vdot d g ng) by (unfold vdot; apply rsum_map_ext; intros; ring).
    rewrite E. ring.
  - unfold sgd. cbn [fst]. ring.
  - f_equal. revert st params. induction calls as [|[l v] calls IH]; intros st params; [reflexivity|]. cbn [map fst snd adam_run].
    assert (E : (fun k => v k * -1) = (fun k => - v k)) by (apply functional_extensionality; intros; ring).
    change (adam_call l b1 b2 ae false st params v) with (let '(a, b, _) := adam_call l b1 b2 ae true st params (fun k => v k * -1) in (a, b, fun k => v k * -1)).
    rewrite E. destruct (adam_call l b1 b2 ae true st params (fun k => - v k)) as [[a b] c]. apply IH.
Qed.

(** The caller's gradient array is overwritten when minimising, so passing the same array
    twice climbs back. *)
Theorem caller_gradient_modified_refuted : exists (params g p1 g1 p2 g2 : vec), sgd 1 false params g = (p1, g1) /\ sgd 1 false p1 g1 = (p2, g2) /\
  g1 0%nat <> g 0%nat /\ p1 0%nat = params 0%nat - g 0%nat /\ p2 0%nat = params 0%nat.
Proof.
  exists (fun _ => 0), (fun _ => 1). do 4 eexists. split; [reflexivity|]. split; [reflexivity|]. cbv beta. repeat split; lra.
Qed.

(** * Adam *)
(** The corrected averages are convex combinations of the gradients seen (and of their
    squares), with weights (1-b) b^(t-k) / (1-b^t). *)
Theorem adam_averages : forall (lrs_gs : list (R * vec)) b1 b2 eps maximize params st p', 0 <= b1 < 1 -> 0 <= b2 < 1 -> lrs_gs <> [] ->
  adam_run b1 b2 eps maximize None params lrs_gs = (Some st, p') ->
  let t := length lrs_gs in
  let sgn := if maximize then 1 else -1 in
  let w := fun b k => (1 - b) * b ^ (t - 1 - k) / (1 - b ^ t) in
  ad_t st = t /\
  (forall b, 0 <= b < 1 -> (forall k, (k < t)%nat -> 0 <= w b k) /\ rsum (map (w b) (seq 0 t)) = 1) /\
  (forall i, ad_m st i / (1 - b1 ^ t) = rsum (map (fun k => w b1 k * (sgn * snd (nth k lrs_gs (0, fun _ => 0)) i)) (seq 0 t))) /\
  (forall i, ad_v st i / (1 - b2 ^ t) = rsum (map (fun k => w b2 k * (snd (nth k lrs_gs (0, fun _ => 0)) i) ^ 2) (seq 0 t))).
Proof.
  intros calls b1 b2 eps maximize params st p' H1 H2 NE H t sgn w.
  assert (BT : forall b n, 0 <= b < 1 -> (0 < n)%nat -> 0 <= b ^ n < 1).
  { intros b n Hb Hn. destruct n as [|n]; [lia|]. clear Hn. induction n as [|n IH]; [simpl; lra|]. change (b ^ S (S n)) with (b * b ^ S n). nra. }
  assert (TP : (0 < t)%nat) by (unfold t; destruct calls; [congruence|simpl; lia]).
  assert (G : forall n b, 0 <= b < 1 -> rsum (map (fun k => (1 - b) * b ^ (n - 1 - k)) (seq 0 n)) = 1 - b ^ n).
  { intros n b Hb. induction n as [|n IH]; [simpl; lra|]. rewrite seq_S, map_app, rsum_app. simpl.
    replace (n - 0 - n)%nat with 0%nat by lia. simpl.
    rewrite (rsum_map_ext _ _ (fun k => b * ((1 - b) * b ^ (n - 1 - k)))).
    - rewrite rsum_map_scal, IH. ring.
    - intros k Hk. apply in_seq in Hk. replace (n - 0 - k)%nat with (S (n - 1 - k)) by lia. simpl. ring. }
  assert (CL : forall calls st0 p0 stf pf, calls <> [] -> adam_run b1 b2 eps maximize st0 p0 calls = (stf, pf) ->
     exists s, stf = Some s /\ let s0 := match st0 with Some s => s | None => {| ad_m := fun _ => 0; ad_v := fun _ => 0; ad_t := 0 |} end in
       ad_t s = (ad_t s0 + length calls)%nat /\
       forall i, ad_m s i = b1 ^ length calls * ad_m s0 i + rsum (map (fun k => (1 - b1) * b1 ^ (length calls - 1 - k) * (sgn * snd (nth k calls (0, fun _ => 0)) i)) (seq 0 (length calls))) /\
         ad_v s i = b2 ^ length calls * ad_v s0 i + rsum (map (fun k => (1 - b2) * b2 ^ (length calls - 1 - k) * (snd (nth k calls (0, fun _ => 0)) i) ^ 2) (seq 0 (length calls)))).
  { clear calls NE H t w TP G. induction calls as [|[l g] calls IH]; intros st0 p0 stf pf NE H; [congruence|]. cbn [adam_run] in H.
    destruct (adam_call l b1 b2 eps maximize st0 p0 g) as [[st1 p1] g1] eqn:AC. unfold adam_call in AC. inversion AC as [[E1 E2 E3]]; clear AC.
    set (s0 := match st0 with Some s => s | None => _ end) in *.
    assert (GS : forall i, (if maximize then g else fun k => g k * -1) i = sgn * g i) by (intros i; unfold sgn; destruct maximize; ring).
    set (s1 := {| ad_m := _; ad_v := _; ad_t := _ |}) in E1.
    assert (A1 : forall i, ad_m s1 i = b1 * ad_m s0 i + (1 - b1) * (sgn * g i)) by (intros; unfold s1; cbn [ad_m]; rewrite GS; auto).
    assert (A2 : forall i, ad_v s1 i = b2 * ad_v s0 i + (1 - b2) * g i ^ 2).
    { intros; unfold s1; cbn [ad_v]; rewrite GS. unfold sgn. destruct maximize; ring. }
    assert (A3 : ad_t s1 = S (ad_t s0)) by reflexivity. clearbody s1.
    destruct calls as [|c calls].
    - simpl in H. inversion H; subst. exists s1. split; auto. cbv zeta. split; [simpl; lia|]. intros i. cbn [length seq map rsum nth snd]. simpl pow. rewrite A1, A2. split; ring.
    - rewrite <- E1 in H. destruct (IH (Some s1) p1 stf pf ltac:(discriminate) H) as (s & ES & B1 & B2). exists s. split; auto. cbv zeta. cbv zeta in B1, B2. split; [rewrite B1, A3; simpl; lia|].
      intros i. destruct (B2 i) as [C1 C2]. rewrite C1, C2, A1, A2. change (length ((l, g) :: c :: calls)) with (S (length (c :: calls))).
      set (n := length (c :: calls)) in *. cbn [seq map rsum]. rewrite <- !seq_shift, !map_map. cbn [nth snd].
      replace (S n - 1 - 0)%nat with n by lia. replace (S n - 1)%nat with n by lia.
      rewrite (rsum_map_ext _ (fun k => (1 - b1) * b1 ^ (n - S k) * _) (fun k => (1 - b1) * b1 ^ (n - 1 - k) * (sgn * snd (nth k (c :: calls) (0, fun _ => 0)) i))) by (intros k Hk; replace (n - S k)%nat with (n - 1 - k)%nat by lia; reflexivity).
      rewrite (rsum_map_ext _ (fun k => (1 - b2) * b2 ^ (n - S k) * _) (fun k => (1 - b2) * b2 ^ (n - 1 - k) * (snd (nth k (c :: calls) (0, fun _ => 0)) i) ^ 2)) by (intros k Hk; replace (n - S k)%nat with (n - 1 - k)%nat by lia; reflexivity).
      split; match goal with |- _ + ?A = _ + (_ + ?B) => change A with B; generalize B; intro end; simpl pow; ring. }
  destruct (CL calls None params (Some st) p' NE H) as (s & ES & T1 & V1). inversion ES; subst s. cbn [ad_t ad_m ad_v] in T1, V1. fold t in T1, V1.
  pose proof (BT b1 t H1 TP). pose proof (BT b2 t H2 TP).
  split; [simpl in T1; lia|]. split; [|split].
  - intros b Hb. pose proof (BT b t Hb TP) as B. split.
    + intros k Hk. unfold w. apply Rmult_le_pos; [apply Rmult_le_pos; [lra|apply pow_le; lra]|]. left. apply Rinv_0_lt_compat. lra.
    + unfold w. rewrite (rsum_map_ext _ _ (fun k => / (1 - b ^ t) * ((1 - b) * b ^ (t - 1 - k)))) by (intros; unfold Rdiv; ring).
      rewrite rsum_map_scal, G by auto. field. lra.
  - intros i. destruct (V1 i) as [-> _]. rewrite Rmult_0_r, Rplus_0_l. unfold w. unfold Rdiv. rewrite Rmult_comm, <- rsum_map_scal. apply rsum_map_ext. intros; ring.
  - intros i. destruct (V1 i) as [_ ->]. rewrite Rmult_0_r, Rplus_0_l. unfold w. unfold Rdiv. rewrite Rmult_comm, <- rsum_map_scal. apply rsum_map_ext. intros; ring.
Qed.

(** The average of the numbers seen so far, the number seen j steps ago weighing b^j. *)
Definition expavg (b : R) (xs : list R) : R :=
  rsum (map (fun k => b ^ (length xs - 1 - k) * nth k xs 0) (seq 0 (length xs))) / rsum (map (fun k => b ^ (length xs - 1 - k)) (seq 0 (length xs))).

Lemma adam_run_app : forall b1 b2 eps mx calls st p calls', adam_run b1 b2 eps mx st p (calls ++ calls') =
  let '(st', p') := adam_run b1 b2 eps mx st p calls in adam_run b1 b2 eps mx st' p' calls'.
Proof.
  induction calls as [|[l g] calls IH]; intros; [reflexivity|]. cbn [app adam_run]. destruct (adam_call l b1 b2 eps mx st p g) as [[a b] c]. apply IH.
Qed.
Lemma adam_run_some : forall b1 b2 eps mx calls st p, calls <> [] -> exists s p', adam_run b1 b2 eps mx st p calls = (Some s, p').
Proof.
  induction calls as [|[l g] calls IH]; intros st p NE; [congruence|]. destruct calls as [|c calls].
  - cbn. do 2 eexists. reflexivity.
  - cbn [adam_run]. destruct (adam_call l b1 b2 eps mx st p g) as [[a b] d]. apply IH. discriminate.
Qed.
Lemma geom : forall n b, (1 - b) * rsum (map (fun k => b ^ (n - 1 - k)) (seq 0 n)) = 1 - b ^ n.
Proof.
  intros n b. induction n as [|n IH]; [simpl; ring|]. rewrite seq_S, map_app, rsum_app. simpl. replace (n - 0 - n)%nat with 0%nat by lia. simpl.
  rewrite (rsum_map_ext _ _ (fun k => b * b ^ (n - 1 - k))).
  - rewrite rsum_map_scal. replace ((1 - b) * (b * rsum (map (fun k => b ^ (n - 1 - k)) (seq 0 n)) + (1 + 0))) with (b * ((1 - b) * rsum (map (fun k => b ^ (n - 1 - k)) (seq 0 n))) + (1 - b)) by ring.
    rewrite IH. ring.
  - intros k Hk. apply in_seq in Hk. replace (n - 0 - k)%nat with (S (n - 1 - k)) by lia. reflexivity.
Qed.

(** Every Adam step moves by the learning rate of that step times the average gradient over the
    root of the average squared gradient. *)
Theorem adam_update : forall (calls : list (R * vec)) lr (g : vec) b1 b2 eps params i, 0 <= b1 < 1 -> 0 <= b2 < 1 ->
  let gs := map (fun c => snd c i) calls ++ [g i] in
  snd (adam_run b1 b2 eps true None params (calls ++ [(lr, g)])) i =
  snd (adam_run b1 b2 eps true None params calls) i + lr * expavg b1 gs / (sqrt (expavg b2 (map (fun x => x ^ 2) gs)) + eps).
Proof.
  intros calls lr g b1 b2 eps params i H1 H2 gs.
  destruct (adam_run_some b1 b2 eps true (calls ++ [(lr, g)]) None params ltac:(destruct calls; discriminate)) as (s & p' & E).
  assert (NE : calls ++ [(lr, g)] <> []) by (destruct calls; discriminate).
  pose proof (adam_averages _ _ _ _ _ _ _ _ H1 H2 NE E) as (T & _ & M & V). cbv zeta in M, V.
  assert (U : p' i = snd (adam_run b1 b2 eps true None params calls) i + lr * (ad_m s i / (1 - b1 ^ ad_t s)) / (sqrt (ad_v s i / (1 - b2 ^ ad_t s)) + eps)).
  { rewrite adam_run_app in E. destruct (adam_run b1 b2 eps true None params calls) as [st0 p0]. cbn [adam_run] in E. unfold adam_call in E. inversion E; subst s p'. cbn [ad_m ad_v ad_t snd]. reflexivity. }
  rewrite E. cbn [snd]. rewrite U. rewrite T in *. set (t := length (calls ++ [(lr, g)])) in *.
  assert (LG : length gs = t) by (unfold gs, t; rewrite !app_length, map_length; reflexivity).
  assert (NT : forall k, (k < t)%nat -> nth k gs 0 = snd (nth k (calls ++ [(lr, g)]) (0, fun _ => 0)) i).
  { intros k Hk. unfold gs. change [g i] with (map (fun c : R * vec => snd c i) [(lr, g)]). rewrite <- map_app.
    change 0 with ((fun c : R * vec => snd c i) (0, fun _ => 0)) at 1. apply (map_nth (fun c : R * vec => snd c i)). }
  assert (TP : (0 < t)%nat) by (unfold t; rewrite app_length; simpl; lia).
  assert (BT : forall b n, 0 <= b < 1 -> (0 < n)%nat -> 0 <= b ^ n < 1).
  { intros b n Hb Hn. destruct n as [|n]; [lia|]. clear Hn. induction n as [|n IH]; [simpl; lra|]. change (b ^ S (S n)) with (b * b ^ S n). nra. }
  assert (AV : forall b (f : R -> R), 0 <= b < 1 -> rsum (map (fun k => (1 - b) * b ^ (t - 1 - k) / (1 - b ^ t) * f (nth k gs 0)) (seq 0 t)) = expavg b (map f gs)).
  { intros b f Hb. unfold expavg. rewrite map_length, LG. pose proof (geom t b) as G. pose proof (BT b t Hb TP) as B.
    set (Z := rsum (map (fun k => b ^ (t - 1 - k)) (seq 0 t))) in *. assert (ZZ : Z = (1 - b ^ t) / (1 - b)) by (rewrite <- G; field; lra).
    rewrite ZZ. unfold Rdiv at 2. rewrite Rmult_comm, <- rsum_map_scal. apply rsum_map_ext. intros k Hk. apply in_seq in Hk.
    rewrite (nth_indep (map f gs) 0 (f 0)) by (rewrite map_length; lia). rewrite map_nth. field. lra. }
  assert (E1 : ad_m s i / (1 - b1 ^ t) = expavg b1 gs).
  { rewrite M. rewrite <- (map_id gs) at 1. rewrite <- AV by auto. apply rsum_map_ext. intros k Hk. apply in_seq in Hk. rewrite NT by lia. rewrite Rmult_1_l. reflexivity. }
  assert (E2 : ad_v s i / (1 - b2 ^ t) = expavg b2 (map (fun x => x ^ 2) gs)).
  { rewrite V. rewrite <- (AV b2 (fun x => x ^ 2)) by auto. apply rsum_map_ext. intros k Hk. apply in_seq in Hk. rewrite NT by lia. reflexivity. }
  rewrite E1, E2. reflexivity.
Qed.

(** The first step has length at most the learning rate in every coordinate, in the direction
    of the gradient. *)
Theorem adam_first_step : forall lr b1 b2 eps params g i, 0 <= b1 < 1 -> 0 <= b2 < 1 -> 0 < eps -> 0 <= lr ->
  let p' := snd (adam_run b1 b2 eps true None params [(lr, g)]) in
  p' i - params i = lr * g i / (Rabs (g i) + eps) /\ Rabs (p' i - params i) <= lr /\ 0 <= (p' i - params i) * g i.
Proof.
  intros lr b1 b2 eps params g i H1 H2 He Hl p'.
  assert (E : p' i - params i = lr * g i / (Rabs (g i) + eps)).
  { unfold p'. cbn. rewrite !Rmult_1_r, !Rmult_0_r, !Rplus_0_l.
    replace ((1 - b1) * g i / (1 - b1)) with (g i) by (field; lra). replace ((1 - b2) * (g i * g i) / (1 - b2)) with (Rsqr (g i)) by (unfold Rsqr; field; lra).
    rewrite sqrt_Rsqr_abs. ring. }
  assert (A : 0 <= Rabs (g i)) by apply Rabs_pos.
  assert (B : 0 < / (Rabs (g i) + eps)) by (apply Rinv_0_lt_compat; lra).
  split; auto. rewrite E. split.
  - unfold Rdiv. rewrite !Rabs_mult, (Rabs_pos_eq lr) by auto. rewrite (Rabs_pos_eq (/ _)) by lra. rewrite Rmult_assoc.
    rewrite <- (Rmult_1_r lr) at 2. apply Rmult_le_compat_l; auto. apply Rmult_le_reg_r with (Rabs (g i) + eps); [lra|]. rewrite Rmult_assoc, Rinv_l by lra. lra.
  - unfold Rdiv. replace (lr * g i * / (Rabs (g i) + eps) * g i) with (lr * (/ (Rabs (g i) + eps)) * (g i * g i)) by ring.
    apply Rmult_le_pos; [apply Rmult_le_pos; lra|]. apply Rle_0_sqr.
Qed.

(** * Concrete cases *)
Example sgd_demo : fst (sgd 2 false (fun _ => 1) (fun i => INR i)) 3%nat = -5.
Proof. unfold sgd. simpl. lra. Qed.
Example adaptive_demo : step_length 1 1 (fun _ => 2) (fun _ => 2) = 1 / 2.
Proof.
  unfold step_length, vdot. simpl. replace ((2 * 2 + 0) / (4 * 1)) with 1 by lra. rewrite sqrt_1. rewrite Rmax_left by lra. lra.
Qed.

Print Assumptions adaptive_step.
Print Assumptions minimize_negates.
Print Assumptions caller_gradient_modified_refuted.
Print Assumptions adam_averages.
Print Assumptions adam_update.
Print Assumptions adam_first_step.

(** Theorems about the classic actor-critic agents (C70, C71). *)
From Coq Require Import List Arith Lia Reals Lra Bool.
From Verif Require Import Common AcModel.
Import ListNotations.
Open Scope R_scope.

(** * General facts *)

Definition prodR (l : list R) : R := fold_right Rmult 1 l.

Lemma prodR_app : forall a b, prodR (a ++ b) = prodR a * prodR b.
Proof. induction a; intros; simpl; [lra|rewrite IHa; ring]. Qed.

Lemma rsum_app' : forall a b, rsum (a ++ b) = rsum a + rsum b.
Proof. induction a; intros; simpl; [lra|rewrite IHa; ring]. Qed.

Lemma rsum_seq_S : forall f n, rsum (map f (seq 0 (S n))) = rsum (map f (seq 0 n)) + f n.
Proof. intros. rewrite seq_S, map_app, rsum_app'. simpl. lra. Qed.

Lemma rsum_ext_in : forall A (f g : A -> R) l, (forall x, In x l -> f x = g x) -> rsum (map f l) = rsum (map g l).
Proof. intros. f_equal. apply map_ext_in. auto. Qed.

Lemma rsum_scal : forall A c (f : A -> R) l, rsum (map (fun x => c * f x) l) = c * rsum (map f l).
Proof. induction l; simpl; [lra|rewrite IHl; lra]. Qed.

Lemma rsum_plus : forall A (f g : A -> R) l, rsum (map (fun x => f x + g x) l) = rsum (map f l) + rsum (map g l).
Proof. induction l; simpl; [lra|rewrite IHl; lra]. Qed.

Lemma rsum_swap : forall A B (f : A -> B -> R) l m,
  rsum (map (fun x => rsum (map (fun y => f x y) m)) l) = rsum (map (fun y => rsum (map (fun x => f x y) l)) m).
Proof.
  induction l as [|a l IH]; intros m; simpl.
  - induction m; simpl; auto. rewrite <- IHm. lra.
  - rewrite IH. rewrite <- rsum_plus. reflexivity.
Qed.

(** the decay from time m to time i *)
Definition decay (c : nat -> R) (m i : nat) : R := prodR (map c (seq (S m) (i - m))).

Lemma trace_closed : forall (c f e : nat -> R) N, e 0%nat = 0 ->
  (forall n, (n < N)%nat -> e (S n) = c n * e n + f n) ->
  forall n, (n < N)%nat -> e (S n) = rsum (map (fun m => decay c m n * f m) (seq 0 (S n))).
Proof.
  intros c f e N E0 ES. induction n; intros H.
  - rewrite ES by auto. rewrite E0. simpl. unfold decay. simpl. lra.
  - rewrite ES by auto. rewrite IHn by lia. rewrite (rsum_seq_S _ (S n)).
    assert (decay c (S n) (S n) = 1) as -> by (unfold decay; rewrite Nat.sub_diag; reflexivity).
    rewrite Rmult_1_l. f_equal. rewrite <- rsum_scal. apply rsum_ext_in. intros m Hm. apply in_seq in Hm.
    unfold decay. replace (S n - m)%nat with (S (n - m)) by lia. rewrite seq_S, map_app, prodR_app. simpl.
    replace (S (m + (n - m))) with (S n) by lia. ring.
Qed.

Lemma sum_closed : forall (g w : nat -> R) N, (forall n, (n < N)%nat -> w (S n) = w n + g n) ->
  w N = w 0%nat + rsum (map g (seq 0 N)).
Proof.
  intros g w N H. assert (K : forall n, (n <= N)%nat -> w n = w 0%nat + rsum (map g (seq 0 n))).
  { induction n; intros L; [simpl; lra|]. rewrite H, IHn, rsum_seq_S by lia. lra. }
  apply K. lia.
Qed.

Lemma firstn_S_nth : forall A (l : list A) n d, (n < length l)%nat -> firstn (S n) l = firstn n l ++ [nth n l d].
Proof. induction l; intros [|n] d H; simpl in *; try lia; auto. f_equal. apply IHl. lia. Qed.

(** * C70: stochastic actor-critic *)
Section SacT.
Context {X Ac : Type}.
Variable nv : nat.
Variable psi : X -> vec.
Variable score : vec -> X -> Ac -> vec.
Variable gamma : R.
Variables al_v al_t al_r : nat -> X -> Ac -> R.
Variable lam : nat -> R.

(** value of a state with the weights [w], and the TD error of a transition, without
    bootstrap from absorbing states *)
Definition value (w : vec) (x : X) : R := rsum (map (fun j => psi x j * w j) (seq 0 nv)).
Definition td_error (w : vec) (t : @tr X Ac) : R :=
  x_r t + gamma * (if x_abs t then 0 else value w (x_n t)) - value w (x_s t).

Notation fit := (sac_fit nv psi score gamma al_v al_t lam).
Notation afit := (avg_fit nv psi score al_v al_t al_r lam).

Lemma fit_snoc : forall a ds t, fit a (ds ++ [t]) = sac_step nv psi score gamma al_v al_t lam (fit a ds) t.
Proof. intros. unfold sac_fit. apply fold_left_app. Qed.
Lemma afit_snoc : forall a ds t, afit a (ds ++ [t]) = avg_step nv psi score al_v al_t al_r lam (afit a ds) t.
Proof. intros. unfold avg_fit. apply fold_left_app. Qed.

Lemma fit_counts : forall ds a, s_k (fit a ds) = (s_k a + length ds)%nat /\ s_l (fit a ds) = (s_l a + 2 * length ds)%nat.
Proof.
  induction ds as [|t ds IH] using rev_ind; intros a; [simpl; lia|].
  rewrite fit_snoc, app_length. destruct (IH a) as [A B]. unfold sac_step, sac_apply. cbn [s_k s_l]. rewrite A, B. simpl. lia.
Qed.
Lemma afit_counts : forall ds a, s_k (afit a ds) = (s_k a + length ds)%nat /\ s_l (afit a ds) = (s_l a + 2 * length ds)%nat.
Proof.
  induction ds as [|t ds IH] using rev_ind; intros a; [simpl; lia|].
  rewrite afit_snoc, app_length. destruct (IH a) as [A B]. unfold avg_step, sac_apply. cbn [s_k s_l]. rewrite A, B. simpl. lia.
Qed.

(** The weights after an episode (any number of transitions since its start, however
    they are split into fits): each TD error, computed with the weights of its time, is
    credited to every earlier state of the episode and to every earlier action score,
    discounted by the product of the trace factors in between. *)
Theorem sac_credit : forall a (ds : list (@tr X Ac)) d j,
  let run i := fit (sac_start a) (firstn i ds) in
  let t i := nth i ds d in
  s_v (fit (sac_start a) ds) j = s_v a j +
    rsum (map (fun i => al_v (s_k a + i)%nat (x_s (t i)) (x_a (t i)) * td_error (s_v (run i)) (t i) *
                        rsum (map (fun m => decay (fun q => gamma * lam (s_l a + 2 * q)%nat) m i * psi (x_s (t m)) j) (seq 0 (S i))))
              (seq 0 (length ds))) /\
  s_t (fit (sac_start a) ds) j = s_t a j +
    rsum (map (fun i => al_t (s_k a + i)%nat (x_s (t i)) (x_a (t i)) * td_error (s_v (run i)) (t i) *
                        rsum (map (fun m => decay (fun q => gamma * lam (s_l a + 2 * q + 1)%nat) m i * score (s_t (run m)) (x_s (t m)) (x_a (t m)) j) (seq 0 (S i))))
              (seq 0 (length ds))).
Proof.
  intros a ds d j run t.
  assert (RS : forall n, (n < length ds)%nat -> run (S n) = sac_step nv psi score gamma al_v al_t lam (run n) (t n)).
  { intros n H. unfold run. rewrite (firstn_S_nth _ ds n d H), fit_snoc. reflexivity. }
  assert (RC : forall n, (n <= length ds)%nat -> s_k (run n) = (s_k a + n)%nat /\ s_l (run n) = (s_l a + 2 * n)%nat).
  { intros n H. unfold run. destruct (fit_counts (firstn n ds) (sac_start a)) as [A B]. rewrite A, B, firstn_length_le by auto. auto. }
  assert (R0 : run 0%nat = sac_start a) by reflexivity.
  assert (RN : fit (sac_start a) ds = run (length ds)) by (unfold run; rewrite firstn_all; reflexivity).
  assert (EV : forall n, (n < length ds)%nat -> s_ev (run (S n)) j =
            rsum (map (fun m => decay (fun q => gamma * lam (s_l a + 2 * q)%nat) m n * psi (x_s (t m)) j) (seq 0 (S n)))).
  { apply (trace_closed (fun q => gamma * lam (s_l a + 2 * q)%nat) (fun m => psi (x_s (t m)) j) (fun n => s_ev (run n) j)); [reflexivity|].
    intros n H. rewrite RS by auto. unfold sac_step, sac_apply. cbn [s_ev]. destruct (RC n) as [_ ->]; [lia|]. reflexivity. }
  assert (ET : forall n, (n < length ds)%nat -> s_et (run (S n)) j =
            rsum (map (fun m => decay (fun q => gamma * lam (s_l a + 2 * q + 1)%nat) m n * score (s_t (run m)) (x_s (t m)) (x_a (t m)) j) (seq 0 (S n)))).
  { apply (trace_closed (fun q => gamma * lam (s_l a + 2 * q + 1)%nat) (fun m => score (s_t (run m)) (x_s (t m)) (x_a (t m)) j) (fun n => s_et (run n) j)); [reflexivity|].
    intros n H. rewrite RS by auto. unfold sac_step, sac_apply. cbn [s_et]. destruct (RC n) as [_ ->]; [lia|].
    replace (S (s_l a + 2 * n)) with (s_l a + 2 * n + 1)%nat by lia. reflexivity. }
  assert (TD : forall n, sac_delta nv psi gamma (run n) (t n) = td_error (s_v (run n)) (t n)).
  { intros n. unfold sac_delta, td_error, v_next, value, dotn. destruct (x_abs (t n)); reflexivity. }
  rewrite RN. split.
  - rewrite (sum_closed (fun i => al_v (s_k a + i)%nat (x_s (t i)) (x_a (t i)) * td_error (s_v (run i)) (t i) *
                        rsum (map (fun m => decay (fun q => gamma * lam (s_l a + 2 * q)%nat) m i * psi (x_s (t m)) j) (seq 0 (S i))))
               (fun n => s_v (run n) j) (length ds)).
    + rewrite R0. reflexivity.
    + intros n H. rewrite <- EV by auto. rewrite <- TD. rewrite (RS n H). unfold sac_step at 1 2, sac_apply. cbn [s_v s_ev].
      destruct (RC n) as [-> _]; [lia|]. reflexivity.
  - rewrite (sum_closed (fun i => al_t (s_k a + i)%nat (x_s (t i)) (x_a (t i)) * td_error (s_v (run i)) (t i) *
                        rsum (map (fun m => decay (fun q => gamma * lam (s_l a + 2 * q + 1)%nat) m i * score (s_t (run m)) (x_s (t m)) (x_a (t m)) j) (seq 0 (S i))))
               (fun n => s_t (run n) j) (length ds)).
    + rewrite R0. reflexivity.
    + intros n H. rewrite <- ET by auto. rewrite <- TD. rewrite (RS n H). unfold sac_step at 1 2, sac_apply. cbn [s_t s_et].
      destruct (RC n) as [-> _]; [lia|]. reflexivity.
Qed.

(** A fit of several transitions is the same as fitting them one by one. *)
Theorem sac_fit_split : forall a ds1 ds2, fit a (ds1 ++ ds2) = fit (fit a ds1) ds2.
Proof. intros. unfold sac_fit. apply fold_left_app. Qed.

(** ** average reward *)

Definition shift_r (c : R) (t : @tr X Ac) : @tr X Ac := mkT (x_s t) (x_a t) (x_r t + c) (x_n t) (x_abs t) (x_last t).
Definition shift_rb (c : R) (a : sac) : sac := mkS (s_v a) (s_t a) (s_ev a) (s_et a) (s_rb a + c) (s_k a) (s_l a).

(** The average-reward version does not depend on the level of the rewards: adding a
    constant to every reward and to the reward estimate changes nothing but the
    reward estimate, by that constant, after any number of transitions. *)
Theorem sac_avg_shift : forall c ds a, afit (shift_rb c a) (map (shift_r c) ds) = shift_rb c (afit a ds).
Proof.
  intros c. unfold avg_fit. induction ds as [|t ds IH]; intros a; [reflexivity|]. cbn [map fold_left]. rewrite <- IH. f_equal.
  assert (D : avg_delta nv psi (shift_rb c a) (shift_r c t) = avg_delta nv psi a t).
  { unfold avg_delta, v_next. cbn. ring. }
  unfold avg_step. rewrite D. unfold sac_apply, shift_rb, shift_r. cbn. f_equal. ring.
Qed.

(** The reward estimate accumulates the TD errors, and the weights are credited as in
    the discounted version, with no discount. *)
Theorem sac_avg_credit : forall a (ds : list (@tr X Ac)) d j,
  let run i := afit (sac_start a) (firstn i ds) in
  let t i := nth i ds d in
  let td i := x_r (t i) - s_rb (run i) + (if x_abs (t i) then 0 else value (s_v (run i)) (x_n (t i))) - value (s_v (run i)) (x_s (t i)) in
  s_rb (afit (sac_start a) ds) = s_rb a + rsum (map (fun i => al_r (s_k a + i)%nat (x_s (t i)) (x_a (t i)) * td i) (seq 0 (length ds))) /\
  s_v (afit (sac_start a) ds) j = s_v a j +
    rsum (map (fun i => al_v (s_k a + i)%nat (x_s (t i)) (x_a (t i)) * td i *
                        rsum (map (fun m => decay (fun q => lam (s_l a + 2 * q)%nat) m i * psi (x_s (t m)) j) (seq 0 (S i))))
              (seq 0 (length ds))) /\
  s_t (afit (sac_start a) ds) j = s_t a j +
    rsum (map (fun i => al_t (s_k a + i)%nat (x_s (t i)) (x_a (t i)) * td i *
                        rsum (map (fun m => decay (fun q => lam (s_l a + 2 * q + 1)%nat) m i * score (s_t (run m)) (x_s (t m)) (x_a (t m)) j) (seq 0 (S i))))
              (seq 0 (length ds))).
Proof.
  intros a ds d j run t td.
  assert (RS : forall n, (n < length ds)%nat -> run (S n) = avg_step nv psi score al_v al_t al_r lam (run n) (t n)).
  { intros n H. unfold run. rewrite (firstn_S_nth _ ds n d H), afit_snoc. reflexivity. }
  assert (RC : forall n, (n <= length ds)%nat -> s_k (run n) = (s_k a + n)%nat /\ s_l (run n) = (s_l a + 2 * n)%nat).
  { intros n H. unfold run. destruct (afit_counts (firstn n ds) (sac_start a)) as [A B]. rewrite A, B, firstn_length_le by auto. auto. }
  assert (R0 : run 0%nat = sac_start a) by reflexivity.
  assert (RN : afit (sac_start a) ds = run (length ds)) by (unfold run; rewrite firstn_all; reflexivity).
  assert (EV : forall n, (n < length ds)%nat -> s_ev (run (S n)) j =
            rsum (map (fun m => decay (fun q => lam (s_l a + 2 * q)%nat) m n * psi (x_s (t m)) j) (seq 0 (S n)))).
  { apply (trace_closed (fun q => lam (s_l a + 2 * q)%nat) (fun m => psi (x_s (t m)) j) (fun n => s_ev (run n) j)); [reflexivity|].
    intros n H. rewrite RS by auto. unfold avg_step, sac_apply. cbn [s_ev]. destruct (RC n) as [_ ->]; [lia|]. reflexivity. }
  assert (ET : forall n, (n < length ds)%nat -> s_et (run (S n)) j =
            rsum (map (fun m => decay (fun q => lam (s_l a + 2 * q + 1)%nat) m n * score (s_t (run m)) (x_s (t m)) (x_a (t m)) j) (seq 0 (S n)))).
  { apply (trace_closed (fun q => lam (s_l a + 2 * q + 1)%nat) (fun m => score (s_t (run m)) (x_s (t m)) (x_a (t m)) j) (fun n => s_et (run n) j)); [reflexivity|].
    intros n H. rewrite RS by auto. unfold avg_step, sac_apply. cbn [s_et]. destruct (RC n) as [_ ->]; [lia|].
    replace (S (s_l a + 2 * n)) with (s_l a + 2 * n + 1)%nat by lia. reflexivity. }
  assert (TD : forall n, avg_delta nv psi (run n) (t n) = td n).
  { intros n. unfold avg_delta, td, v_next, value, dotn. destruct (x_abs (t n)); reflexivity. }
  rewrite RN. split; [|split].
  - rewrite (sum_closed (fun i => al_r (s_k a + i)%nat (x_s (t i)) (x_a (t i)) * td i) (fun n => s_rb (run n)) (length ds)).
    + rewrite R0. reflexivity.
    + intros n H. rewrite <- TD. rewrite (RS n H). unfold avg_step, sac_apply. cbn [s_rb]. destruct (RC n) as [-> _]; [lia|]. reflexivity.
  - rewrite (sum_closed (fun i => al_v (s_k a + i)%nat (x_s (t i)) (x_a (t i)) * td i *
                        rsum (map (fun m => decay (fun q => lam (s_l a + 2 * q)%nat) m i * psi (x_s (t m)) j) (seq 0 (S i))))
               (fun n => s_v (run n) j) (length ds)).
    + rewrite R0. reflexivity.
    + intros n H. rewrite <- EV by auto. rewrite <- TD. rewrite (RS n H). unfold avg_step at 1 2, sac_apply. cbn [s_v s_ev].
      destruct (RC n) as [-> _]; [lia|]. reflexivity.
  - rewrite (sum_closed (fun i => al_t (s_k a + i)%nat (x_s (t i)) (x_a (t i)) * td i *
                        rsum (map (fun m => decay (fun q => lam (s_l a + 2 * q + 1)%nat) m i * score (s_t (run m)) (x_s (t m)) (x_a (t m)) j) (seq 0 (S i))))
               (fun n => s_t (run n) j) (length ds)).
    + rewrite R0. reflexivity.
    + intros n H. rewrite <- ET by auto. rewrite <- TD. rewrite (RS n H). unfold avg_step at 1 2, sac_apply. cbn [s_t s_et].
      destruct (RC n) as [-> _]; [lia|]. reflexivity.
Qed.
End SacT.

(** one-hot features of a state number *)
Definition hot (x : nat) : vec := fun j => if Nat.eqb j x then 1 else 0.

(** If one fit receives the end of an episode and the beginning of the next (the agent
    is then told about the new episode before the fit), the errors of the second episode
    are credited to the states of the first. *)
Theorem sac_two_episodes_refuted : exists (a : sac) (t1 t2 : @tr nat nat),
  x_last t1 = true /\
  let fit := sac_fit 2 hot (fun _ _ _ => vzero) 1 (fun _ _ _ => 1) (fun _ _ _ => 1) (fun _ => 1) in
  s_v (fit (sac_start a) [t1; t2]) 0%nat <> s_v (fit (sac_start (fit (sac_start a) [t1])) [t2]) 0%nat.
Proof.
  exists (mkS vzero vzero vzero vzero 0 0 0), (mkT 0 0 0 0 true true)%nat, (mkT 1 0 1 1 true true)%nat.
  split; auto. intros fit. subst fit. unfold sac_fit, sac_step, sac_apply, sac_delta, v_next, dotn, sac_start, vzero, hot. simpl. lra.
Qed.

(** With a scheduled trace decay the two traces of one step use different values: two
    identical feature sequences get different traces. *)
Theorem sac_lambda_schedule_refuted : exists (lam : nat -> R) (ds : list (@tr nat nat)),
  (forall k, lam (S k) <= lam k) /\
  let a := sac_fit 2 hot (fun _ x _ => hot x) 1 (fun _ _ _ => 0) (fun _ _ _ => 0) lam (mkS vzero vzero vzero vzero 0 0 0) ds in
  s_ev a 0%nat <> s_et a 0%nat.
Proof.
  exists (fun k => if Nat.leb k 2 then 1 else 1 / 2), [(mkT 0 0 0 1 false false)%nat; (mkT 1 0 0 0 false false)%nat].
  split.
  - intros k. destruct (Nat.leb (S k) 2) eqn:A, (Nat.leb k 2) eqn:B; try lra.
    apply Nat.leb_le in A. apply Nat.leb_gt in B. lia.
  - unfold sac_fit, sac_step, sac_apply, vzero, hot. simpl. lra.
Qed.

(** * C71: compatible off-policy deterministic actor-critic *)

Definition set_at (v : vec) (j : nat) (z : R) : vec := fun k => if Nat.eqb k j then z else v k.

Lemma lim_ext : forall f g x l, (forall z, f z = g z) -> derivable_pt_lim f x l -> derivable_pt_lim g x l.
Proof. intros f g x l E D e He. destruct (D e He) as [del H]. exists del. intros. rewrite <- !E. auto. Qed.

Lemma lim_sum : forall A (f : A -> R -> R) (df : A -> R) l t,
  (forall q, In q l -> derivable_pt_lim (f q) t (df q)) ->
  derivable_pt_lim (fun z => rsum (map (fun q => f q z) l)) t (rsum (map df l)).
Proof.
  induction l as [|a l IH]; intros t H; simpl.
  - apply derivable_pt_lim_const.
  - apply (derivable_pt_lim_plus (f a) (fun z => rsum (map (fun q => f q z) l))).
    + apply H. left; auto.
    + apply IH. intros; apply H; right; auto.
Qed.

Lemma lim_lin : forall (f : R -> R) t d c k, derivable_pt_lim f t d -> derivable_pt_lim (fun z => (f z - k) * c) t (d * c).
Proof.
  intros f t d c k D.
  pose proof (derivable_pt_lim_scal _ c t _ (derivable_pt_lim_minus f (fun _ => k) t d 0 D (derivable_pt_lim_const k t))) as L.
  replace (c * (d - 0)) with (d * c) in L by ring.
  apply (lim_ext (mult_real_fct c (f - (fun _ => k))%F)); [intros z; unfold mult_real_fct, minus_fct; ring|exact L].
Qed.

Section CopT.
Context {X : Type}.
Variable na nw nv : nat.
Variable mu : vec -> X -> vec.
Variable dmu : vec -> X -> m2.
Variable psi : X -> vec.
Variable gamma : R.
Variables al_t al_o al_v : nat -> X -> vec -> R.

(** the critic as mathematics: V(s) plus the compatible advantage
    (a - mu(s)) . grad mu(s) . omega *)
Definition critic (th om v : vec) (s : X) (a : vec) : R :=
  rsum (map (fun j => psi s j * v j) (seq 0 nv)) +
  rsum (map (fun j => rsum (map (fun i => (a i - mu th s i) * m_f (dmu th s) i j) (seq 0 na)) * om j) (seq 0 nw)).

(** the regressor returns one row per action component *)
Definition jac_shape : Prop := forall th s, m_r (dmu th s) = na /\ m_c (dmu th s) = nw.

Lemma nu_shape : jac_shape -> forall th s a, nu na nw mu dmu th s a =
  Some (fun j => rsum (map (fun i => (a i - mu th s i) * m_f (dmu th s) i j) (seq 0 na))).
Proof.
  intros J th s a. destruct (J th s) as [A B]. unfold nu, vdot. rewrite A, Nat.eqb_refl, B, Nat.eqb_refl. reflexivity.
Qed.

Lemma copQ_critic : jac_shape -> forall c s a, copQ na nw nv mu dmu psi c s a = Some (critic (c_t c) (c_o c) (c_v c) s a).
Proof. intros J c s a. unfold copQ. rewrite nu_shape by auto. reflexivity. Qed.

(** At the action of the policy the critic is the state value, so the bootstrap value
    of the code is the critic at the policy's own next action. *)
Theorem copdac_on_policy : jac_shape -> forall c s,
  copQ na nw nv mu dmu psi c s (mu (c_t c) s) = Some (rsum (map (fun j => psi s j * c_v c j) (seq 0 nv))).
Proof.
  intros J c s. rewrite copQ_critic by auto. f_equal. unfold critic.
  rewrite (rsum_ext_in _ (fun j => rsum (map (fun i => (mu (c_t c) s i - mu (c_t c) s i) * m_f (dmu (c_t c) s) i j) (seq 0 na)) * c_o c j) (fun j => 0 * 0)).
  - rewrite rsum_scal. lra.
  - intros j _. rewrite (rsum_ext_in _ (fun i => (mu (c_t c) s i - mu (c_t c) s i) * m_f (dmu (c_t c) s) i j) (fun i => 0 * 0)).
    + rewrite rsum_scal. lra.
    + intros. ring.
Qed.

(** One transition: the critic weights follow the TD error along the gradient of the
    critic, and the policy weights move along the gradient of the critic's value of the
    policy's action (deterministic policy gradient), all evaluated before the update. *)
Theorem copdac_step : jac_shape -> forall c (t : @tr X vec),
  (forall i j, (i < na)%nat -> (j < nw)%nat ->
     derivable_pt_lim (fun z => mu (set_at (c_t c) j z) (x_s t) i) (c_t c j) (m_f (dmu (c_t c) (x_s t)) i j)) ->
  let Q := critic (c_t c) (c_o c) (c_v c) in
  let delta := x_r t + gamma * (if x_abs t then 0 else Q (x_n t) (mu (c_t c) (x_n t))) - Q (x_s t) (x_a t) in
  exists c', cop_step na nw nv mu dmu psi gamma al_t al_o al_v c t = Some c' /\
    (forall j, (j < nw)%nat -> exists g,
       derivable_pt_lim (fun z => Q (x_s t) (mu (set_at (c_t c) j z) (x_s t))) (c_t c j) g /\
       c_t c' j = c_t c j + al_t (c_k c) (x_s t) (x_a t) * g) /\
    (forall j, (j < nw)%nat -> exists g,
       derivable_pt_lim (fun z => critic (c_t c) (set_at (c_o c) j z) (c_v c) (x_s t) (x_a t)) (c_o c j) g /\
       c_o c' j = c_o c j + al_o (c_k c) (x_s t) (x_a t) * delta * g) /\
    (forall j, (j < nv)%nat -> exists g,
       derivable_pt_lim (fun z => critic (c_t c) (c_o c) (set_at (c_v c) j z) (x_s t) (x_a t)) (c_v c j) g /\
       c_v c' j = c_v c j + al_v (c_k c) (x_s t) (x_a t) * delta * g).
Proof.
  intros J c t D Q delta.
  assert (BN : (if x_abs t then 0 else dotn nv (psi (x_n t)) (c_v c)) = if x_abs t then 0 else Q (x_n t) (mu (c_t c) (x_n t))).
  { destruct (x_abs t); auto. pose proof (copdac_on_policy J c (x_n t)) as E. rewrite copQ_critic in E by auto. injection E as E. unfold Q. rewrite E. reflexivity. }
  unfold cop_step. rewrite copQ_critic by auto. rewrite nu_shape by auto. cbn [obind]. rewrite BN. fold Q. fold delta.
  destruct (J (c_t c) (x_s t)) as [JA JB]. unfold vdotT, vdot. rewrite JB, Nat.eqb_refl. cbn [obind fst snd]. rewrite JA, Nat.eqb_refl. cbn [obind fst snd].
  eexists. split; [reflexivity|]. cbn [c_t c_o c_v].
  assert (SEL : forall (f : nat -> R) j n, (j < n)%nat -> rsum (map (fun k => f k * (if Nat.eqb k j then 1 else 0)) (seq 0 n)) = f j).
  { intros f j n H. induction n; [lia|]. rewrite rsum_seq_S. destruct (Nat.eq_dec j n) as [->|N].
    - rewrite Nat.eqb_refl. rewrite (rsum_ext_in _ _ (fun k => 0 * f k)); [rewrite rsum_scal; lra|].
      intros k Hk. apply in_seq in Hk. destruct (Nat.eqb k n) eqn:E; [apply Nat.eqb_eq in E; lia|ring].
    - rewrite IHn by lia. destruct (Nat.eqb n j) eqn:E; [apply Nat.eqb_eq in E; lia|]. lra. }
  assert (SET : forall v j k, derivable_pt_lim (fun z => set_at v j z k) (v j) (if Nat.eqb k j then 1 else 0)).
  { intros v j k. unfold set_at. destruct (Nat.eqb k j); [apply derivable_pt_lim_id|apply derivable_pt_lim_const]. }
  split; [|split].
  - intros j Hj. eexists. split; [|reflexivity].
    set (u := fun i => rsum (map (fun j0 => c_o c j0 * m_f (dmu (c_t c) (x_s t)) i j0) (seq 0 nw))).
    set (k0 := rsum (map (fun j => psi (x_s t) j * c_v c j) (seq 0 nv))).
    apply (lim_ext (fun z => k0 + rsum (map (fun i => (mu (set_at (c_t c) j z) (x_s t) i - mu (c_t c) (x_s t) i) * u i) (seq 0 na)))).
    { intros z. unfold Q, critic. fold k0. f_equal. unfold u.
      rewrite (rsum_ext_in _ _ (fun i => rsum (map (fun j0 => (mu (set_at (c_t c) j z) (x_s t) i - mu (c_t c) (x_s t) i) * (c_o c j0 * m_f (dmu (c_t c) (x_s t)) i j0)) (seq 0 nw)))) by (intros; rewrite rsum_scal; reflexivity).
      rewrite rsum_swap. apply rsum_ext_in. intros j0 _. rewrite (Rmult_comm _ (c_o c j0)), <- rsum_scal. apply rsum_ext_in. intros. ring. }
    match goal with |- derivable_pt_lim _ _ ?l => replace l with (0 + rsum (map (fun i => m_f (dmu (c_t c) (x_s t)) i j * u i) (seq 0 na))) end.
    + apply (derivable_pt_lim_plus (fun _ => k0) (fun z => rsum (map (fun i => (mu (set_at (c_t c) j z) (x_s t) i - mu (c_t c) (x_s t) i) * u i) (seq 0 na)))); [apply derivable_pt_lim_const|].
      apply (lim_sum _ (fun i z => (mu (set_at (c_t c) j z) (x_s t) i - mu (c_t c) (x_s t) i) * u i)).
      intros i Hi. apply in_seq in Hi. apply lim_lin. apply D; lia.
    + rewrite Rplus_0_l. apply rsum_ext_in. intros i _. unfold u. ring.
  - intros j Hj. eexists. split; [|reflexivity].
    set (k0 := rsum (map (fun j => psi (x_s t) j * c_v c j) (seq 0 nv))).
    set (n := fun j => rsum (map (fun i => (x_a t i - mu (c_t c) (x_s t) i) * m_f (dmu (c_t c) (x_s t)) i j) (seq 0 na))).
    match goal with |- derivable_pt_lim _ _ ?l => replace l with (0 + rsum (map (fun k => n k * (if Nat.eqb k j then 1 else 0)) (seq 0 nw))) by (rewrite SEL by auto; unfold n; lra) end.
    apply (derivable_pt_lim_plus (fun _ => k0) (fun z => rsum (map (fun k => n k * set_at (c_o c) j z k) (seq 0 nw)))); [apply derivable_pt_lim_const|].
    apply (lim_sum _ (fun k z => n k * set_at (c_o c) j z k)). intros k _. apply (derivable_pt_lim_scal (fun z => set_at (c_o c) j z k)). apply SET.
  - intros j Hj. eexists. split; [|reflexivity].
    set (k0 := rsum (map (fun j => rsum (map (fun i => (x_a t i - mu (c_t c) (x_s t) i) * m_f (dmu (c_t c) (x_s t)) i j) (seq 0 na)) * c_o c j) (seq 0 nw))).
    match goal with |- derivable_pt_lim _ _ ?l => replace l with (rsum (map (fun k => psi (x_s t) k * (if Nat.eqb k j then 1 else 0)) (seq 0 nv)) + 0) by (rewrite SEL by auto; lra) end.
    apply (derivable_pt_lim_plus (fun z => rsum (map (fun k => psi (x_s t) k * set_at (c_v c) j z k) (seq 0 nv))) (fun _ => k0)); [|apply derivable_pt_lim_const].
    apply (lim_sum _ (fun k z => psi (x_s t) k * set_at (c_v c) j z k)). intros k _. apply (derivable_pt_lim_scal (fun z => set_at (c_v c) j z k)). apply SET.
Qed.
End CopT.

(** A linear policy with one action satisfies the assumptions of [copdac_step] ... *)
Theorem copdac_linear_single : forall X np (phi : X -> vec),
  @jac_shape X 1 np (lin_dmu 1 np phi) /\
  forall th s i j, (i < 1)%nat -> (j < np)%nat ->
    derivable_pt_lim (fun z => lin_mu np phi (set_at th j z) s i) (th j) (m_f (lin_dmu 1 np phi th s) i j).
Proof.
  intros X np phi. split; [intros th s; auto|]. intros th s i j Hi Hj. assert (i = 0%nat) by lia. subst i.
  unfold lin_mu. cbn [lin_dmu Nat.eqb m_f].
  assert (SEL : forall (f : nat -> R) n, (j < n)%nat -> rsum (map (fun k => f k * (if Nat.eqb k j then 1 else 0)) (seq 0 n)) = f j).
  { intros f n H. induction n; [lia|]. rewrite rsum_seq_S. destruct (Nat.eq_dec j n) as [->|N].
    - rewrite Nat.eqb_refl. rewrite (rsum_ext_in _ _ (fun k => 0 * f k)); [rewrite rsum_scal; lra|].
      intros k Hk. apply in_seq in Hk. destruct (Nat.eqb k n) eqn:E; [apply Nat.eqb_eq in E; lia|ring].
    - rewrite IHn by lia. destruct (Nat.eqb n j) eqn:E; [apply Nat.eqb_eq in E; lia|]. lra. }
  unfold lin_dmu. cbn [Nat.eqb m_f]. rewrite <- (SEL (phi s) np Hj).
  apply (lim_sum _ (fun k z => phi s k * set_at th j z (0 * np + k)%nat)). intros k _.
  apply (derivable_pt_lim_scal (fun z => set_at th j z (0 * np + k)%nat)).
  cbn [Nat.mul Nat.add]. unfold set_at. destruct (Nat.eqb k j); [apply derivable_pt_lim_id|apply derivable_pt_lim_const].
Qed.

(** ... but with two or more actions (and two or more features) every fit raises: the
    derivative of the linear regressor has the weights along the rows. *)
Theorem copdac_multi_action_refuted : forall X na np (phi : X -> vec) nv psi gamma al_t al_o al_v c (t : @tr X vec),
  (2 <= na)%nat -> (2 <= np)%nat ->
  cop_step na (na * np) nv (lin_mu np phi) (lin_dmu na np phi) psi gamma al_t al_o al_v c t = None.
Proof.
  intros X na np phi nv psi gamma al_t al_o al_v c t Ha Hp. unfold cop_step, copQ, nu, vdot, lin_dmu.
  destruct (Nat.eqb na 1) eqn:E; [apply Nat.eqb_eq in E; lia|]. cbn [m_r].
  destruct (Nat.eqb na (na * np)) eqn:E2; [apply Nat.eqb_eq in E2; nia|]. reflexivity.
Qed.

(** * Concrete cases *)

(** two transitions of one episode with decay one half: the second error reaches the
    first state with weight one half *)
Example sac_credit_demo :
  let fit := sac_fit 2 hot (fun _ _ _ => vzero) 1 (fun _ _ _ => 1) (fun _ _ _ => 1) (fun _ => 1 / 2) in
  let a := fit (sac_start (mkS vzero vzero (fun _ => 7) vzero 0 0 0)) [(mkT 0 0 0 1 false false)%nat; (mkT 1 0 3 1 true true)%nat] in
  s_v a 0%nat = 3 / 2 /\ s_v a 1%nat = 3.
Proof. unfold sac_fit, sac_step, sac_apply, sac_delta, v_next, dotn, sac_start, vzero, hot. simpl. lra. Qed.

Example sac_avg_demo :
  let fit := avg_fit 2 hot (fun _ _ _ => vzero) (fun _ _ _ => 1) (fun _ _ _ => 1) (fun _ _ _ => 1 / 2) (fun _ => 0) in
  s_rb (fit (mkS vzero vzero vzero vzero 1 0 0) [(mkT 0 0 3 1 false false)%nat]) = 2.
Proof. unfold avg_fit, avg_step, sac_apply, avg_delta, v_next, dotn, vzero, hot. simpl. lra. Qed.

(** one feature, one action: mu = theta, G = 1; taking action 3 with omega = 2 *)
Example copdac_demo :
  exists c', cop_step 1 1 1 (lin_mu 1 (fun _ : unit => fun _ => 1)) (lin_dmu 1 1 (fun _ => fun _ => 1)) (fun _ _ => 1) 1
      (fun _ _ _ => 1) (fun _ _ _ => 1) (fun _ _ _ => 1) (mkC (fun _ => 1) (fun _ => 2) (fun _ => 5) 0)
      (mkT tt (fun _ => 3) 10 tt true true) = Some c' /\
    c_t c' 0%nat = 3 /\ c_o c' 0%nat = 4 /\ c_v c' 0%nat = 6.
Proof. eexists. split; [reflexivity|]. unfold lin_mu, dotn. simpl. lra. Qed.

Print Assumptions sac_credit.
Print Assumptions sac_fit_split.
Print Assumptions sac_avg_shift.
Print Assumptions sac_avg_credit.
Print Assumptions sac_two_episodes_refuted.
Print Assumptions sac_lambda_schedule_refuted.
Print Assumptions copdac_on_policy.
Print Assumptions copdac_step.
Print Assumptions copdac_linear_single.
Print Assumptions copdac_multi_action_refuted.

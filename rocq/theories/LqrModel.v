(** Model of the LQR solver (/repo/mushroom_rl/solvers/lqr.py).  [n] is the dimension of the
    states, [m] of the actions.  Floats are real numbers; np.linalg.solve and np.linalg.inv
    are arguments of the definitions, their contracts are hypotheses of the theorems.  The
    batch dimension of the states is one. *)
From Coq Require Import List Arith Lia Reals Bool.
From Verif Require Import Common Mat.
Import ListNotations.
Local Open Scope R_scope.

(** _parse_lqr (208-209) *)
Record lqr := { n_s : nat; n_a : nat; mA : mat; mB : mat; mQ : mat; mR : mat; gam : R }.

(** np.kron of two matrices, the second with [n] rows and columns *)
Definition kron (n : nat) (X Y : mat) : mat := fun a b => X (a / n)%nat (b / n)%nat * Y (a mod n)%nat (b mod n)%nat.
(** L.reshape(-1) and vec_P.reshape(Q.shape) *)
Definition flat (n : nat) (X : mat) : vec := fun a => X (a / n)%nat (a mod n)%nat.
Definition unflat (n : nat) (v : vec) : mat := fun i j => v (i * n + j)%nat.

Section Lqr.
  Variable l : lqr.
  Let n := n_s l.
  Let m := n_a l.
  Let A := mA l.
  Let B := mB l.
  Let Q := mQ l.
  Let Rm := mR l.
  Let g := gam l.

  (** _compute_riccati_rhs (212-215) *)
  Definition riccati_rhs (K P : mat) : mat :=
    madd (madd Q (mscal g
      (madd (msub (msub (mm n (mm n (mt A) P) A) (mm n (mm n (mm m (mt K) (mt B)) P) A))
                  (mm m (mm n (mm n (mt A) P) B) K))
            (mm m (mm n (mm n (mm m (mt K) (mt B)) P) B) K))))
      (mm m (mm m (mt K) Rm) K).

  (** R + gamma * (B.T @ P @ B) (219) *)
  Definition gain_matrix (P : mat) : mat := madd Rm (mscal g (mm n (mm n (mt B) P) B)).
  (** _compute_riccati_gain (218-219) *)
  Definition riccati_gain (inv : mat -> mat) (P : mat) : mat :=
    mm n (mm n (mm m (mscal g (inv (gain_matrix P))) (mt B)) P) A.

  (** compute_lqr_feedback_gain (4-28): the matrices P and K after [k] iterations *)
  Fixpoint gain_iter (inv : mat -> mat) (k : nat) (P K : mat) : mat * mat :=
    match k with
    | O => (P, K)
    | S k' => let P' := riccati_rhs K P in gain_iter inv k' P' (riccati_gain inv P')
    end.
  Definition feedback_gain (inv : mat -> mat) (max_iterations : nat) : mat :=
    snd (gain_iter inv max_iterations eye (riccati_gain inv eye)).

  (** _compute_lqr_intermediate_results (222-230) *)
  Definition lqr_L (K : mat) : mat := madd Q (mm m (mm m (mt K) Rm) K).
  Definition lqr_M (K : mat) : mat :=
    let kb := mm m (mt K) (mt B) in
    msub eye (mscal g (madd (msub (msub (kron n (mt A) (mt A)) (kron n (mt A) kb)) (kron n kb (mt A))) (kron n kb kb))).
  (** compute_lqr_P (31-49) *)
  Definition lqr_P (solve : mat -> vec -> vec) (K : mat) : mat := unflat n (solve (lqr_M K) (flat n (lqr_L K))).

  (** np.einsum('...k,kl,...l->...', s, P, s) for one state *)
  Definition einsum (k : nat) (P : mat) (s : vec) : R := sm k (fun i => sm k (fun j => s i * P i j * s j)).
  (** compute_lqr_V (52-69) *)
  Definition lqr_V (solve : mat -> vec -> vec) (K : mat) (s : vec) : R := -1 * einsum n (lqr_P solve K) s.
  (** _compute_lqr_Q_matrix (248-255) *)
  Definition lqr_Qmat (P : mat) : mat := fun i j =>
    if (i <? n)%nat
    then if (j <? n)%nat then madd Q (mm n (mm n (mscal g (mt A)) P) A) i j else mm n (mm n (mscal g (mt A)) P) B i (j - n)%nat
    else if (j <? n)%nat then mm n (mm n (mscal g (mt B)) P) A (i - n)%nat j
         else madd Rm (mm n (mm n (mscal g (mt B)) P) B) (i - n)%nat (j - n)%nat.
  (** np.hstack((s, a)) *)
  Definition hstack (s a : vec) : vec := fun i => if (i <? n)%nat then s i else a (i - n)%nat.
  (** compute_lqr_Q (91-114) *)
  Definition lqr_Q (solve : mat -> vec -> vec) (K : mat) (s a : vec) : R := -1 * einsum (n + m) (lqr_Qmat (lqr_P solve K)) (hstack s a).

  (** _compute_lqr_V_gaussian_policy_additional_term (258-263) and
      _compute_lqr_Q_gaussian_policy_additional_term (266-271) *)
  Definition V_term (P Sigma : mat) : R := trace m (mm m Sigma (madd Rm (mm n (mm n (mscal g (mt B)) P) B))) / (1 - g).
  Definition Q_term (P Sigma : mat) : R := g / (1 - g) * trace m (mm m Sigma (madd Rm (mm n (mm n (mscal g (mt B)) P) B))).
  (** compute_lqr_V_gaussian_policy (72-88), compute_lqr_Q_gaussian_policy (117-134) *)
  Definition lqr_Vg (solve : mat -> vec -> vec) (K Sigma : mat) (s : vec) : R := lqr_V solve K s - V_term (lqr_P solve K) Sigma.
  Definition lqr_Qg (solve : mat -> vec -> vec) (K Sigma : mat) (s a : vec) : R := lqr_Q solve K s a - Q_term (lqr_P solve K) Sigma.

  (** _compute_lqr_intermediate_results_diff (233-245): entry i of vec(K) *)
  Definition dK (i : nat) : mat := fun a b => if Nat.eqb (a * n + b) i then 1 else 0.
  Definition lqr_dL (K : mat) (i : nat) : mat := madd (mm m (mm m (mt (dK i)) Rm) K) (mm m (mm m (mt K) Rm) (dK i)).
  Definition lqr_dM (K : mat) (i : nat) : mat :=
    let kb := mm m (mt K) (mt B) in let dkb := mm m (mt (dK i)) (mt B) in
    mscal g (msub (msub (madd (kron n (mt A) dkb) (kron n dkb (mt A))) (kron n dkb kb)) (kron n kb dkb)).
  (** compute_lqr_V_gaussian_policy_gradient_K (137-176), component i, one state.  -Minv @ dMi
      @ Minv @ L.reshape(-1) + solve(M, dLi.reshape(-1)). *)
  Definition lqr_dP (solve : mat -> vec -> vec) (inv : mat -> mat) (K : mat) (i : nat) : mat :=
    let Minv := inv (lqr_M K) in
    unflat n (vadd (vscal (-1) (mv (n * n) Minv (mv (n * n) (lqr_dM K i) (mv (n * n) Minv (flat n (lqr_L K))))))
                   (solve (lqr_M K) (flat n (lqr_dL K i)))).
  Definition lqr_dV (solve : mat -> vec -> vec) (inv : mat -> mat) (K Sigma : mat) (s : vec) (i : nat) : R :=
    - (einsum n (lqr_dP solve inv K i) s + g * trace m (mm n (mm n (mm m Sigma (mt B)) (lqr_dP solve inv K i)) B) / (1 - g)).
End Lqr.

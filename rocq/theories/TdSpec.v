(** Specification of temporal-difference learning. *)
From Coq Require Import List Arith Lia Reals Bool.
From Verif Require Import Common TdModel.
Import ListNotations.

(** A table of n states and k actions. *)
Definition shaped (n k : nat) (Q : table) : Prop := length Q = n /\ forall r, In r Q -> length r = k.

(** Every entry is within [-B, B]. *)
Definition within (B : R) (Q : table) : Prop := forall s a, (- B <= tget Q s a <= B)%R.

(** The sample refers to existing states and actions. *)
Definition sample_ok (n k : nat) (x : sample) : Prop := x_s x < n /\ x_a x < k /\ x_s' x < n.

(** [Q'] is [Q] except that the entry of the sample is moved by the fraction [al]
    towards reward + gamma * v. *)
Definition moved (gamma al v : R) (Q Q' : table) (x : sample) : Prop :=
  tget Q' (x_s x) (x_a x) = ((1 - al) * tget Q (x_s x) (x_a x) + al * (x_r x + gamma * v))%R /\
  forall s a, (s, a) <> (x_s x, x_a x) -> tget Q' s a = tget Q s a.

(** Traces: [h] lists the visited pairs, most recent first, [c] is gamma * lambda. *)
Definition pair_eqb (p q : nat * nat) : bool := Nat.eqb (fst p) (fst q) && Nat.eqb (snd p) (snd q).

(** sum of c^age over the visits of the pair *)
Fixpoint acc_trace (c : R) (j : nat) (h : list (nat * nat)) (p : nat * nat) : R :=
  match h with
  | [] => 0%R
  | y :: t => ((if pair_eqb y p then c ^ j else 0) + acc_trace c (S j) t p)%R
  end.

(** c^age of the last visit of the pair *)
Fixpoint rep_trace (c : R) (j : nat) (h : list (nat * nat)) (p : nat * nat) : R :=
  match h with
  | [] => 0%R
  | y :: t => if pair_eqb y p then (c ^ j)%R else rep_trace c (S j) t p
  end.

Definition trace_spec (k : trace_kind) (c : R) (j : nat) (h : list (nat * nat)) (p : nat * nat) : R :=
  match k with Replacing => rep_trace c j h p | Accumulating => acc_trace c j h p end.

(** Discounted n-step return from time k, with reward r t and bootstrap value b t
    available at the end of step t. *)
Definition nstep (gamma : R) (r b : nat -> R) (n k : nat) : R :=
  (rsum (map (fun i => gamma ^ i * r (k + i)%nat) (seq 0 n)) + gamma ^ n * b (k + n - 1)%nat)%R.

(** lambda-return from time k using the data up to the horizon h. *)
Definition lreturn (gamma lam : R) (r b : nat -> R) (h k : nat) : R :=
  ((1 - lam) * rsum (map (fun n => lam ^ (n - 1) * nstep gamma r b n k) (seq 1 (h - k - 1)))
   + lam ^ (h - k - 1) * nstep gamma r b (h - k) k)%R.

(** The online forward view with horizon h: the weights after updating towards the
    lambda-returns of the first k steps. *)
Fixpoint forward (gamma lam : R) (al r b : nat -> R) (phi : nat -> list R) (theta0 : list R) (h k : nat) : list R :=
  match k with
  | 0 => theta0
  | S k' => let th := forward gamma lam al r b phi theta0 h k' in
            vadd th (vscale (al k' * (lreturn gamma lam r b h k' - dot th (phi k'))) (phi k'))
  end.

(** Feature vector with a single one at position i. *)
Definition one_hot (d i : nat) : list R := map (fun j => if Nat.eqb j i then 1%R else 0%R) (seq 0 d).

(** Weight of the j-th target in an exponential average with the given rates. *)
Definition coef (als : list R) (j : nat) : R :=
  (nth j als 0 * fold_right (fun a p => (1 - a) * p) 1 (skipn (S j) als))%R.
Definition wavg (als : list R) (f : nat -> R) : R := rsum (map (fun j => coef als j * f j)%R (seq 0 (length als))).

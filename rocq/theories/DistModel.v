(** Network heads and losses of the distributional and structured DQN variants
    (mushroom_rl/algorithms/value/dqn: quantile_dqn.py, categorical_dqn.py, dueling_dqn.py,
    noisy_dqn.py, rainbow.py). A tensor is a shape with a function from index lists; the quantile
    loss is written operation by operation on tensors because its meaning depends on the
    shapes. The feature network and the affine layers are oracles (their outputs are arbitrary
    numbers), floats are reals. *)
From Coq Require Import List Arith Lia Reals Bool.
From Verif Require Import Common Mat DqnModel.
Import ListNotations.
Local Open Scope R_scope.

(** * torch tensors *)
Record tensor := T { shp : list nat; dat : list nat -> R }.
Fixpoint map2 {A B C} (f : A -> B -> C) (l : list A) (m : list B) : list C :=
  match l, m with x :: l, y :: m => f x y :: map2 f l m | _, _ => [] end.

(** torch.squeeze: drop the dimensions of size one *)
Fixpoint unsq (s ix : list nat) : list nat :=
  match s with
  | [] => []
  | n :: s' => if Nat.eqb n 1 then 0%nat :: unsq s' ix
               else match ix with [] => 0%nat :: unsq s' [] | i :: ix' => i :: unsq s' ix' end
  end.
Definition squeeze (t : tensor) : tensor :=
  T (filter (fun n => negb (Nat.eqb n 1)) (shp t)) (fun ix => dat t (unsq (shp t) ix)).
(** Tensor.t(): transpose of a matrix, identity on vectors and scalars *)
Definition tr (t : tensor) : option tensor :=
  match shp t with
  | [a; b] => Some (T [b; a] (fun ix => dat t (rev ix)))
  | [_] | [] => Some t
  | _ => None
  end.
(** Tensor.unsqueeze(-1) *)
Definition unsqueeze_last (t : tensor) : tensor := T (shp t ++ [1%nat]) (fun ix => dat t (removelast ix)).
(** Tensor.repeat( *reps ): missing leading dimensions are of size one *)
Definition repeat_t (reps : list nat) (t : tensor) : option tensor :=
  if Nat.ltb (length reps) (length (shp t)) then None
  else let pad := (length reps - length (shp t))%nat in
       let s := repeat 1%nat pad ++ shp t in
       Some (T (map2 Nat.mul reps s) (fun ix => dat t (skipn pad (map2 Nat.modulo ix s)))).
(** broadcasting of two shapes, written for reversed shapes *)
Fixpoint bshape (a b : list nat) : option (list nat) :=
  match a, b with
  | [], _ => Some b
  | _, [] => Some a
  | x :: a', y :: b' =>
      if Nat.eqb x y then option_map (cons x) (bshape a' b')
      else if Nat.eqb x 1 then option_map (cons y) (bshape a' b')
      else if Nat.eqb y 1 then option_map (cons x) (bshape a' b')
      else None
  end.
Definition bindex (s ix : list nat) : list nat :=
  map2 (fun n i => if Nat.eqb n 1 then 0%nat else i) s (skipn (length ix - length s) ix).
(** an element-wise binary operation with broadcasting *)
Definition bop (f : R -> R -> R) (a b : tensor) : option tensor :=
  match bshape (rev (shp a)) (rev (shp b)) with
  | Some s => Some (T (rev s) (fun ix => f (dat a (bindex (shp a) ix)) (dat b (bindex (shp b) ix))))
  | None => None
  end.
Definition tmap (f : R -> R) (a : tensor) : tensor := T (shp a) (fun ix => f (dat a ix)).
(** Tensor.mean() *)
Fixpoint tsum (s : list nat) (f : list nat -> R) : R :=
  match s with [] => f [] | n :: s' => sm n (fun i => tsum s' (fun ix => f (i :: ix))) end.
Definition tmean (t : tensor) : R := tsum (shp t) (dat t) / INR (fold_right Nat.mul 1%nat (shp t)).

(** * QuantileDQN *)
(** tau_hat (quantile_dqn.py 83-84): midpoints of torch.arange(n + 1) / n *)
Definition tau_at (n i : nat) : R := (INR i / INR n + INR (S i) / INR n) / 2.
Definition tau_hat (n : nat) : tensor := T [n] (fun ix => tau_at n (hd 0%nat ix)).

(** F.smooth_l1_loss with beta = 1 *)
Definition smooth_l1 (d : R) : R := if Rlt_dec (Rabs d) 1 then d * d / 2 else Rabs d - / 2.

(** quantile_huber_loss (quantile_dqn.py 13-24); None is a raised shape error *)
Definition quantile_huber_loss (tau_hat input target : tensor) : option R :=
  match shp input with
  | [] => None                                                        (* input.shape[0] *)
  | b :: _ =>
      tau <- repeat_t [b; 1%nat] tau_hat ;;                           (* 14 *)
      let k := last (shp tau) 0%nat in
      tt <- tr target ;;                                              (* 16 *)
      tg <- repeat_t [1%nat; 1%nat; k] (unsqueeze_last tt) ;;
      inp <- repeat_t [k; 1%nat; 1%nat] input ;;                      (* 17 *)
      d <- bop Rminus tg inp ;;                                       (* 19 *)
      let ind := tmap (fun x => if Rlt_dec x 0 then 1 else 0) d in
      hub <- bop (fun x y => smooth_l1 (x - y)) inp tg ;;             (* 20 *)
      w <- bop (fun t i => Rabs (t - i)) tau ind ;;                   (* 22 *)
      l <- bop Rmult w hub ;;
      Some (tmean l)                                                  (* 24 *)
  end.

(** QuantileNetwork.forward(state, action, get_quantiles=True) (quantile_dqn.py 46-64): gather and squeeze;
    [x b i] is quantile i of the action of row b *)
Definition quant_acted (B N : nat) (x : nat -> nat -> R) : tensor :=
  squeeze (T [B; 1%nat; N] (fun ix => x (nth 0 ix 0%nat) (nth 2 ix 0%nat))).
Definition quant_targets (B N : nat) (y : nat -> nat -> R) : tensor :=
  T [B; N] (fun ix => y (nth 0 ix 0%nat) (nth 1 ix 0%nat)).

(** QuantileDQN.fit (quantile_dqn.py 92-113): the loss of one batch. [cls] is the number of quantiles of the class
    attribute QuantileDQN.tau_hat, None before it is set *)
Definition quantile_fit_loss (cls : option nat) (B N : nat) (x y : nat -> nat -> R) : option R :=
  n <- cls ;; quantile_huber_loss (tau_hat n) (quant_acted B N x) (quant_targets B N y).

(** what happens to quantile agents in one process: constructed (83-84 sets the class attribute) or
    loaded from a file (Serializable.load does not run __init__) *)
Inductive event := Construct (n : nat) | LoadAgent (n : nat).
Definition cls_step (cls : option nat) (e : event) : option nat :=
  match e with Construct n => Some n | LoadAgent _ => cls end.
Definition cls_after (es : list event) : option nat := fold_left cls_step es None.

(** forward without get_quantiles (quantile_dqn.py 52-58) *)
Definition qmean (N : nat) (q : nat -> R) : R := sm N q / INR N.
(** targets of one sample (quantile_dqn.py 99-108): [q a i] is quantile i of action a of
    the target network *)
Definition quantile_target (na N : nat) (reward gamma : R) (absorbing : bool) (q : nat -> nat -> R) (i : nat) : R :=
  let a_max := argmax (map (fun a => qmean N (q a)) (seq 0 na)) in
  reward + gamma * (q a_max i * (1 - flag absorbing)).

(** * DuelingNetwork.forward (dueling_dqn.py 31-42) with avg_advantage *)
Definition dueling_q (na : nat) (value : R) (adv : nat -> R) (a : nat) : R :=
  value + adv a - sm na adv / INR na.

(** * NoisyLinear (noisy_dqn.py 47-62) *)
Definition noise (x : R) : R := (if Rlt_dec 0 x then 1 else if Rlt_dec x 0 then -1 else 0) * sqrt (Rabs x).
(** [eo] and [ei] are the draws of torch.rand *)
Definition noisy_weight (mu sigma : mat) (eo ei : vec) : mat := fun o i => mu o i + sigma o i * (noise (eo o) * noise (ei i)).
Definition noisy_bias (mu sigma eo : vec) : vec := fun o => mu o + sigma o * noise (eo o).
(** F.linear *)
Definition linear (ni : nat) (w : mat) (b x : vec) : vec := fun o => sm ni (fun i => x i * w o i) + b o.
Definition noisy_linear (ni : nat) (muw sw : mat) (mub sb eo ei : vec) (x : vec) : vec :=
  linear ni (noisy_weight muw sw eo ei) (noisy_bias mub sb eo) x.

(** * CategoricalNetwork and RainbowNetwork *)
(** F.softmax *)
Definition softmax (n : nat) (l : vec) : vec := fun i => exp (l i) / sm n (fun j => exp (l j)).
(** categorical_dqn.py 52-59 (rainbow.py 47-50): probabilities times atom values; None when the
    numbers of atoms differ *)
Definition categorical_q (n : nat) (vmin vmax eps : R) (logits : vec) : option R :=
  let z := atoms n vmin vmax eps in
  if Nat.eqb (length z) n then Some (sm n (fun i => softmax n logits i * nth i z 0)) else None.
(** the logits of RainbowNetwork (rainbow.py 40-45) *)
Definition rainbow_logits (na : nat) (pv : vec) (pa : mat) (a : nat) : vec :=
  fun i => pv i + pa a i - sm na (fun b => pa b i) / INR na.
(** categorical_loss of one sample (categorical_dqn.py 17-20) *)
Definition categorical_loss (n : nat) (input target : vec) : R :=
  - sm n (fun i => target i * ln (Rmax (input i) (/ 10 ^ 5))).

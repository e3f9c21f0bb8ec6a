(** Model of the torch utilities (/repo/mushroom_rl/utils/torch.py) and of
    TorchApproximator (/repo/mushroom_rl/approximators/parametric/torch_approximator.py).

    A parameter of a network is its shape with its entries in row-major order; a network is
    the list of its parameters in the order of [parameters()]. Devices and data types are
    not modelled, except that [heap] below distinguishes a tensor that shares the memory of
    the vector it was made from. In the fit loop the network with its optimizer is a value
    of any type, a batch loss is a real number or None when it is not finite. *)
From Coq Require Import List Arith Lia Reals Bool ZArith.
From Verif Require Import Common UtilModel PpoModel DqnModel.
Import ListNotations.
Local Open Scope nat_scope.

(** * Weights as one vector *)

Record param := { p_shape : list nat; p_data : list R }.
(** c = prod(shape) (torch.py 33-35) *)
Definition numel (shape : list nat) : nat := fold_left (fun c s => c * s) shape 1.

(** TorchUtils.get_weights (torch.py 59-67) *)
Definition tget (ps : list param) : list R := concat (map p_data ps).

(** TorchUtils.set_weights (torch.py 29-42): the loop writes the parameters one by one and
    [reshape] raises on a slice of the wrong size; the result is the network after the
    call and whether the call returned. *)
Fixpoint tset_loop (idx : nat) (w : list R) (ps : list param) : list param * bool :=
  match ps with
  | [] => ([], true)
  | p :: rest =>
      let c := numel (p_shape p) in
      let x := slice idx (idx + c) w in
      if Nat.eqb (length x) c then
        let r := tset_loop (idx + c) w rest in
        ({| p_shape := p_shape p; p_data := x |} :: fst r, snd r)
      else (p :: rest, false)
  end.
Definition tset (ps : list param) (w : list R) : list param * bool := tset_loop 0 w ps.
(** TorchApproximator.weights_size (torch_approximator.py 256-262) *)
Definition tsize (ps : list param) : nat := fold_right (fun p n => numel (p_shape p) + n) 0 ps.

(** GaussianTorchPolicy.get_weights and set_weights (torch_policy.py 214-224): the last
    [action_dim] entries are the log standard deviations, taken as they are *)
Record gpol := { g_mu : list param; g_ls : list R }.
Definition gpol_get (p : gpol) : list R := tget (g_mu p) ++ g_ls p.
Definition gpol_set (k : nat) (p : gpol) (w : list R) : gpol * bool :=
  let r := tset (g_mu p) (firstn (length w - k) w) in
  ({| g_mu := fst r; g_ls := lastn k w |}, snd r).

(** SACPolicy.get_weights and set_weights (sac.py 146-171) *)
Definition pair_get (p : list param * list param) : list R := tget (fst p) ++ tget (snd p).
Definition pair_set (p : list param * list param) (w : list R) : (list param * list param) * bool :=
  let m := tset (fst p) (firstn (tsize (fst p)) w) in
  if snd m then let s := tset (snd p) (skipn (tsize (fst p)) w) in ((fst m, fst s), snd s)
  else ((fst m, snd p), false).

(** * Memory: [p.data = torch.as_tensor(w).type(dtype)] (torch.py 39-41) is a view of the
      slice of [weights] when the data types agree. A location is an address with an offset;
      a network is the list of the locations and sizes of its parameters. *)
Definition heap := nat -> list R.
Record loc := { l_addr : nat; l_off : nat; l_len : nat }.
Definition hread (h : heap) (l : loc) : list R := slice (l_off l) (l_off l + l_len l) (h (l_addr l)).
Definition hget (h : heap) (n : list loc) : list R := flat_map (hread h) n.
(** torch.concatenate allocates (torch.py 65) *)
Definition hfresh (h : heap) (a : nat) (v : list R) : heap := fun b => if Nat.eqb b a then v else h b.
(** set_weights from the vector stored at [a] *)
Fixpoint hset (a idx : nat) (n : list loc) : list loc :=
  match n with
  | [] => []
  | l :: r => {| l_addr := a; l_off := idx; l_len := l_len l |} :: hset a (idx + l_len l) r
  end.
(** an in-place update of one parameter: [x] has the length of the parameter *)
Definition hwrite (h : heap) (l : loc) (x : list R) : heap :=
  fun b => if Nat.eqb b (l_addr l) then firstn (l_off l) (h b) ++ x ++ skipn (l_off l + l_len l) (h b) else h b.
(** optimizer.step(): every parameter is written in place *)
Definition hstep (h : heap) (n : list loc) (xs : list (list R)) : heap :=
  fold_left (fun h p => hwrite h (fst p) (snd p)) (combine n xs) h.
(** target.set_weights(online.get_weights()) (abstract_dqn.py 132, deep_actor_critic.py
    86-88); [a] is the address of the vector made by get_weights *)
Definition hsync (h : heap) (a : nat) (online target : list loc) : heap * list loc :=
  (hfresh h a (hget h online), hset a 0 target).

(** * Optimizer state after loading (torch.py 134-142): a map from parameters to states.
      Reading a missing entry of [optimizer.state] (a defaultdict) inserts the empty state. *)
Section Optim.
Variable S : Type.
Variable empty : S.
Record optim := { o_state : list (nat * S); o_params : list nat }.
Definition lookup (m : list (nat * S)) (k : nat) : option S :=
  match find (fun e => Nat.eqb (fst e) k) m with Some e => Some (snd e) | None => None end.
Definition remove_key (m : list (nat * S)) (k : nat) : list (nat * S) := filter (fun e => negb (Nat.eqb (fst e) k)) m.
Definition move (m : list (nat * S)) (on : nat * nat) : list (nat * S) :=
  let data := match lookup m (fst on) with Some d => d | None => empty end in
  (snd on, data) :: remove_key (remove_key m (fst on)) (snd on).
Definition update_params (o : optim) (new : list nat) : optim :=
  {| o_state := match o_state o with [] => [] | _ => fold_left move (combine (o_params o) new) (o_state o) end;
     o_params := new |}.
End Optim.
Arguments o_state {S}. Arguments o_params {S}. Arguments lookup {S}. Arguments update_params {S}. Arguments move {S}. Arguments remove_key {S}.

(** * TorchApproximator.fit *)

(** the loss with sample weights (torch_approximator.py 231-233): None is NaN *)
Definition weighted_loss (lw : list (R * R)) : option R :=
  if Req_EM_T (rsum (map snd lw)) 0 then None
  else Some (rsum (map (fun p => fst p * snd p) lw) / rsum (map snd lw))%R.

(** train_len = ceil(n * split) (torch_approximator.py 133) *)
Definition train_len (n : nat) (split : R) : nat := Z.to_nat (ceilZ (INR n * split)).

(** np.mean of the batch losses: NaN if one is not finite or there is none *)
Fixpoint all_some (l : list (option R)) : option (list R) :=
  match l with
  | [] => Some []
  | None :: _ => None
  | Some x :: t => match all_some t with Some t' => Some (x :: t') | None => None end
  end.
Definition omean (l : list (option R)) : option R :=
  match all_some l with Some (x :: t) => Some (tmean (x :: t)) | _ => None end.

Section Fit.
Context {N Row : Type}.
Variable d : Row.
Variable step : N -> list Row -> N.              (* zero_grad, backward, optimizer.step on a batch *)
Variable loss : N -> list Row -> option R.       (* _compute_batch_loss *)
Variable set_mode : bool -> N -> N.              (* network.train() (true), network.eval() (false) *)
Variable reinit : N -> N.                        (* network.weights_init() *)

(** the batches of one epoch (torch_approximator.py 187-190) *)
Definition fit_batches (bs : nat) (perm : list nat) (rows : list Row) : list (list Row) :=
  if Nat.ltb 0 bs then row_batches d bs perm rows else [rows].

(** _fit_epoch and _fit_batch (torch_approximator.py 186-207): the network after the epoch
    and the losses of its batches, each computed before its step *)
Definition fit_epoch (batches : list (list Row)) (n : N) : N * list (option R) :=
  fold_left (fun st b => (step (fst st) b, snd st ++ [loss (fst st) b])) batches (n, []).

(** best_loss - loss > epsilon, [best] None is infinity (torch_approximator.py 163) *)
Definition improves (best : option R) (l : option R) (eps : R) : bool :=
  match l with
  | None => false
  | Some x => match best with None => true | Some b => if Rlt_dec eps (b - x) then true else false end
  end.

(** the loop with early stopping (torch_approximator.py 146-171); [perms k] is the shuffle
    of epoch k, [max] the bound on the epochs (None: infinity), [val] the validation rows.
    The result is the network, the number of epochs and the last training loss; None when
    the fuel is used up. *)
Fixpoint fit_loop (fuel : nat) (bs : nat) (perms : nat -> list nat) (train val : list Row) (eps : R)
    (patience : nat) (max : option nat) (n : N) (last : option R) (best : option R) (pc ec : nat) : option (N * nat * option R) :=
  if andb (Nat.ltb pc patience) (match max with None => true | Some m => Nat.ltb ec m end) then
    match fuel with
    | O => None
    | S fuel' =>
        let e := fit_epoch (fit_batches bs (perms ec) train) n in
        let mean := omean (snd e) in
        let l := match val with [] => mean | _ => loss (fst e) val end in
        if improves best l eps
        then fit_loop fuel' bs perms train val eps patience max (fst e) mean l 0 (S ec)
        else fit_loop fuel' bs perms train val eps patience max (fst e) mean best (S pc) (S ec)
    end
  else Some (n, ec, last).

(** the loop without early stopping (torch_approximator.py 173-181) *)
Fixpoint fit_for (k ec : nat) (bs : nat) (perms : nat -> list nat) (train : list Row) (n : N) (last : option R) : N * option R :=
  match k with
  | O => (n, last)
  | S k' => let e := fit_epoch (fit_batches bs (perms ec) train) n in
            fit_for k' (S ec) bs perms train (fst e) (omean (snd e))
  end.

(** fit (torch_approximator.py 92-184): the outcome is the network, the number of epochs and
    loss_fit; [FRaise] when the validation split is not in (0, 1], [FRun] when the fuel is
    used up (the loop is still running). *)
Inductive outcome := FDone (n : N) (epochs : nat) (last : option R) | FRaise (n : N) | FRun.
Definition tfit (fuel bs : nat) (reinitialize dropout : bool) (perms : nat -> list nat) (rows : list Row)
    (n_epochs : option nat) (epsilon : option R) (patience : nat) (split : R) (n : N) (last : option R) : outcome :=
  let n1 := if reinitialize then reinit n else n in
  let n2 := if dropout then set_mode true n1 else n1 in
  if Rlt_dec 0 split then
    if Rle_dec split 1 then
      let tl := train_len (length rows) split in
      let train := firstn tl rows in
      let val := skipn tl rows in
      let fin x := if dropout then set_mode false x else x in
      match epsilon with
      | Some eps =>
          match fit_loop fuel bs perms train val eps patience n_epochs n2 last None 0 0 with
          | None => FRun
          | Some (n3, e, l) => FDone (fin n3) e l
          end
      | None =>
          let k := match n_epochs with None => 1 | Some k => k end in
          let r := fit_for k 0 bs perms train n2 last in
          FDone (fin (fst r)) k (snd r)
      end
    else FRaise n2
  else FRaise n2.
End Fit.
Arguments FDone {N}. Arguments FRaise {N}. Arguments FRun {N}.

(** Torch parameters, their gradients and the optimizers that refer to them, through training,
    saving, loading and copying.

    Cited code: utils/torch.py 134-142 (update_optimizer_parameters); approximators/parametric/
    torch_approximator.py 57-59 (the optimizer is built on network.parameters()), 200-207
    (_fit_batch), 313-315 (_post_load); algorithms/actor_critic/deep_actor_critic/
    deep_actor_critic.py 40-50, 69-85 (_optimize_actor_parameters, _clip_gradient), 98-101
    (_update_optimizer_parameters), sac.py 288-298 and 317-323 (temperature, _post_load), ddpg.py 141-143, a2c.py 76-77,
    ppo.py 94-105 and 126-128, ppo_bptt.py 150-171; policy_search/black_box_optimization/eppo.py
    28, 55-64 (no _post_load); core/serialization.py 100-141 and 143-149 (load_zip, copy).

    Conventions of torch that are part of the model: backward adds to the [grad] of every
    parameter the loss depends on; zero_grad sets it to None; step visits the parameters of the
    optimizer and skips those without gradient; the state of an optimizer is a defaultdict keyed
    by parameter objects, empty before the first step, and each parameter is updated on its own;
    saving stores values without gradients, every file is loaded into new tensors, and the
    optimizer's file holds its own copy of its parameters; deepcopy keeps the sharing.

    Simplifications: one parameter group (the classes cited never build another one); the
    hyperparameters are part of the update rule; a loss is any function from the values of all
    parameters of the agent to gradients (None: the loss does not depend on the parameter). *)
From Coq Require Import List Arith Lia Bool.
From Verif Require Import Common.
Import ListNotations.

Section Model.
(** [V]: tensors; [St]: state of an optimizer for one parameter, [st0] the empty dictionary. *)
Context {V St : Type}.
Variable add : V -> V -> V.
Variable st0 : St.

Record cell := mkC { val : V; grad : option V }.
Record heap := mkH { at_ : nat -> cell; next : nat }.
Definition put (h : heap) (p : nat) (c : cell) : heap := mkH (fun q => if q =? p then c else at_ h q) (next h).

(** A dictionary with default. *)
Definition dict := list (nat * St).
Definition dget (d : dict) (p : nat) : St := match find (fun e => fst e =? p) d with Some e => snd e | None => st0 end.
Definition ddel (d : dict) (p : nat) : dict := filter (fun e => negb (fst e =? p)) d.
Definition dput (d : dict) (p : nat) (s : St) : dict := ddel d p ++ [(p, s)].

(** torch.optim.Optimizer: param_groups[0]['params'] and state. *)
Record optim := mkO { o_params : list nat; o_state : dict }.

(** optimizer.zero_grad() *)
Fixpoint zero_grad (ps : list nat) (h : heap) : heap :=
  match ps with [] => h | p :: ps' => zero_grad ps' (put h p (mkC (val (at_ h p)) None)) end.

(** loss.backward() for the parameters [ps] of a network, from number [k] on. *)
Fixpoint backward (g : nat -> option V) (k : nat) (ps : list nat) (h : heap) : heap :=
  match ps with
  | [] => h
  | p :: ps' =>
      backward g (S k) ps' (match g k with
        | None => h
        | Some x => put h p (mkC (val (at_ h p)) (Some (match grad (at_ h p) with None => x | Some y => add y x end)))
        end)
  end.

(** clip_grad_norm_(parameters) and the like: each gradient is changed by a function found from
    all of them. *)
Fixpoint scale_grads (f : V -> V) (ps : list nat) (h : heap) : heap :=
  match ps with [] => h | p :: ps' => scale_grads f ps' (put h p (mkC (val (at_ h p)) (option_map f (grad (at_ h p))))) end.
Definition clip (f : list (option V) -> V -> V) (ps : list nat) (h : heap) : heap :=
  scale_grads (f (map (fun p => grad (at_ h p)) ps)) ps h.

(** optimizer.step() *)
Fixpoint step (rule : St -> V -> V -> St * V) (ps : list nat) (hd : heap * dict) : heap * dict :=
  match ps with
  | [] => hd
  | p :: ps' =>
      let (h, d) := hd in
      step rule ps' (match grad (at_ h p) with
        | None => (h, d)
        | Some g => let (s, v) := rule (dget d p) (val (at_ h p)) g in (put h p (mkC v (grad (at_ h p))), dput d p s)
        end)
  end.

(** TorchUtils.update_optimizer_parameters, utils/torch.py 134-142. *)
Definition move_state (d : dict) (e : nat * nat) : dict := dput (ddel d (fst e)) (snd e) (dget d (fst e)).
Definition relink (o : optim) (new : list nat) : optim :=
  mkO new (if 0 <? length (o_state o) then fold_left move_state (combine (o_params o) new) (o_state o) else o_state o).

(** A trained part of an agent: the parameters of its network or policy, the list kept for
    clipping ([_parameters]), the optimizer and its rule. *)
Record part := mkP { net : list nat; clipped : list nat; opt : optim; rule_of : St -> V -> V -> St * V }.
Definition agent := list part.

Definition values (h : heap) (ps : list nat) : list V := map (fun p => val (at_ h p)) ps.

(** The gradients of a loss on the parameters of every part. *)
Fixpoint backward_all (g : nat -> nat -> option V) (j : nat) (a : agent) (h : heap) : heap :=
  match a with [] => h | c :: a' => backward_all g (S j) a' (backward (g j) 0 (net c) h) end.

(** zero_grad, backward, clip, step: _optimize_actor_parameters 69-81, _fit_batch 200-207,
    ppo.py 99-105, sac.py 296-298, eppo.py 61-67.  The loss is computed before zero_grad. *)
Definition fit (i : nat) (loss : list (list V) -> nat -> nat -> option V) (cl : list (option V) -> V -> V) (ha : heap * agent) : heap * agent :=
  let (h, a) := ha in
  match nth_error a i with
  | None => ha
  | Some c =>
      let g := loss (map (fun c => values h (net c)) a) in
      let h1 := zero_grad (o_params (opt c)) h in
      let h2 := backward_all g 0 a h1 in
      let h3 := clip cl (clipped c) h2 in
      let (h4, d) := step (rule_of c) (o_params (opt c)) (h3, o_state (opt c)) in
      (h4, setnth a i (mkP (net c) (clipped c) (mkO (o_params (opt c)) d) (rule_of c)))
  end.

(** set_weights: new values in the same parameters (soft updates of targets, for instance). *)
Fixpoint write (ps : list nat) (vs : list V) (h : heap) : heap :=
  match ps, vs with p :: ps', v :: vs' => write ps' vs' (put h p (mkC v (grad (at_ h p)))) | _, _ => h end.
Definition set (i : nat) (f : list (list V) -> nat -> V) (ha : heap * agent) : heap * agent :=
  let (h, a) := ha in
  match nth_error a i with
  | None => ha
  | Some c => (write (net c) (map (f (map (fun c => values h (net c)) a)) (seq 0 (length (net c)))) h, a)
  end.

(** New tensors with the values of [ps]. *)
Fixpoint alloc (ps : list nat) (h : heap) : heap * list nat :=
  match ps with
  | [] => (h, [])
  | p :: ps' =>
      let n := next h in
      let '(h', l) := alloc ps' (mkH (fun q => if q =? n then mkC (val (at_ h p)) None else at_ h q) (S n)) in
      (h', n :: l)
  end.
Definition rename (old new : list nat) (p : nat) : nat :=
  match find (fun e => fst e =? p) (combine old new) with Some e => snd e | None => p end.

(** save and load of one part; [post] tells whether the class relinks after a load. *)
Definition reload_part (post : bool) (h : heap) (c : part) : heap * part :=
  let '(h1, n) := alloc (net c) h in
  let '(h2, q) := alloc (o_params (opt c)) h1 in
  let o := mkO q (map (fun e => (rename (o_params (opt c)) q (fst e), snd e)) (o_state (opt c))) in
  (h2, mkP n n (if post then relink o n else o) (rule_of c)).
Fixpoint reload (post : bool) (h : heap) (a : agent) : heap * agent :=
  match a with
  | [] => (h, [])
  | c :: a' => let '(h1, c') := reload_part post h c in let '(h2, a2) := reload post h1 a' in (h2, c' :: a2)
  end.

(** copy: every tensor is copied once. *)
Definition deepcopy (h : heap) (a : agent) : heap * agent :=
  let n := next h in
  (mkH (fun q => if q <? n then at_ h q else mkC (val (at_ h (q - n))) None) (n + n),
   map (fun c => mkP (map (fun p => p + n) (net c)) (map (fun p => p + n) (clipped c))
                     (mkO (map (fun p => p + n) (o_params (opt c))) (map (fun e => (fst e + n, snd e)) (o_state (opt c)))) (rule_of c)) a).

Inductive op :=
| OFit (i : nat) (loss : list (list V) -> nat -> nat -> option V) (cl : list (option V) -> V -> V)
| OSet (i : nat) (f : list (list V) -> nat -> V)
| OLoad
| OCopy.

Definition run1 (post : bool) (ha : heap * agent) (o : op) : heap * agent :=
  match o with
  | OFit i loss cl => fit i loss cl ha
  | OSet i f => set i f ha
  | OLoad => reload post (fst ha) (snd ha)
  | OCopy => deepcopy (fst ha) (snd ha)
  end.
Definition run (post : bool) (l : list op) (ha : heap * agent) : heap * agent := fold_left (run1 post) l ha.

(** A new agent: each optimizer is built on the parameters of its network. *)
Fixpoint build (h : heap) (specs : list (list V * (St -> V -> V -> St * V))) : heap * agent :=
  match specs with
  | [] => (h, [])
  | (vs, r) :: specs' =>
      let n := next h in
      let h1 := mkH (fun q => match nth_error vs (q - n) with Some v => if n <=? q then mkC v None else at_ h q | None => at_ h q end) (n + length vs) in
      let ps := seq n (length vs) in
      let '(h2, a) := build h1 specs' in
      (h2, mkP ps ps (mkO ps []) r :: a)
  end.
End Model.
Arguments op : clear implicits.

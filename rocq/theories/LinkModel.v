(** Which approximator an agent learns and which one it acts with, through saving, loading
    and copying: core/serialization.py 40-153, core/agent.py 55-70,
    algorithms/value/td/td.py 12-27 and 49-50, algorithms/value/batch_td/batch_td.py 37-38,
    algorithms/value/dqn/abstract_dqn.py 148-154, policy/td_policy.py 9-38 and 183-232,
    algorithms/actor_critic/deep_actor_critic/ddpg.py 62-68 and 141-143,
    algorithms/actor_critic/classic_actor_critic/copdac_q.py 30-60.

    Objects that matter here are cells: an approximator is a cell holding its weights [W], a
    policy is a cell holding the address of its approximator, and the Mellowmax temperature
    holds the address of the policy it belongs to ([_outer]).  Saving writes the object as a
    tree, so that loading makes a separate new object for every registered attribute; a
    registered attribute that is pickled brings a new copy of everything it refers to.
    deepcopy keeps sharing.  All other attributes are left out (C20 is about them). *)
From Coq Require Import List Arith Lia Bool.
From Verif Require Import Common.
Import ListNotations.

Section Link.
Variable W : Type.

(** [Td]: TD, BatchTD and DQN agents with any TDPolicy; [Ddpg]: DDPG and TD3; [Copdac]:
    COPDAC_Q with a Gaussian policy around [mu]. *)
Inductive kind := Td | Ddpg | Copdac.

Record world := mkW { cells : list W; pols : list nat }.

(** [learned]: the approximator fit writes ([self.Q], [self._actor_approximator],
    [self._mu]); [policy]: the policy object; [outer]: the policy object the temperature
    parameter refers to (td_policy.py 184-188; only used by Mellowmax). *)
Record agent := mkA { learned : nat; policy : nat; outer : nat }.

Definition weights (w : world) (p : nat) : option W := a <- nth_error (pols w) p ;; nth_error (cells w) a.

(** Constructor: one approximator, one policy that refers to it (td.py 22-23,
    ddpg.py 62-68; copdac_q: the caller builds the policy from mu), and the policy's own
    temperature (td_policy.py 230). *)
Definition build (v : W) : world * agent := (mkW [v] [0], mkA 0 0 0).

(** fit: new weights from the old ones, written into the learned approximator. *)
Definition fit (w : world) (g : agent) (f : W -> W) : option world :=
  v <- nth_error (cells w) (learned g) ;;
  c <- upd (cells w) (learned g) (f v) ;;
  Some (mkW c (pols w)).

(** load of what save wrote.  The copies, in the order of the text:
    - [v1]: agent attribute Q/_mu (td.py 25 'mushroom', copdac_q.py 49 'mushroom'; DDPG does
      not register its actor approximator);
    - [v2]: the policy's approximator (noise_policy.py 38, 110 and gaussian_policy.py 59
      'mushroom'; td_policy.py 20 'mushroom!', which is never read back);
    - [v3]: the pickled policy in the temperature (td_policy.py 190-195 'primitive').
    Afterwards _post_load: set_q(self.Q) (td.py 50); [self._actor_approximator =
    self.policy._approximator] (ddpg.py 142); nothing for COPDAC_Q. *)
Definition reload (k : kind) (w : world) (g : agent) : option (world * agent) :=
  v1 <- nth_error (cells w) (learned g) ;;
  v2 <- weights w (policy g) ;;
  v3 <- weights w (outer g) ;;
  let c := length (cells w) in
  let p := length (pols w) in
  let polref := match k with Td => c | _ => c + 1 end in
  let lref := match k with Ddpg => c + 1 | _ => c end in
  Some (mkW (cells w ++ [v1; v2; v3]) (pols w ++ [polref; c + 2]), mkA lref p (p + 1)).

(** Agent.copy: deepcopy, with the memo table keeping shared objects shared. *)
Definition copy (w : world) (g : agent) : option (world * agent) :=
  v <- nth_error (cells w) (learned g) ;;
  a <- nth_error (pols w) (policy g) ;;
  va <- nth_error (cells w) a ;;
  b <- nth_error (pols w) (outer g) ;;
  vb <- nth_error (cells w) b ;;
  let c := length (cells w) in
  let p := length (pols w) in
  let ra := if a =? learned g then c else c + 1 in
  let rb := if b =? learned g then c else if b =? a then c + 1 else c + 2 in
  Some (mkW (cells w ++ [v; va; vb]) (pols w ++ [ra; rb]),
        mkA c p (if outer g =? policy g then p else p + 1)).

Inductive op := OFit (f : W -> W) | OReload | OCopy.

(** A history of one agent; after a reload or a copy the new agent is used. *)
Fixpoint run (k : kind) (w : world) (g : agent) (l : list op) : option (world * agent) :=
  match l with
  | [] => Some (w, g)
  | OFit f :: t => w' <- fit w g f ;; run k w' g t
  | OReload :: t => r <- reload k w g ;; run k (fst r) (snd r) t
  | OCopy :: t => r <- copy w g ;; run k (fst r) (snd r) t
  end.

(** What the agent acts with: the weights of the approximator of its policy (the action
    values or the mean), and the weights the Mellowmax temperature is computed from
    ([self._outer._approximator.predict], td_policy.py 198). *)
Definition acting (w : world) (g : agent) : option W := weights w (policy g).
Definition tempering (w : world) (g : agent) : option W := weights w (outer g).
End Link.
Arguments mkW {W}. Arguments cells {W}. Arguments pols {W}. Arguments weights {W}. Arguments build {W}.
Arguments fit {W}. Arguments reload {W}. Arguments copy {W}. Arguments OFit {W}. Arguments OReload {W}.
Arguments OCopy {W}. Arguments run {W}. Arguments acting {W}. Arguments tempering {W}.

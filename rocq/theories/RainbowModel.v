(** Composition: [Core.learn] (CoreModel.v) driving a [Rainbow] agent.

    Cited code: algorithms/value/dqn/rainbow.py 122-166 (fit), abstract_dqn.py 127-132
    (_update_target), rl_utils/replay_memory.py 301-365 and 469-599.

    Simplifications: as in CorePerModel.v. One call of approximator.fit is an arbitrary function
    [train] of weights, batch and sample weights; the network is given by three arbitrary
    functions of the weights: the action values of a state ([qval]), the distribution for an
    action given by its number ([dist]) and for an action of the dataset ([dista]). A projection
    that would write outside the atoms is recorded in [r_ok]. *)
From Coq Require Import List Arith Lia Bool Reals.
From Verif Require Import Common ReplayModel SumTreeModel DqnModel CoreDqnModel CorePerModel.
From Verif Require CoreModel.
Import ListNotations.

Section Rainbow.
Context {En Ob Ac Wt : Type}.
Variable (qval : Wt -> Ob -> list R) (dist : Wt -> Ob -> nat -> list R) (dista : Wt -> Ob -> Ac -> list R).
Variable (train : Wt -> list (Ob * Ac * list R) -> list R -> Wt).
Variable (pol : Wt -> nat -> Ob -> Ac).
Variable (unif : nat -> nat -> R) (coin : nat -> nat -> nat -> bool) (beta : nat -> R).
Variable (gamma : R) (clip_reward : bool) (freq bs ini : nat) (eps alpha : R).
Variable (nst na : nat) (vmin vmax aeps : R).
Notation stree := (stree Ob Ac unit).
Notation row := (sample Ob Ac unit).

(** Memory, online and target weights, _n_updates, number of drawn actions, whether no call
    raised or read a slot never written. *)
Record ragent := mkRa { r_tree : stree; r_w : Wt; r_target : Wt; r_updates : nat; r_drawn : nat; r_ok : bool }.

(** One row of the batch (rainbow.py 128-153): greedy action of the online network, distribution
    of the target network, discount gamma ** n_steps_return * (1 - absorbing) *)
Definition rb_example (w target : Wt) (x : row) : option (Ob * Ac * list R) :=
  let a_max := argmax (qval w (s_next x)) in
  m <- project na vmin vmax aeps (clipped clip_reward (s_reward x)) (gamma ^ nst)%R (s_absorbing x) (dist target (s_next x) a_max) ;;
  Some (s_state x, s_action x, m).

Definition rb_batch (w target : Wt) (rows : list row) : option (list (Ob * Ac * list R)) :=
  fold_right (fun x acc => e <- rb_example w target x ;; l <- acc ;; Some (e :: l)) (Some []) rows.

(** rainbow.py 155-156 *)
Definition rb_kl (w : Wt) (e : Ob * Ac * list R) : R :=
  (- rsum (map (fun q => fst q * ln (Rmax (snd q) (1 / 100000))) (combine (snd e) (dista w (fst (fst e)) (snd (fst e))))))%R.

(** fit (rainbow.py 122-166) *)
Definition rb_fit (a : ragent) (d : CoreModel.dataset Ob Ac R unit unit) : ragent :=
  let p := max_priority ini (r_tree a) in
  match st_add (r_tree a) (map row_of (CoreModel.rows d)) (repeat p (length (CoreModel.rows d))) nst gamma with
  | None => mkRa (r_tree a) (r_w a) (r_target a) (r_updates a) (r_drawn a) false
  | Some (t, _) =>
      if ini <? st_size t then
        match per_get unif coin bs (r_updates a) t with
        | None => mkRa t (r_w a) (r_target a) (r_updates a) (r_drawn a) false
        | Some g =>
            match rb_batch (r_w a) (r_target a) (map snd g) with
            | None => mkRa t (r_w a) (r_target a) (r_updates a) (r_drawn a) false
            | Some b =>
                let w := is_weights (st_size t) (total_p t) (beta (r_updates a)) (map (fun q => snd (fst q)) g) in
                match update (t_arr t) (map (fun q => fst (fst q)) g) (map (get_priority eps alpha) (map (rb_kl (r_w a)) b)) with
                | None => mkRa t (r_w a) (r_target a) (r_updates a) (r_drawn a) false
                | Some arr =>
                    let w' := train (r_w a) b w in
                    let u := r_updates a + 1 in
                    mkRa (mkST (t_mem t) arr) w' (if u mod freq =? 0 then w' else r_target a) u (r_drawn a) (r_ok a)
                end
            end
        end
      else mkRa t (r_w a) (r_target a) (r_updates a) (r_drawn a) (r_ok a)
  end.

Definition rb_init (max_size : nat) (w : Wt) : ragent := mkRa (st_init max_size) w w 0 0 true.

Definition rb_action (a : ragent) (o : Ob) (ps : unit) : ragent * Ac * unit :=
  (mkRa (r_tree a) (r_w a) (r_target a) (r_updates a) (r_drawn a + 1) (r_ok a), pol (r_w a) (r_drawn a) o, tt).

Definition rb_world (ereset : En -> option Ob -> En * Ob) (estep : En -> Ac -> En * Ob * R * bool)
    (hor : option nat) : CoreModel.world En ragent Ob Ac R unit unit :=
  CoreModel.mkW En ragent Ob Ac R unit unit ereset estep (fun a _ => (a, tt, tt)) rb_action
    (fun a o => (a, o)) (fun a => a) false hor rb_fit.
End Rainbow.

(** Model of the advantage estimators (/repo/mushroom_rl/rl_utils/value_functions.py).

    Each step carries the numbers the functions read: the value of the state and of
    the next state, the reward and the two flags. Tensors are lists; a tensor with
    one element loses its only dimension under squeeze(), after which len() raises
    (None). *)
From Coq Require Import List Arith Lia Reals Bool.
From Verif Require Import Common.
Import ListNotations.

Record step := { g_v : R; g_vn : R; g_r : R; g_abs : bool; g_last : bool }.

(** compute_gae (value_functions.py 69-112): the loop runs backwards, so the value
    for position k is computed from that of k+1. *)
Fixpoint gae (gamma lam : R) (l : list step) : list R :=
  match l with
  | [] => []
  | x :: rest =>
      let next := gae gamma lam rest in
      (if g_last x || match rest with [] => true | _ => false end
       then g_r x - g_v x + (if g_abs x then 0 else gamma * g_vn x)
       else g_r x + gamma * g_vn x - g_v x + gamma * lam * hd 0 next)%R :: next
  end.

(** the returned pair: gen_adv + v, gen_adv *)
Definition compute_gae (gamma lam : R) (l : list step) : list R * list R :=
  let a := gae gamma lam l in (map (fun p => (fst p + g_v (snd p))%R) (combine a l), a).

(** compute_advantage (value_functions.py 40-66) *)
Definition compute_advantage (gamma : R) (l : list step) : list R * list R :=
  let q := map (fun x => g_r x + gamma * (g_vn x * (1 - if g_abs x then 1 else 0)))%R l in
  (q, map (fun p => (fst p - g_v (snd p))%R) (combine q l)).

(** compute_advantage_montecarlo (value_functions.py 4-37): the loop over k going
    down, q_next starting from the value of the last next state. *)
Fixpoint mc_q (gamma qinit : R) (l : list step) : list R :=
  match l with
  | [] => []
  | x :: rest =>
      let next := mc_q gamma qinit rest in
      (g_r x + gamma * hd qinit next * (1 - if g_abs x then 1 else 0))%R :: next
  end.

Definition compute_advantage_mc (gamma : R) (l : list step) : option (list R * list R) :=
  match l with
  | [] => None  (* ss[-1] raises *)
  | [_] => None (* len() of a 0-d tensor raises *)
  | x :: _ =>
      let q := mc_q gamma (g_vn (last l x)) l in
      Some (q, map (fun p => (fst p - g_v (snd p))%R) (combine q l))
  end.

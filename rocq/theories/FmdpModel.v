(** Model of finite MDPs, their generators and the grid worlds
    (/repo/mushroom_rl/environments/finite_mdp.py, environments/grid_world.py,
    environments/generators/simple_chain.py, generators/grid_world.py,
    generators/taxi.py).

    Arrays indexed by states and actions are functions; assignments are function
    updates in program order. Probabilities are real numbers. *)
From Coq Require Import List Arith Lia Reals Bool ZArith.
From Verif Require Import Common.
Import ListNotations.

(** vector assignments: v[i] = x and v[i] += x *)
Definition vset (v : nat -> R) (i : nat) (x : R) : nat -> R := fun j => if Nat.eqb j i then x else v j.
Definition vinc (v : nat -> R) (i : nat) (x : R) : nat -> R := vset v i (v i + x)%R.
Definition vzero : nat -> R := fun _ => 0%R.

(** * FiniteMDP *)

(** step (finite_mdp.py 55-66): [draw] is the outcome of np.random.choice(p.size, p=p),
    which raises unless the probabilities sum to one. *)
Definition any_row (n m : nat) (p : nat -> nat -> nat -> R) (s : nat) : bool :=
  existsb (fun a => existsb (fun j => if Req_EM_T (p s a j) 0%R then false else true) (seq 0 n)) (seq 0 m).
Definition row_total (n : nat) (v : nat -> R) : R := rsum (map v (seq 0 n)).
Definition fmdp_step (n m : nat) (p r : nat -> nat -> nat -> R) (s a draw : nat) : option (nat * R * bool) :=
  if Req_EM_T (row_total n (p s a)) 1%R then Some (draw, r s a draw, negb (any_row n m p draw)) else None.

(** np.random.choice only returns indices of positive probability *)
Definition choice_ok (n : nat) (v : nat -> R) (draw : nat) : Prop := draw < n /\ (0 < v draw)%R.

(** * Simple chain (simple_chain.py 32-81) *)
Definition chain_p (n : nat) (prob : R) (i a : nat) : nat -> R :=
  if Nat.eqb a 1 then
    (if Nat.eqb i 0 then vset vzero i 1%R else vset (vset vzero i (1 - prob)%R) (i - 1) prob)
  else
    (if Nat.eqb i (n - 1) then vset vzero i 1%R else vset (vset vzero i (1 - prob)%R) (i + 1) prob).

Definition tset3 (t : nat -> nat -> nat -> R) (i a j : nat) (x : R) : nat -> nat -> nat -> R :=
  fun i' a' j' => if Nat.eqb i' i && Nat.eqb a' a && Nat.eqb j' j then x else t i' a' j'.

Definition chain_r (n : nat) (goals : list nat) (rew : R) : nat -> nat -> nat -> R :=
  fold_left (fun t g =>
      let t1 := if Nat.eqb g 0 then t else tset3 t (g - 1) 0 g rew in
      if Nat.eqb g (n - 1) then t1 else tset3 t1 (g + 1) 1 g rew)
    goals (fun _ _ _ => 0%R).

(** * Grid files *)
Inductive mark := Wall | Dot | Start | Goal | Hole | Fare.
Inductive char := Mk (m : mark) | NL | Other.

Definition mark_eqb (a b : mark) : bool :=
  match a, b with
  | Wall, Wall | Dot, Dot | Start, Start | Goal, Goal | Hole, Hole | Fare, Fare => true
  | _, _ => false
  end.
Definition is_wall (m : mark) : bool := mark_eqb m Wall.

(** parse_grid (generators/grid_world.py 39-77; generators/taxi.py 50-91), with the
    marker that is not allowed in the file; returns the map and the list of cells. *)
Fixpoint parse (bad : mark) (cs : list char) (gm : list (list mark)) (cells : list (nat * nat))
    (row : list mark) (ri ci : nat) : option (list (list mark) * list (nat * nat)) :=
  match cs with
  | [] => Some (gm, cells)
  | Mk m :: cs' =>
      if mark_eqb m bad then None
      else parse bad cs' gm (if is_wall m then cells else cells ++ [(ri, ci)]) (row ++ [m]) ri (ci + 1)
  | NL :: cs' => parse bad cs' (gm ++ [row]) cells [] (ri + 1) 0
  | Other :: _ => None
  end.
Definition parse_grid (bad : mark) (cs : list char) := parse bad cs [] [] [] 0 0.

(** [assert 'S' in m and 'G' in m] in front of the loop (generators/grid_world.py 55;
    generators/taxi.py 65). *)
Definition has_mark (t : mark) (cs : list char) : bool :=
  existsb (fun c => match c with Mk m => mark_eqb m t | _ => false end) cs.
Definition read_grid (bad : mark) (cs : list char) : option (list (list mark) * list (nat * nat)) :=
  if has_mark Start cs && has_mark Goal cs then parse_grid bad cs else None.

(** np.argwhere(g == t) *)
Definition positions (f : mark -> bool) (g : list (list mark)) : list (nat * nat) :=
  flat_map (fun r => map (fun c => (r, c)) (filter (fun c => f (nth c (nth r g []) Wall)) (seq 0 (length (nth r g [])))))
    (seq 0 (length g)).

(** g[tuple(state)], with IndexError *)
Definition lookup (g : list (list mark)) (s : nat * nat) : option mark :=
  match nth_error g (fst s) with Some row => nth_error row (snd s) | None => None end.

(** state + direction; None when it leaves the non-negative quadrant *)
Definition directions : list (Z * Z) := [(-1, 0); (1, 0); (0, -1); (0, 1)]%Z.
Definition shift (s : nat * nat) (d : Z * Z) : option (nat * nat) :=
  let x := (Z.of_nat (fst s) + fst d)%Z in let y := (Z.of_nat (snd s) + snd d)%Z in
  if (x <? 0)%Z || (y <? 0)%Z then None else Some (Z.to_nat x, Z.to_nat y).
Definition dir (a : nat) : Z * Z := nth a directions (0, 0)%Z.

(** np.where((c == x).all(axis=1))[0] *)
Definition cell_eqb (a b : nat * nat) : bool := Nat.eqb (fst a) (fst b) && Nat.eqb (snd a) (snd b).
Fixpoint find_cell (cells : list (nat * nat)) (x : nat * nat) (i : nat) : option nat :=
  match cells with
  | [] => None
  | c :: cells' => if cell_eqb c x then Some i else find_cell cells' x (S i)
  end.
Definition target (cells : list (nat * nat)) (s : nat * nat) (d : Z * Z) : option nat :=
  match shift s d with Some x => find_cell cells x 0 | None => None end.

(** * Grid world generator *)

(** compute_probabilities (generators/grid_world.py 80-117): row [i, a] *)
Definition grid_p (g : list (list mark)) (cells : list (nat * nat)) (prob : R) (i a : nat) : option (nat -> R) :=
  let s := nth i cells (0, 0) in
  match lookup g s with
  | None => None
  | Some m =>
      Some (if mark_eqb m Dot || mark_eqb m Start then
              match target cells s (dir a) with
              | Some j => vset (vset vzero i (1 - prob)%R) j prob
              | None => vset vzero i 1%R
              end
            else vzero)
  end.

(** compute_reward (generators/grid_world.py 120-155) *)
Definition opp (d : Z * Z) : Z * Z := (- fst d, - snd d)%Z.
Definition give_reward (g : list (list mark)) (cells : list (nat * nat)) (t : mark) (rew : R)
    (r : nat -> nat -> nat -> R) : nat -> nat -> nat -> R :=
  fold_left (fun r x =>
      fold_left (fun r a =>
          match target cells x (opp (dir a)), find_cell cells x 0 with
          | Some i, Some j => tset3 r i a j rew
          | _, _ => r
          end) (seq 0 4) r)
    (positions (mark_eqb t) g) r.
Definition grid_r (g : list (list mark)) (cells : list (nat * nat)) (pos neg : R) : nat -> nat -> nat -> R :=
  give_reward g cells Hole neg (give_reward g cells Goal pos (fun _ _ _ => 0%R)).

(** compute_mu (generators/grid_world.py 158-181; generators/taxi.py 223-248) *)
Definition grid_mu (g : list (list mark)) (cells : list (nat * nat)) : nat -> R :=
  let starts := positions (mark_eqb Start) g in
  fold_left (fun mu s => match find_cell cells s 0 with Some i => vset mu i (1 / INR (length starts))%R | None => mu end)
    starts vzero.

(** * Taxi generator *)

(** cartesian([[0, 1]] * k), in lexicographic order *)
Fixpoint pstates (k : nat) : list (list bool) :=
  match k with
  | 0 => [[]]
  | S k' => map (cons false) (pstates k') ++ map (cons true) (pstates k')
  end.
Fixpoint bools_eqb (a b : list bool) : bool :=
  match a, b with
  | [], [] => true
  | x :: a', y :: b' => Bool.eqb x y && bools_eqb a' b'
  | _, _ => false
  end.
Fixpoint find_ps (l : list (list bool)) (x : list bool) (i : nat) : option nat :=
  match l with [] => None | p :: l' => if bools_eqb p x then Some i else find_ps l' x (S i) end.

(** The state reached by moving from state [i] in direction [d]
    (generators/taxi.py 131-156 and 161-184): [fares] lists the passenger cells. *)
Definition taxi_target (g : list (list mark)) (cells fares : list (nat * nat)) (i : nat) (d : Z * Z) : nat :=
  let nc := length cells in
  let ps := pstates (length fares) in
  let idx := Nat.div i nc in
  let cur := nth idx ps [] in
  match shift (nth (Nat.modulo i nc) cells (0, 0)) d with
  | None => i
  | Some x =>
      match find_cell cells x 0 with
      | None => i
      | Some j =>
          match find_cell fares x 0 with
          | Some f =>
              if nth f cur false then j + nc * idx
              else match find_ps ps (setnth cur f true) 0 with
                   | Some idx' => j + nc * idx'
                   | None => i
                   end
          | None => j + nc * idx
          end
      end
  end.

(** 1 - |d| and |d| - 1 *)
Definition slips (d : Z * Z) : list (Z * Z) :=
  [(1 - Z.abs (fst d), 1 - Z.abs (snd d)); (Z.abs (fst d) - 1, Z.abs (snd d) - 1)]%Z.

(** compute_probabilities (generators/taxi.py 94-188): row [i, a] *)
Definition taxi_p (g : list (list mark)) (cells fares : list (nat * nat)) (prob : R) (i a : nat) : option (nat -> R) :=
  let nc := length cells in
  let s := nth (Nat.modulo i nc) cells (0, 0) in
  let cur := nth (Nat.div i nc) (pstates (length fares)) [] in
  match lookup g s with
  | None => None
  | Some m =>
      Some (if (mark_eqb m Dot || mark_eqb m Start ||
                (mark_eqb m Fare && match find_cell fares s 0 with Some f => nth f cur false | None => false end))
            then fold_left (fun v d => vinc v (taxi_target g cells fares i d) ((1 - prob) * (1 / 2))%R) (slips (dir a))
                   (vset vzero (taxi_target g cells fares i (dir a)) prob)
            else vzero)
  end.

(** compute_reward (generators/taxi.py 191-220) *)
Definition taxi_r (g : list (list mark)) (cells fares : list (nat * nat)) (rew : list R) : nat -> nat -> nat -> R :=
  let nc := length cells in
  let ps := pstates (length fares) in
  fold_left (fun r x =>
      fold_left (fun r a =>
          match target cells x (opp (dir a)), find_cell cells x 0 with
          | Some i, Some j =>
              fold_left (fun r k => tset3 r (i + nc * k) a (j + nc * k)
                           (nth (count_occ Bool.bool_dec (nth k ps []) true) rew 0%R)) (seq 0 (length ps)) r
          | _, _ => r
          end) (seq 0 4) r)
    (positions (mark_eqb Goal) g) (fun _ _ _ => 0%R).

(** * GridWorld *)

(** convert_to_grid, convert_to_int (grid_world.py 96-102) *)
Definition to_grid (s w : nat) : nat * nat := (Nat.div s w, Nat.modulo s w).
Definition to_int (s : nat * nat) (w : nat) : nat := fst s * w + snd s.

(** _grid_step (grid_world.py 80-94) *)
Definition grid_move (h w : nat) (s : nat * nat) (a : nat) : nat * nat :=
  match a with
  | 0 => if Nat.ltb 0 (fst s) then (fst s - 1, snd s) else s
  | 1 => if Nat.ltb (fst s + 1) h then (fst s + 1, snd s) else s
  | 2 => if Nat.ltb 0 (snd s) then (fst s, snd s - 1) else s
  | 3 => if Nat.ltb (snd s + 1) w then (fst s, snd s + 1) else s
  | _ => s
  end.

(** GridWorld._step within AbstractGridWorld.step (grid_world.py 45-51, 128-138) *)
Definition gw_step (h w : nat) (goal : nat * nat) (s a : nat) : nat * R * bool :=
  let s' := grid_move h w (to_grid s w) a in
  if cell_eqb s' goal then (to_int s' w, 10%R, true) else (to_int s' w, 0%R, false).

(** GridWorldVanHasselt._step (grid_world.py 164-175); [coin] is the random reward *)
Definition vh_step (h w : nat) (goal : nat * nat) (s a : nat) (coin : R) : nat * R * bool :=
  let g := to_grid s w in
  if cell_eqb g goal then (to_int g w, 5%R, true) else (to_int (grid_move h w g a) w, coin, false).

(** The cell drawn as start by render (grid_world.py 62-64): convert_to_grid applied to
    the pair of coordinates *)
Definition drawn_start (start : nat * nat) (w : nat) : nat * nat := to_grid (fst start) w.

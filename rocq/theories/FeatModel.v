(** Model of tilings, basis functions, feature vectors and grids
    (/repo/mushroom_rl/features/tiles/tiles.py, tiles/voronoi.py,
    features/_implementations/tiles_features.py, features/features.py,
    features/basis/polynomial.py, basis/fourier.py, basis/gaussian_rbf.py,
    utils/features.py). Floats are real numbers. *)
From Coq Require Import List Arith Lia Reals Bool ZArith.
From Verif Require Import Common.
Import ListNotations.

(** * Tiles *)

(** int(floor(N * (x - low) / width)) (tiles.py 56) *)
Definition comp_index (r : R * R) (N : nat) (x : R) : nat :=
  Z.to_nat (Int_part (INR N * (x - fst r) / (snd r - fst r))).

(** r[0] <= x < r[1] (tiles.py 54) *)
Definition in_rangeb (r : R * R) (x : R) : bool :=
  if Rle_dec (fst r) x then if Rlt_dec x (snd r) then true else false else false.

(** Tiles.__call__ (tiles.py 46-63): the loop, with its two accumulators; the
    components of [x] have already been selected. *)
Fixpoint tile_loop (rs : list (R * R)) (ns : list nat) (x : list R) (mult idx : nat) : option nat :=
  match rs, ns, x with
  | r :: rs', N :: ns', xi :: x' =>
      if in_rangeb r xi then tile_loop rs' ns' x' (mult * N) (idx + comp_index r N xi * mult) else None
  | _, _, _ => Some idx
  end.
Definition tile_call (rs : list (R * R)) (ns : list nat) (x : list R) : option nat := tile_loop rs ns x 1 0.

(** Tiles.__init__ (tiles.py 41-44): the size *)
Definition tile_size (ns : list nat) : nat := fold_left Nat.mul ns 1.

(** state_components (tiles.py 47-48) *)
Definition select (comps : list nat) (x : list R) : list R := map (fun i => nth i x 0%R) comps.

(** Tiles.generate (tiles.py 87-124) *)
Definition gen_shift (uniform : bool) (n i j : nat) : nat :=
  Nat.modulo (i * (if uniform then 1 else 2 * j + 1)) n.
Definition gen_side (n N : nat) (lo hi : R) : R := ((hi - lo) / (INR N - (INR n - 1) / INR n))%R.
Definition gen_range (uniform : bool) (n i j N : nat) (lo hi : R) : R * R :=
  let l := gen_side n N lo hi in
  let x_min := (lo + (- INR n + 1 + INR (gen_shift uniform n i j)) / INR n * l)%R in
  (x_min, (x_min + l * INR N)%R).
Definition gen_tiling (uniform : bool) (n i : nat) (ns : list nat) (low high : list R) : list (R * R) :=
  map (fun j => gen_range uniform n i j (nth j ns 0) (nth j low 0%R) (nth j high 0%R)) (seq 0 (length ns)).

(** * VoronoiTiles.__call__ (voronoi.py 21-24) *)
Definition dist (p x : list R) : R := sqrt (rsum (map (fun q => (fst q - snd q) ^ 2)%R (combine p x))).
Fixpoint argmin_from (l : list R) (i best : nat) (m : R) : nat :=
  match l with
  | [] => best
  | v :: l' => if Rlt_dec v m then argmin_from l' (S i) i v else argmin_from l' (S i) best m
  end.
Definition argmin (l : list R) : nat := match l with [] => 0 | v :: l' => argmin_from l' 1 0 v end.
Definition voronoi_call (protos : list (list R)) (x : list R) : nat := argmin (map (fun p => dist p x) protos).

(** * TilesFeatures (tiles_features.py 18-62), for one input; a tiling is its size and
      its answer on that input. *)
Fixpoint tf_indexes (ts : list (nat * option nat)) (offset : nat) : list nat :=
  match ts with
  | [] => []
  | (sz, Some i) :: ts' => (i + offset) :: tf_indexes ts' (offset + sz)
  | (sz, None) :: ts' => tf_indexes ts' (offset + sz)
  end.
Definition tf_size (ts : list (nat * option nat)) : nat := fold_left (fun a t => a + fst t) ts 0.
Fixpoint tf_loop (ts : list (nat * option nat)) (offset : nat) (out : list R) : list R :=
  match ts with
  | [] => out
  | (sz, Some i) :: ts' => tf_loop ts' (offset + sz) (setnth out (i + offset) 1%R)
  | (sz, None) :: ts' => tf_loop ts' (offset + sz) out
  end.
Definition tf_call (ts : list (nat * option nat)) : list R := tf_loop ts 0 (repeat 0%R (tf_size ts)).

(** * get_action_features (features.py 56-94), for one state: the slice assignment *)
Definition action_features (phi : list R) (a n : nat) : list R :=
  let z := repeat 0%R (n * length phi) in
  let start := length phi * a in
  firstn start z ++ phi ++ skipn (start + length phi) z.

(** * PolynomialBasis *)

(** The body of the while loop of _compute_exponents (polynomial.py 90-98) *)
Definition poly_step (p : list nat) : list nat :=
  let n := length p in
  match find (fun i => Nat.ltb 0 (nth (n - i) p 0)) (seq 2 (n - 1)) with
  | Some i =>
      let p1 := setnth p (n - i) (nth (n - i) p 0 - 1) in
      if Nat.ltb 2 i
      then setnth (setnth p1 (n - i + 1) (1 + nth (n - 1) p1 0)) (n - 1) 0
      else setnth p1 (n - 1) (nth (n - 1) p1 0 + 1)
  | None => p
  end.

(** The while loop (polynomial.py 89-99): the yielded patterns and the final one *)
Fixpoint poly_while (fuel s : nat) (p : list nat) : option (list (list nat) * list nat) :=
  if Nat.ltb (nth (length p - 1) p 0) s then
    match fuel with
    | 0 => None
    | S fuel' =>
        let p' := poly_step p in
        match poly_while fuel' s p' with Some (l, q) => Some (p' :: l, q) | None => None end
    end
  else Some ([], p).

(** One iteration of the for loop (polynomial.py 86-100) *)
Definition poly_degree (fuel s : nat) (p : list nat) : option (list (list nat) * list nat) :=
  let p1 := setnth p 0 s in
  match poly_while fuel s p1 with
  | Some (l, q) => Some (p1 :: l, setnth q (length q - 1) 0)
  | None => None
  end.

Fixpoint poly_loop (fuel : nat) (ss : list nat) (p : list nat) : option (list (list nat)) :=
  match ss with
  | [] => Some []
  | s :: ss' =>
      match poly_degree fuel s p with
      | Some (l, q) => match poly_loop fuel ss' q with Some m => Some (l ++ m) | None => None end
      | None => None
      end
  end.

(** _compute_exponents (polynomial.py 71-100) *)
Definition poly_exponents (fuel order n : nat) : option (list (list nat)) :=
  poly_loop fuel (seq 1 order) (repeat 0 n).

(** generate (polynomial.py 125-131): the dimensions and degrees of a basis function *)
Definition poly_basis (e : list nat) : list nat * list nat :=
  (filter (fun i => negb (Nat.eqb (nth i e 0) 0)) (seq 0 (length e)),
   filter (fun d => negb (Nat.eqb d 0)) e).

(** __call__ (polynomial.py 46-56), after normalisation *)
Definition poly_call (b : list nat * list nat) (x : list R) : R :=
  fold_left (fun out q => (out * nth (fst q) x 0 ^ snd q)%R) (combine (fst b) (snd b)) 1%R.

(** * FourierBasis.generate (fourier.py 65-78): the coefficients of basis [index] *)
Fixpoint fourier_c (d n value : nat) : list nat :=
  match d with
  | 0 => []
  | S d' => Nat.modulo value (n + 1) :: fourier_c d' n (Nat.div value (n + 1))
  end.
Definition fourier_generate (d n : nat) : list (list nat) := map (fourier_c d n) (seq 0 ((n + 1) ^ d)).

(** * uniform_grid (utils/features.py 24-67) *)

(** np.linspace(start, stop, n), n >= 2 *)
Definition linspace (start stop : R) (n : nat) : list R :=
  map (fun k => start + INR k * ((stop - start) / INR (n - 1)))%R (seq 0 n).

(** The centers along one dimension (utils/features.py 29-44) *)
Definition grid_centers (cyclic : bool) (n : nat) (start stop : R) : list R :=
  if Nat.eqb n 1 then [((start + stop) / 2)%R]
  else linspace start (if cyclic then stop - Rabs (stop - start) / INR n else stop)%R n.

(** grid[idx_r, :n_cols] = grid[r, :n_cols]; grid[idx_r, n_cols] = v
    (utils/features.py 56-59) *)
Definition grid_row (n_rows n_cols i : nat) (v : R) (g : nat -> nat -> R) (r : nat) : nat -> nat -> R :=
  let idx := r + i * n_rows in
  fun a b => if Nat.eqb a idx then (if Nat.ltb b n_cols then g r b else if Nat.eqb b n_cols then v else g a b) else g a b.

(** The loops over i and r for one dimension (utils/features.py 54-61) *)
Definition grid_dim (n_rows n_cols : nat) (vals : list R) (g : nat -> nat -> R) : nat -> nat -> R :=
  fold_left (fun g i => fold_left (grid_row n_rows n_cols i (nth i vals 0%R)) (seq 0 n_rows) g) (seq 0 (length vals)) g.

(** The loop over dimensions (utils/features.py 51-64) *)
Fixpoint grid_loop (cs : list (list R)) (n_rows n_cols : nat) (g : nat -> nat -> R) : nat -> nat -> R :=
  match cs with
  | [] => g
  | vals :: cs' => grid_loop cs' (n_rows * length vals) (n_cols + 1) (grid_dim n_rows n_cols vals g)
  end.

Definition grid_of (cs : list (list R)) : list (list R) :=
  let g := grid_loop cs 1 0 (fun _ _ => 0%R) in
  map (fun a => map (g a) (seq 0 (length cs))) (seq 0 (fold_left Nat.mul (map (@length R) cs) 1)).

Definition uniform_grid (cyclic : bool) (ns : list nat) (low high : list R) : list (list R) :=
  grid_of (map (fun j => grid_centers cyclic (nth j ns 0) (nth j low 0%R) (nth j high 0%R)) (seq 0 (length ns))).

(** GaussianRBF.__call__ (gaussian_rbf.py 30-34) *)
Definition rbf_call (mean scale x : list R) : R :=
  exp (- rsum (map (fun q => (fst (fst q) - snd (fst q)) ^ 2 / snd q)%R (combine (combine x mean) scale))).

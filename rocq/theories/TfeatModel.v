(** Torch feature tensors (mushroom_rl/features/tensors) and their use by TorchFeatures
    (features/_implementations/torch_features.py), next to BasisFeatures (basis_features.py). A tensor module is the list
    of its feature functions and a flag that says whether its forward drops a last dimension of size one. *)
From Coq Require Import List Arith Lia Reals Bool.
From Verif Require Import Common FeatModel.
Import ListNotations.
Local Open Scope R_scope.

(** * Widths and scales *)
(** the widths of uniform_grid (utils/features.py 35-43) *)
Definition grid_width (cyclic : bool) (eta : R) (n : nat) (start stop : R) : R :=
  if Nat.eqb n 1 then Rabs (stop - start) / 2
  else (1 + eta) * Rabs ((if cyclic then stop - Rabs (stop - start) / INR n else stop) - start) / INR n.
Definition grid_widths (cyclic : bool) (eta : R) (ns : list nat) (low high : list R) : list R :=
  map (fun j => grid_width cyclic eta (nth j ns 0%nat) (nth j low 0) (nth j high 0)) (seq 0 (length ns)).
(** GaussianRBF.generate, GaussianRBFTensor._convert_to_scale (gaussian_rbf.py 65, basis_tensor.py 125-126) *)
Definition gauss_scale (w : list R) : list R := map (fun v => 2 * (v / 3) ^ 2) w.

(** * Feature functions *)
(** x[self._dim], torch.index_select(x, 1, self._dim) (gaussian_rbf.py 31-32, basis_tensor.py 40-41) *)
Definition pick (dim : option (list nat)) (x : list R) : list R := match dim with Some d => select d x | None => x end.
(** GaussianRBF.generate (gaussian_rbf.py 59-74): one function per centre *)
Definition rbf_generate (ns : list nat) (low high : list R) (dim : option (list nat)) (eta : R) : list (list R -> R) :=
  map (fun mu x => rbf_call mu (gauss_scale (grid_widths false eta ns low high)) (pick dim x)) (uniform_grid false ns low high).
(** VonMisesBFTensor._basis_function (basis_tensor.py 130-131) *)
Definition von_mises (mu scale x : list R) : R :=
  exp (rsum (map (fun q => cos (2 * PI * (fst (fst q) - snd (fst q))) / snd q) (combine (combine x mu) scale))
       - rsum (map (fun s => / s) scale)).
(** _normalize (basis_tensor.py 72-77) *)
Definition normalize (fs : list (list R -> R)) : list (list R -> R) :=
  map (fun f x => f x / rsum (map (fun g => g x) fs)) fs.

(** * Modules *)
Record tensor_mod := { tm_fns : list (list R -> R); tm_squeeze : bool }.
(** GenericBasisTensor (basis_tensor.py 9-53): both branches of forward squeeze the last dimension *)
Definition basis_tensor (normalized : bool) (fs : list (list R -> R)) : tensor_mod :=
  {| tm_fns := if normalized then normalize fs else fs; tm_squeeze := true |}.
Definition gauss_tensor (ns : list nat) (low high : list R) (dim : option (list nat)) (eta : R) (normalized : bool) : tensor_mod :=
  basis_tensor normalized
    (map (fun mu x => rbf_call mu (gauss_scale (grid_widths false eta ns low high)) (pick dim x)) (uniform_grid false ns low high)).
Definition von_mises_tensor (ns : list nat) (low high : list R) (dim : option (list nat)) (eta : R) (normalized : bool) : tensor_mod :=
  basis_tensor normalized
    (map (fun mu x => von_mises mu (grid_widths true eta ns low high) (pick dim x)) (uniform_grid true ns low high)).
(** ConstantTensor (constant_tensor.py 7-18) *)
Definition constant_tensor : tensor_mod := {| tm_fns := [fun _ => 1]; tm_squeeze := false |}.
(** RandomFourierBasis.forward (random_fourier_tensor.py 43-44): [P] column by column *)
Definition fourier_fn (nu : R) (p : list R) (phi : R) (x : list R) : R :=
  sin (rsum (map (fun q => fst q * snd q) (combine x p)) / nu + phi).
Definition fourier_tensor (nu : R) (P : list (list R)) (phi : list R) : tensor_mod :=
  {| tm_fns := map (fun q => fourier_fn nu (fst q) (snd q)) (combine P phi); tm_squeeze := false |}.
(** RandomFourierBasis.generate (random_fourier_tensor.py 50-76): [P] and [phi] are the draws, for the number of columns asked for *)
Definition fourier_generate_t (nu : R) (n_output : nat) (bias : bool) (P : nat -> list (list R)) (phi : nat -> list R) : list tensor_mod :=
  let n := if bias then (n_output - 1)%nat else n_output in
  fourier_tensor nu (P n) (phi n) :: if bias then [constant_tensor] else [].

(** * Evaluation *)
(** a tensor of dimension 1 or 2 *)
Inductive ten := T1 (l : list R) | T2 (rows : list (list R)).
Definition tm_forward (m : tensor_mod) (xs : list (list R)) : ten :=
  let rows := map (fun x => map (fun f => f x) (tm_fns m)) xs in
  if andb (tm_squeeze m) (Nat.eqb (length (tm_fns m)) 1) then T1 (concat rows) else T2 rows.
(** torch.cat(y_list, 1): raises on tensors of dimension 1 *)
Fixpoint cat1 (n : nat) (ts : list ten) : option (list (list R)) :=
  match ts with
  | [] => Some (repeat [] n)
  | T1 _ :: _ => None
  | T2 rows :: ts' => match cat1 n ts' with
                      | Some rows' => Some (map (fun p => fst p ++ snd p) (combine rows rows'))
                      | None => None
                      end
  end.
(** the result of a feature call: a vector or one row per state *)
Inductive feats := F1 (l : list R) | F2 (rows : list (list R)).
(** TorchFeatures.size (torch_features.py 27-29) *)
Definition tf_total (ms : list tensor_mod) : nat := fold_left Nat.add (map (fun m => length (tm_fns m)) ms) 0%nat.
(** TorchFeatures.__call__ (torch_features.py 12-25): concatenate, squeeze all dimensions of size one, read y.shape[0] (an
    IndexError for a scalar). [xs] are the rows of np.atleast_2d(x). *)
Definition torch_features (ms : list tensor_mod) (xs : list (list R)) : option feats :=
  match cat1 (length xs) (map (fun m => tm_forward m xs) ms) with
  | None => None
  | Some rows =>
    if Nat.eqb (length xs) 1
    then if Nat.eqb (tf_total ms) 1 then None else Some (F1 (concat rows))
    else if Nat.eqb (tf_total ms) 1 then Some (F1 (concat rows)) else Some (F2 rows)
  end.
(** BasisFeatures.__call__ (basis_features.py 10-29) *)
Definition basis_features (fs : list (list R -> R)) (xs : list (list R)) : feats :=
  let y := map (fun x => map (fun f => f x) fs) xs in
  match y with [r] => F1 r | _ => F2 y end.

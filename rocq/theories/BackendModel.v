(** Model of core/array_backend.py (the numpy, torch and list backends) and core/vectorized_env.py. An array is its shape and its
    elements by index. Devices, dtypes and strides are not modelled. None is a raised exception, unless said otherwise. *)
From Coq Require Import List Arith Lia Reals Bool.
From Verif Require Import Common.
Import ListNotations.
Local Open Scope nat_scope.

(** * Reordering *)
Record nd (A : Type) := mkNd { n_shape : list nat; n_at : list nat -> A }.
Arguments mkNd {A}. Arguments n_shape {A}. Arguments n_at {A}.
(** position of an index in memory, first axis slowest (C) or fastest (F), and back *)
Fixpoint ravel_c (sh ix : list nat) : nat := match sh, ix with s :: sh', i :: ix' => i * fold_right Nat.mul 1 sh' + ravel_c sh' ix' | _, _ => 0 end.
Fixpoint unravel_c (sh : list nat) (k : nat) : list nat :=
  match sh with [] => [] | s :: sh' => let m := fold_right Nat.mul 1 sh' in (k / m) :: unravel_c sh' (k mod m) end.
Fixpoint ravel_f (sh ix : list nat) : nat := match sh, ix with s :: sh', i :: ix' => i + s * ravel_f sh' ix' | _, _ => 0 end.
Fixpoint unravel_f (sh : list nat) (k : nat) : list nat := match sh with [] => [] | s :: sh' => (k mod s) :: unravel_f sh' (k / s) end.
Definition reshape_c {A} (a : nd A) (sh : list nat) : nd A := mkNd sh (fun ix => n_at a (unravel_c (n_shape a) (ravel_c sh ix))).
Definition reshape_f {A} (a : nd A) (sh : list nat) : nd A := mkNd sh (fun ix => n_at a (unravel_f (n_shape a) (ravel_f sh ix))).
Definition swap01 {A} (l : list A) : list A := match l with x :: y :: r => y :: x :: r | _ => l end.
Definition transpose01 {A} (a : nd A) : nd A := mkNd (swap01 (n_shape a)) (fun ix => n_at a (swap01 ix)).
Definition merged (sh : list nat) : list nat := match sh with s :: t :: r => s * t :: r | _ => sh end.
(** flatten (array_backend.py 277-281, 412-416) *)
Definition np_flatten {A} (a : nd A) : nd A := reshape_f a (merged (n_shape a)).
Definition torch_flatten {A} (a : nd A) : nd A := reshape_c (transpose01 a) (merged (n_shape a)).
(** boolean selection of rows; a row is a function of the remaining index *)
Definition select_rows {A} (a : nd A) (m : nd bool) : list (list nat -> A) :=
  map (fun k ix => n_at a (k :: ix)) (filter (fun k => n_at m [k]) (seq 0 (hd 0 (n_shape m)))).
(** pack_padded_sequence (array_backend.py 270-275, 404-410) *)
Definition np_pack {A} (a : nd A) (m : nd bool) : list (list nat -> A) := select_rows (np_flatten a) (np_flatten m).
Definition torch_pack {A} (a : nd A) (m : nd bool) : list (list nat -> A) := select_rows (torch_flatten a) (torch_flatten m).

(** * Median *)
Fixpoint insert (x : R) (l : list R) : list R := match l with [] => [x] | y :: r => if Rle_dec x y then x :: l else y :: insert x r end.
Definition sort (l : list R) : list R := fold_right insert [] l.
(** np.median, torch.Tensor.median (array_backend.py 258-260, 389-391); nan (None) on an empty array *)
Definition np_median (l : list R) : option R :=
  let s := sort l in let n := length l in
  if Nat.eqb n 0 then None
  else if Nat.odd n then Some (nth (n / 2) s 0%R) else Some ((nth (n / 2 - 1) s 0 + nth (n / 2) s 0) / 2)%R.
Definition torch_median (l : list R) : option R :=
  let n := length l in if Nat.eqb n 0 then None else Some (nth ((n - 1) / 2) (sort l) 0%R).

(** * Lists of arrays *)
(** the elements of a list: numbers, or arrays of dimension one *)
Inductive item := Scalar (x : R) | Tensor (v : list R).
Inductive stacked := Vec (l : list R) | Mat (rows : list (list R)).
Fixpoint all_scalars (l : list item) : option (list R) :=
  match l with [] => Some [] | Scalar x :: r => option_map (cons x) (all_scalars r) | Tensor _ :: _ => None end.
Fixpoint all_tensors (n : nat) (l : list item) : option (list (list R)) :=
  match l with
  | [] => Some []
  | Tensor v :: r => if Nat.eqb (length v) n then option_map (cons v) (all_tensors n r) else None
  | Scalar _ :: _ => None
  end.
Definition stack (l : list item) : option stacked :=
  match l with
  | Tensor v :: _ => option_map Mat (all_tensors (length v) l)
  | _ => option_map Vec (all_scalars l)
  end.
(** from_list: np.array (array_backend.py 266-268); torch.stack for more than one tensor, otherwise torch.tensor, which refuses
    a tensor of several elements (array_backend.py 397-402) *)
Definition np_from_list (l : list item) : option stacked := stack l.
Definition torch_from_list (l : list item) : option stacked :=
  match l with
  | Tensor _ :: _ :: _ => stack l
  | [Tensor [x]] => Some (Vec [x])
  | [Tensor _] => None
  | _ => option_map Vec (all_scalars l)
  end.

(** * Selection, dimensions, conversion *)
(** where (array_backend.py 213-219, 342-348): indices for a condition alone; the three argument form has no return statement, the python value None is
    [inr tt] here *)
Definition backend_where {A} (cond : list bool) (xy : option (list A * list A)) : list nat + unit :=
  match xy with None => inl (filter (fun i => nth i cond false) (seq 0 (length cond))) | Some _ => inr tt end.
(** squeeze of one dimension (array_backend.py 221-223, 350-355): shapes *)
Fixpoint drop_at {A} (d : nat) (l : list A) : list A := match d, l with O, _ :: r => r | S d', x :: r => x :: drop_at d' r | _, [] => [] end.
Definition np_squeeze (sh : list nat) (d : option nat) : option (list nat) :=
  match d with
  | None => Some (filter (fun s => negb (Nat.eqb s 1)) sh)
  | Some k => match nth_error sh k with Some 1 => Some (drop_at k sh) | _ => None end
  end.
Definition torch_squeeze (sh : list nat) (d : option nat) : option (list nat) :=
  match d with
  | None => Some (filter (fun s => negb (Nat.eqb s 1)) sh)
  | Some k => match nth_error sh k with Some 1 => Some (drop_at k sh) | Some _ => Some sh | None => None end
  end.
(** kinds of array; [Missing] is None, [ObjNone] the numpy array of one None, [Klass] the exception class as a value *)
Inductive kind := KNumpy | KTorch | KList.
Inductive value (A : Type) := Val (k : kind) (x : A) | Missing | ObjNone | Klass.
Arguments Val {A}. Arguments Missing {A}. Arguments ObjNone {A}. Arguments Klass {A}.
(** to_numpy, to_torch of each backend (array_backend.py 177-183, 306-312, 441-447) on an array of that backend or None *)
Definition to_numpy {A} (b : kind) (v : value A) : value A :=
  match b, v with
  | KNumpy, _ => v
  | _, Val _ x => Val KNumpy x
  | KTorch, _ => v
  | KList, Missing => ObjNone
  | KList, _ => v
  end.
Definition to_torch {A} (b : kind) (v : value A) : value A :=
  match b, v with KTorch, _ => v | _, Val _ x => Val KTorch x | _, _ => v end.
(** get_array_backend_from (array_backend.py 26-35) *)
Definition backend_of {A} (v : value A) : option kind := match v with Val k _ => Some k | _ => None end.
(** convert of one array (array_backend.py 37-48): the error for other targets is returned, not raised *)
Definition convert {A} (v : value A) (to : kind) (backend : option kind) : option (value A) :=
  match (match backend with Some b => Some b | None => backend_of v end) with
  | None => None
  | Some b => Some (match to with KNumpy => to_numpy b v | KTorch => to_torch b v | KList => Klass end)
  end.
(** _convert_to_env_backend, _convert_to_agent_backend (agent.py 183-187): convert_to_backend of the target applied to the source backend
    (array_backend.py 185-187, 314-316, 449-451) *)
Definition to_backend {A} (target source : kind) (v : value A) : value A :=
  match target with KTorch => to_torch source v | _ => to_numpy source v end.

(** * Vectorized environments *)
(** the default environment (vectorized_env.py 16-32, 76-84); None is the failed assertion *)
Definition set_default (n id : nat) : option nat := if Nat.ltb id n then Some id else None.
Definition default_mask (n default : nat) : list bool := map (fun i => Nat.eqb i default) (seq 0 n).

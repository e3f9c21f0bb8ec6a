(** Spaces, MDP descriptions and the registry of environments (mushroom_rl/rl_utils/spaces.py, core/environment.py). *)
From Coq Require Import List Arith Lia Reals Bool.
From Verif Require Import Common.
Import ListNotations.
Local Open Scope R_scope.

(** an array: shape and flattened data *)
Record arr := mkArr { shape_of : list nat; data_of : list R }.
(** a bound passed to Box: a python number, a numpy scalar (np.isscalar holds and it has the shape ()), an array *)
Inductive bound := Num (x : R) | NpScalar (x : R) | Arr (a : arr).
Definition is_scalar (b : bound) : bool := match b with Arr _ => false | _ => true end.
(** b.shape: a python number has none *)
Definition bshape (b : bound) : option (list nat) :=
  match b with Num _ => None | NpScalar _ => Some [] | Arr a => Some (shape_of a) end.
Definition barr (b : bound) : arr := match b with Num x => mkArr [] [x] | NpScalar x => mkArr [] [x] | Arr a => a end.
(** scalar += np.zeros(shape) *)
Definition filled (b : bound) (sh : list nat) : bound :=
  match b with Num x | NpScalar x => Arr (mkArr sh (repeat x (fold_right Nat.mul 1%nat sh))) | Arr a => Arr a end.

Record box := mkBox { b_low : arr; b_high : arr; b_shape : list nat }.
Definition shape_eqb : list nat -> list nat -> bool := fun a b => if list_eq_dec Nat.eq_dec a b then true else false.
(** the assertion on the shapes (spaces.py 44); a missing attribute raises as well *)
Definition box_check (low high : bound) (sh : list nat) : option box :=
  match bshape low, bshape high with
  | Some s1, Some s2 => if shape_eqb s1 s2 then Some (mkBox (barr low) (barr high) sh) else None
  | _, _ => None
  end.
(** Box.__init__ (spaces.py 12-52) *)
Definition box_init (low high : bound) (shape : option (list nat)) : option box :=
  match shape with
  | None => match bshape low with Some sh => box_check low high sh | None => None end
  | Some sh => if andb (is_scalar low) (is_scalar high) then box_check (filled low sh) (filled high sh) sh else box_check low high sh
  end.
(** save and load: the shape is not saved, _post_load recomputes it (spaces.py 46-51, 85-86) *)
Definition box_reload (b : box) : box := mkBox (b_low b) (b_high b) (shape_of (b_low b)).

(** Discrete (spaces.py 95-129) *)
Definition discrete_values (n : nat) : list nat := seq 0 n.
Inductive space := SBox (b : box) | SDiscrete (n : nat).
Definition sp_shape (s : space) : list nat := match s with SBox b => b_shape b | SDiscrete _ => [1%nat] end.
(** a Box has no attribute size *)
Definition sp_size (s : space) : option (list nat) := match s with SBox _ => None | SDiscrete n => Some [n] end.
(** MDPInfo.size, MDPInfo.shape (environment.py 42-58) *)
Definition mdp_size (obs act : space) : option (list nat) :=
  match sp_size obs, sp_size act with Some a, Some b => Some (a ++ b) | _, _ => None end.
Definition mdp_shape (obs act : space) : list nat := sp_shape obs ++ sp_shape act.

Section Registry.
(** names are lists of characters; [dot] is '.' *)
Context {C K V : Type}.
Variable ceq : forall a b : C, {a = b} + {a <> b}.
Variable dot : C.
Definition name := list C.
Definition name_eqb (a b : name) : bool := if list_eq_dec ceq a b then true else false.
(** _registered_envs: the dictionary in order of insertion *)
Definition registry := list (name * K).
Fixpoint lookup (r : registry) (n : name) : option K :=
  match r with [] => None | (m, k) :: r' => if name_eqb m n then Some k else lookup r' n end.
(** Environment.register (environment.py 67-76): an existing name is kept *)
Definition register (r : registry) (n : name) (k : K) : registry := match lookup r n with Some _ => r | None => r ++ [(n, k)] end.
(** str.split('.') *)
Fixpoint split (s : name) : list name :=
  match s with
  | [] => [[]]
  | c :: s' => if ceq c dot then [] :: split s' else match split s' with w :: ws => (c :: w) :: ws | [] => [[c]] end
  end.
(** Environment.make (environment.py 88-119): the class and the positional arguments; [inl] is a piece of the name, a string. None: KeyError.
    Whether generate or the constructor is called depends on the class [K]. *)
Definition make (r : registry) (n : name) (args : list V) : option (K * list (name + V)) :=
  if existsb (fun c => if ceq c dot then true else false) n
  then match split n with
       | e :: ps => match lookup r e with Some k => Some (k, map inl ps ++ map inr args) | None => None end
       | [] => None
       end
  else match lookup r n with Some k => Some (k, map inr args) | None => None end.
End Registry.

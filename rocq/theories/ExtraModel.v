(** ExtraInfo (core/extra_info.py): the step information collected next to a dataset.

    One environment (n_envs = 1) and one array backend.  A step information is a nested
    dictionary whose leaves are values (numbers or arrays) of an arbitrary type; all the values
    of a key have the same shape, so shapes and the shape mapping are left out.  [none] is the
    filler of the backend (nan).  Dictionaries are association lists in insertion order.
    Exceptions are [None].  Not modelled: several environments, flatten, backend conversion,
    saving, views sharing memory. *)
From Coq Require Import String List Arith Lia Bool.
From Verif Require Import Common.
Import ListNotations.
Local Open Scope list_scope.

Section Extra.
Context {V : Type}.
Variable none : V.

Inductive tree := Leaf (v : V) | Dict (kvs : list (string * tree)).

(** Python dictionaries *)
Fixpoint dget {A} (d : list (string * A)) (k : string) : option A :=
  match d with [] => None | (k', x) :: d' => if String.eqb k k' then Some x else dget d' k end.
Fixpoint dset {A} (d : list (string * A)) (k : string) (x : A) : list (string * A) :=
  match d with
  | [] => [(k, x)]
  | (k', y) :: d' => if String.eqb k k' then (k', x) :: d' else (k', y) :: dset d' k x
  end.

Definition path := list string.
Definition path_eqb (p q : path) : bool := if list_eq_dec string_dec p q then true else false.

(** "_".join (_create_key, 363-375) *)
Fixpoint join (p : path) : string :=
  match p with
  | [] => EmptyString
  | [k] => k
  | k :: r => (k ++ "_" ++ join r)%string
  end.

Record xinfo := { x_storage : list tree; x_km : list (string * path);
                  x_struct : list (string * list V); x_data : list (string * list V) }.
(** __init__ (10-27) and clear (246-251) *)
Definition x_new : xinfo := {| x_storage := []; x_km := []; x_struct := []; x_data := [] |}.
Definition x_clear (x : xinfo) : xinfo := x_new.
(** append (28-40); the assertion that the information is a dictionary *)
Definition x_append (x : xinfo) (t : tree) : option xinfo :=
  match t with
  | Leaf _ => None
  | Dict _ => Some {| x_storage := x_storage x ++ [t]; x_km := x_km x; x_struct := x_struct x; x_data := x_data x |}
  end.

(** _update_key_mapping (262-291): the for loop over the items of a dictionary ... *)
Fixpoint um_items (items : list (string * tree)) (parent : path) (km : list (string * path)) (stack : list (list (string * tree) * path))
  : list (string * path) * list (list (string * tree) * path) :=
  match items with
  | [] => (km, stack)
  | (k, v) :: items' =>
      let p := parent ++ [k] in
      if existsb (fun e => path_eqb p (snd e)) km then um_items items' parent km stack
      else match v with
           | Dict kvs => um_items items' parent km ((kvs, p) :: stack)
           | Leaf _ => um_items items' parent (dset km (join p) p) stack
           end
  end.
(** ... and the while loop over the stack (its top is the head) *)
Fixpoint um_loop (fuel : nat) (km : list (string * path)) (stack : list (list (string * tree) * path)) : option (list (string * path)) :=
  match stack with
  | [] => Some km
  | (items, parent) :: stack' =>
      match fuel with
      | O => None
      | S f => let '(km', stack'') := um_items items parent km stack' in um_loop f km' stack''
      end
  end.
Definition um_tree (fuel : nat) (km : list (string * path)) (t : tree) : option (list (string * path)) :=
  match t with Dict kvs => um_loop fuel km [(kvs, [])] | Leaf _ => None end.
Fixpoint um_all (fuel : nat) (km : list (string * path)) (ts : list tree) : option (list (string * path)) :=
  match ts with
  | [] => Some km
  | t :: ts' => match um_tree fuel km t with None => None | Some km' => um_all fuel km' ts' end
  end.

(** _find_element_by_key_path (325-342) and _convert (344-361): [None] when a value that is not a
    dictionary has to be searched or a dictionary has to be converted *)
Fixpoint find (t : tree) (p : path) : option (option tree) :=
  match p with
  | [] => Some (Some t)
  | k :: p' => match t with
               | Leaf _ => None
               | Dict kvs => match dget kvs k with Some t' => find t' p' | None => Some None end
               end
  end.
Definition cell (t : tree) (p : path) : option V :=
  match find t p with
  | None => None
  | Some None => Some none
  | Some (Some (Leaf v)) => Some v
  | Some (Some (Dict _)) => None
  end.
Fixpoint cells (ts : list tree) (p : path) : option (list V) :=
  match ts with
  | [] => Some []
  | t :: ts' => match cell t p, cells ts' p with Some v, Some vs => Some (v :: vs) | _, _ => None end
  end.

(** parse (42-96): one array per key, old entries first.  A key that is not in the structured
    storage is a KeyError (line 81), an array of another length an error (line 82). *)
Definition struct_len (x : xinfo) : nat := match x_struct x with [] => 0 | (_, a) :: _ => length a end.
Definition column (x : xinfo) (k : string) (p : path) : option (list V) :=
  match (match x_struct x with
         | [] => Some []
         | _ => match dget (x_struct x) k with
                | Some a => if Nat.eqb (length a) (struct_len x) then Some a else None
                | None => None
                end
         end), cells (x_storage x) p with
  | Some a, Some b => Some (a ++ b)
  | _, _ => None
  end.
Fixpoint columns (x : xinfo) (km : list (string * path)) : option (list (string * list V)) :=
  match km with
  | [] => Some []
  | (k, p) :: km' => match column x k p, columns x km' with Some c, Some r => Some ((k, c) :: r) | _, _ => None end
  end.
Definition x_parse (fuel : nat) (x : xinfo) : option xinfo :=
  match um_all fuel (x_km x) (x_storage x) with
  | None => None
  | Some km => match columns x km with
               | None => None
               | Some out => Some {| x_storage := []; x_km := km; x_struct := out; x_data := out |}
               end
  end.

(** copy (208-215) *)
Definition x_copy (x : xinfo) : xinfo :=
  {| x_storage := x_storage x; x_km := x_km x; x_struct := []; x_data := x_data x |}.

(** _concatenate_array (154-176) and _concatenate_dictionary (178-205); the keys of the union in
    the order of the first and then of the second dictionary *)
Definition cat_col (la lb : nat) (a b : option (list V)) : list V :=
  match a with Some a => a | None => repeat none la end ++ match b with Some b => b | None => repeat none lb end.
Definition cat_dict (d1 d2 : list (string * list V)) : list (string * list V) :=
  match d1, d2 with
  | [], _ => d2
  | _, [] => d1
  | (_, a0) :: _, (_, b0) :: _ =>
      map (fun e => (fst e, cat_col (length a0) (length b0) (Some (snd e)) (dget d2 (fst e)))) d1
      ++ map (fun e => (fst e, cat_col (length a0) (length b0) None (Some (snd e))))
             (filter (fun e => match dget d1 (fst e) with None => true | Some _ => false end) d2)
  end.
(** __add__ (129-152) *)
Definition x_add (x y : xinfo) : xinfo :=
  {| x_storage := x_storage x ++ x_storage y;
     x_km := fold_left (fun d e => dset d (fst e) (snd e)) (x_km y) (x_km x);
     x_struct := cat_dict (x_struct x) (x_struct y);
     x_data := cat_dict (x_data x) (x_data y) |}.
(** get_view (217-244) with a slice *)
Definition x_view (fuel a b : nat) (x : xinfo) : option xinfo :=
  match x_parse fuel x with
  | None => None
  | Some x' => let cut := map (fun e => (fst e, slice a b (snd e))) in
               Some {| x_storage := []; x_km := x_km x'; x_struct := cut (x_struct x'); x_data := cut (x_data x') |}
  end.
End Extra.
Arguments tree : clear implicits.
Arguments xinfo : clear implicits.

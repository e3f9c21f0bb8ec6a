(** ExtraInfo with several environments (core/extra_info.py, n_envs > 1) and the step
    information of a VectorizedDataset (core/dataset.py 545-649).

    The step information of one step is a list with the dictionary of every environment (as
    MultiprocessEnvironment returns it) or a dictionary whose values are numbers or arrays with
    one entry per environment.  As in ExtraModel the entries of a key are opaque values, so
    trailing dimensions and the shape mapping are left out; one array backend; exceptions are
    [None].  [none] is the filler of the backend, [junk] the content of uninitialised arrays.
    Simplified: an array of another length than the number of environments is an error
    (numpy broadcasts one of length 1).  The samples of the dataset are opaque; the
    allocation of its mask array is the subject of VecCoreModel. *)
From Coq Require Import String List Arith Lia Bool.
From Verif Require Import Common ExtraModel.
Import ListNotations.
Local Open Scope list_scope.

Section VecInfo.
Context {V : Type}.
Variable none : V.
Variable junk : nat -> V.
(** the number of environments *)
Variable n : nat.

(** The leaves of a dictionary of arrays *)
Inductive leafval := Num (v : V) | Arr (l : list V).
Inductive vstep := PerEnv (l : list (tree V)) | Arrays (t : tree leafval).

Record vinfo := { v_storage : list vstep; v_km : list (string * path);
                  v_struct : list (string * list (list V)); v_data : list (string * list (list V)) }.
(** __init__ (10-27) and clear (246-251) *)
Definition v_new : vinfo := {| v_storage := []; v_km := []; v_struct := []; v_data := [] |}.
(** append (28-40) *)
Definition v_append (x : vinfo) (s : vstep) : vinfo :=
  {| v_storage := v_storage x ++ [s]; v_km := v_km x; v_struct := v_struct x; v_data := v_data x |}.

(** parse, key mapping (55-62) *)
Definition vum_step (fuel : nat) (km : list (string * path)) (s : vstep) : option (list (string * path)) :=
  match s with
  | Arrays t => um_tree fuel km t
  | PerEnv l => um_all fuel km l
  end.
Fixpoint vum (fuel : nat) (km : list (string * path)) (ss : list vstep) : option (list (string * path)) :=
  match ss with
  | [] => Some km
  | s :: ss' => match vum_step fuel km s with None => None | Some km' => vum fuel km' ss' end
  end.

(** _append_dict_to_output (293-306) and _append_list_to_output (308-323): the row of a key *)
Definition vrow (s : vstep) (p : path) : option (list V) :=
  match s with
  | PerEnv l =>
      if length l <=? n then
        match cells none l p with
        | Some r => Some (r ++ map junk (seq (length l) (n - length l)))
        | None => None
        end
      else None
  | Arrays t =>
      match find t p with
      | None => None
      | Some None => Some (repeat none n)
      | Some (Some (Leaf (Num v))) => Some (repeat v n)
      | Some (Some (Leaf (Arr l))) => if length l =? n then Some l else None
      | Some (Some (Dict _)) => None
      end
  end.
Fixpoint vrows (ss : list vstep) (p : path) : option (list (list V)) :=
  match ss with
  | [] => Some []
  | s :: ss' => match vrow s p, vrows ss' p with Some r, Some rs => Some (r :: rs) | _, _ => None end
  end.

(** parse, arrays (64-96) *)
Definition vstruct_len (x : vinfo) : nat := match v_struct x with [] => 0 | (_, a) :: _ => length a end.
Definition vcolumn (x : vinfo) (k : string) (p : path) : option (list (list V)) :=
  match (match v_struct x with
         | [] => Some []
         | _ => match dget (v_struct x) k with
                | Some a => if Nat.eqb (length a) (vstruct_len x) then Some a else None
                | None => None
                end
         end), vrows (v_storage x) p with
  | Some a, Some b => Some (a ++ b)
  | _, _ => None
  end.
Fixpoint vcolumns (x : vinfo) (km : list (string * path)) : option (list (string * list (list V))) :=
  match km with
  | [] => Some []
  | (k, p) :: km' => match vcolumn x k p, vcolumns x km' with Some c, Some r => Some ((k, c) :: r) | _, _ => None end
  end.
Definition v_parse (fuel : nat) (x : vinfo) : option vinfo :=
  match vum fuel (v_km x) (v_storage x) with
  | None => None
  | Some km => match vcolumns x km with
               | None => None
               | Some out => Some {| v_storage := []; v_km := km; v_struct := out; v_data := out |}
               end
  end.

(** pack_padded_sequence (array_backend.py 271-275, 405-410): column by column, the entries
    whose mask is set; a mask with another number of rows is an IndexError *)
Definition pack {A} (rows : list (list A)) (masks : list (list bool)) : option (list A) :=
  if length rows =? length masks then
    Some (flat_map (fun i => flat_map (fun rm => match nth_error (fst rm) i with
                                                 | Some a => if nth i (snd rm) false then [a] else []
                                                 | None => []
                                                 end) (combine rows masks)) (seq 0 n))
  else None.
Fixpoint pack_dict (d : list (string * list (list V))) (masks : list (list bool)) : option (list (string * list V)) :=
  match d with
  | [] => Some []
  | (k, a) :: d' => match pack a masks, pack_dict d' masks with Some c, Some r => Some ((k, c) :: r) | _, _ => None end
  end.

(** flatten (98-127) with a mask: the parsed object and the flat one, which has one
    environment *)
Definition v_flatten (fuel : nat) (masks : list (list bool)) (x : vinfo) : option (vinfo * xinfo V) :=
  match v_parse fuel x with
  | None => None
  | Some x' => match pack_dict (v_data x') masks, pack_dict (v_struct x') masks with
               | Some d, Some s => Some (x', {| x_storage := []; x_km := v_km x'; x_struct := s; x_data := d |})
               | _, _ => None
               end
  end.

(** get_view (217-244) with the slice(-p, None) *)
Definition v_last (fuel p : nat) (x : vinfo) : option (vinfo * vinfo) :=
  match v_parse fuel x with
  | None => None
  | Some x' => let cut := map (fun e => (fst e, lastn p (snd e))) in
               Some (x', {| v_storage := []; v_km := v_km x'; v_struct := cut (v_struct x'); v_data := cut (v_data x') |})
  end.

(** ** VectorizedDataset *)
Section Dataset.
Context {S : Type}.
Record vds := { d_rows : list (list S); d_masks : list (list bool); d_info : vinfo }.
Definition d_new : vds := {| d_rows := []; d_masks := []; d_info := v_new |}.
(** append_vectorized (dataset.py 554-556) *)
Definition d_append (d : vds) (row : list S) (s : vstep) (mask : list bool) : vds :=
  {| d_rows := d_rows d ++ [row]; d_masks := d_masks d ++ [mask]; d_info := v_append (d_info d) s |}.

(** A flat dataset: the samples and the step information (dataset.py 199-206: a copy) *)
Definition flat_ds := (list S * xinfo V)%type.

(** flatten (dataset.py 590-632): the samples are cut at n_steps_per_fit, the information is
    not *)
Definition d_flatten (fuel : nat) (spf : option nat) (d : vds) : option (vds * flat_ds) :=
  match pack (d_rows d) (d_masks d), v_flatten fuel (d_masks d) (d_info d) with
  | Some samples, Some (i, flat) =>
      Some ({| d_rows := d_rows d; d_masks := d_masks d; d_info := i |},
            (match spf with Some k => firstn k samples | None => samples end, x_copy flat))
  | _, _ => None
  end.

(** clear(n_steps_per_fit) (dataset.py 563-588) when [p] rows are kept (p >= 1) *)
Definition d_keep (fuel p : nat) (d : vds) : option vds :=
  match v_last fuel p (d_info d) with
  | None => None
  | Some (_, i) => Some {| d_rows := lastn p (d_rows d); d_masks := lastn p (d_masks d); d_info := i |}
  end.

(** get_view of a flat dataset with a slice (dataset.py 251-258): the view, and the dataset
    itself, whose information is parsed *)
Definition flat_view (fuel a b : nat) (f : flat_ds) : option (flat_ds * flat_ds) :=
  match x_parse none fuel (snd f), x_view none fuel a b (snd f) with
  | Some parsed, Some w => Some ((fst f, parsed), (slice a b (fst f), w))
  | _, _ => None
  end.
End Dataset.
End VecInfo.
Arguments leafval : clear implicits.
Arguments vstep : clear implicits.
Arguments vinfo : clear implicits.
Arguments vds : clear implicits.
Arguments flat_ds : clear implicits.

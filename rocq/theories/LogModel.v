(** Model of DataLogger (/repo/mushroom_rl/core/logger/data_logger.py) and of the suffix built by
    Logger (logger.py 51).  Names are lists of characters; a directory is an association list
    from stems (file names without .npy) to the saved values. *)
From Coq Require Import List Arith Lia Bool Reals Ascii.
From Verif Require Import Common.
Import ListNotations.

(** Python floats as scores. *)
Inductive score := SNan | SNInf | SFin (r : R) | SPInf.
(** a >= b *)
Definition sge (a b : score) : bool :=
  match a, b with
  | SNan, _ | _, SNan => false
  | SPInf, _ => true
  | _, SNInf => true
  | SFin x, SFin y => if Rle_dec y x then true else false
  | _, _ => false
  end.

(** log_best_agent (data_logger.py 99-104): best score and saved file *)
Definition log_best {A} (st : score * option A) (call : A * score) : score * option A :=
  if sge (snd call) (fst st) then (snd call, Some (fst call)) else st.
(** A run of one logger object, on a directory that already holds [file] (line 28: the best
    score starts at -inf). *)
Definition log_run {A} (file : option A) (calls : list (A * score)) : option A := snd (fold_left log_best calls (SNInf, file)).

(** * log_numpy *)
Definition name := list ascii.
Definition name_dec : forall a b : name, {a = b} + {a <> b} := list_eq_dec ascii_dec.
Definition dict := list (name * list R).
Fixpoint dget (d : dict) (k : name) : option (list R) :=
  match d with [] => None | (k', v) :: d' => if name_dec k k' then Some v else dget d' k end.
Fixpoint dset (d : dict) (k : name) (v : list R) : dict :=
  match d with [] => [(k, v)] | (k', v') :: d' => if name_dec k k' then (k, v) :: d' else (k', v') :: dset d' k v end.

Definition is_digit (c : ascii) : bool := (48 <=? nat_of_ascii c) && (nat_of_ascii c <=? 57).
Definition dash : ascii := "-"%char.
(** str.endswith *)
Definition ends_with (s suf : name) : bool := if name_dec (lastn (length suf) s) suf then Nat.leb (length suf) (length s) else false.
(** re.split(r'-\d+$', stem)[0] (line 133) *)
Fixpoint span_digits (l : name) : name * name :=
  match l with
  | c :: l' => if is_digit c then let '(a, b) := span_digits l' in (c :: a, b) else ([], l)
  | [] => ([], [])
  end.
Definition strip_seed (stem : name) : name :=
  match span_digits (rev stem) with
  | (_ :: _, c :: r) => if ascii_dec c dash then rev r else stem
  | _ => stem
  end.

Record logger := { l_suffix : name; l_data : dict; l_disk : dict }.
(** log_numpy (46-55), one name *)
Definition log_numpy (l : logger) (nv : name * R) : logger :=
  let data := match dget (l_data l) (fst nv) with Some d => d ++ [snd nv] | None => [snd nv] end in
  {| l_suffix := l_suffix l; l_data := dset (l_data l) (fst nv) data; l_disk := dset (l_disk l) (fst nv ++ l_suffix l) data |}.
(** _load_numpy (129-135); the files are visited in the order of the directory list *)
Definition load_numpy (suffix : name) (disk : dict) : dict :=
  fold_left (fun d f => if ends_with (fst f) suffix then dset d (strip_seed (fst f)) (snd f) else d) disk [].
(** __init__ with append *)
Definition open_append (suffix : name) (disk : dict) : logger := {| l_suffix := suffix; l_data := load_numpy suffix disk; l_disk := disk |}.

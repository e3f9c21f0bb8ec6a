(** Model of [Serializable] (/repo/mushroom_rl/core/serialization.py).

    Simplifications: attribute values other than Serializable objects and lists
    of them are opaque leaves of type [V]; writing a value with pickle, numpy,
    torch or json and reading it back is an arbitrary function [rt] of the format
    and the value (json turns tuples into lists, for instance), except for the
    pickled config file, which is read back unchanged.
    Path segments are constructors instead of the strings "att.method", "i" and
    "config" joined by "/"; attribute names are Python identifiers and contain
    neither "." nor "/", so the strings determine the segments.
    Python exceptions are [None]. *)
From Coq Require Import List Arith Lia Bool String.
From Verif Require Import Common.
Import ListNotations.

(** The save methods (serialization.py 166-184); [MOther] has no _save_ method. *)
Inductive fmt := Pickle | Numpy | Torch | Json.
Inductive meth := MPrim | MNone | MFile (f : fmt) | MMush | MOther.

Lemma meth_eq_dec : forall a b : meth, {a = b} + {a <> b}.
Proof. decide equality. decide equality. Defined.

Inductive seg := SAtt (a : string) (m : meth) | SIdx (i : nat) | SConfig.

Lemma seg_eq_dec : forall a b : seg, {a = b} + {a <> b}.
Proof. decide equality; auto using string_dec, meth_eq_dec, Nat.eq_dec. Defined.

Definition path := list seg.

Section Serial.
Variable V : Type.

(** Attribute name, method, "!" marker. *)
Definition akey := (string * meth * bool)%type.

(** A Python value: None, an opaque value, a Serializable object with its class
    and registered attributes (a missing attribute is None, line 50), a list. *)
Inductive value :=
| VNone
| VLeaf (v : V)
| VObj (ty : string) (attrs : list (akey * value))
| VList (l : list value).

(** Files in the zip. *)
Inductive content :=
| CConfig (ty : string) (keys : list akey) (prims : list (string * value))
| CList (len : nat)
| CFile (v : value).

Definition zip := list (path * content).

Definition lookup (z : zip) (p : path) : option content :=
  match find (fun e => if list_eq_dec seg_eq_dec (fst e) p then true else false) z with
  | Some e => Some (snd e)
  | None => None
  end.

Definition is_none (v : value) : bool := match v with VNone => true | _ => false end.

(** Line 48: the attribute is written. *)
Definition selected (full : bool) (k : akey) : bool := negb (snd k) || full.

(** primitive_dictionary (lines 44, 53-54). *)
Definition prims (full : bool) (attrs : list (akey * value)) : list (string * value) :=
  flat_map (fun a => if selected full (fst a) && negb (is_none (snd a)) then
                       match snd (fst (fst a)) with MPrim => [(fst (fst (fst a)), snd a)] | _ => [] end
                     else []) attrs.

(** Write the elements of a list in order, the first failure stops. *)
Definition ocat (a b : option zip) : option zip := x <- a ;; y <- b ;; Some (x ++ y).

(** save_zip and _save_mushroom (lines 33-73, 231-246).  [None] also for an
    attribute to be saved as "mushroom" that has no save_zip method. *)
Fixpoint save (full : bool) (p : path) (v : value) : option zip :=
  match v with
  | VObj ty attrs =>
      ocat
        ((fix go (l : list (akey * value)) : option zip :=
            match l with
            | [] => Some []
            | (k, w) :: t =>
                ocat
                  (if selected full k && negb (is_none w) then
                     match snd (fst k) with
                     | MPrim | MNone => Some []
                     | MFile f => Some [(p ++ [SAtt (fst (fst k)) (MFile f)], CFile w)]
                     | MMush => match w with
                         | VList es =>
                             ocat (Some [(p ++ [SAtt (fst (fst k)) MMush] ++ [SConfig], CList (List.length es))])
                               ((fix elems (i : nat) (es : list value) : option zip :=
                                  match es with
                                  | [] => Some []
                                  | e :: t => ocat (save full (p ++ [SAtt (fst (fst k)) MMush] ++ [SIdx i]) e) (elems (S i) t)
                                  end) 0 es)
                         | _ => save full (p ++ [SAtt (fst (fst k)) MMush]) w
                         end
                     | MOther => None
                     end
                   else Some [])
                  (go t)
            end) attrs)
        (Some [(p ++ [SConfig], CConfig ty (map fst attrs) (prims full attrs))])
  | _ => None
  end.

Variable rt : fmt -> value -> value.
(** _post_load of the class, applied to the object (lines 139, 185-190). *)
Variable post : string -> value -> value.

Fixpoint omap {A B} (f : A -> option B) (l : list A) : option (list B) :=
  match l with
  | [] => Some []
  | a :: t => b <- f a ;; bs <- omap f t ;; Some (b :: bs)
  end.

Definition assoc (a : string) (l : list (string * value)) : option value :=
  match find (fun e => if string_dec (fst e) a then true else false) l with
  | Some e => Some (snd e) | None => None end.

(** The value given to one attribute by load_zip (lines 119-137).  A nested
    object is read only if its method has no "!", because no file is called
    "att.mushroom". *)
Definition load_att (rec : path -> option value) (z : zip) (p : path) (pr : list (string * value)) (k : akey)
  : option (akey * value) :=
  let '(a, m, bang) := k in
  match (match m with MPrim => assoc a pr | _ => None end) with
  | Some v => Some (k, v)
  | None =>
      match lookup z (p ++ [SAtt a m]) with
      | Some (CFile v) => match m with MFile f => Some (k, rt f v) | _ => None end
      | Some _ => None
      | None => match m with
                | MMush => if bang then Some (k, VNone) else v <- rec (p ++ [SAtt a m]) ;; Some (k, v)
                | _ => Some (k, VNone)
                end
      end
  end.

(** load_zip, _load_list (lines 102-153).  A missing config file gives None
    (line 108).  [fuel] bounds the nesting depth. *)
Fixpoint load (fuel : nat) (z : zip) (p : path) : option value :=
  match fuel with
  | O => None
  | S f =>
      match lookup z (p ++ [SConfig]) with
      | None => Some VNone
      | Some (CList n) => l <- omap (fun i => load f z (p ++ [SIdx i])) (seq 0 n) ;; Some (VList l)
      | Some (CConfig ty keys pr) =>
          attrs <- omap (load_att (load f z) z p pr) keys ;;
          Some (post ty (VObj ty attrs))
      | Some (CFile _) => None
      end
  end.

(** Nesting depth. *)
Fixpoint depth (v : value) : nat :=
  match v with
  | VObj _ attrs => S (list_max (map (fun a => depth (snd a)) attrs))
  | VList l => S (list_max (map depth l))
  | _ => 0
  end.
End Serial.
Arguments VNone {V}. Arguments VLeaf {V}. Arguments VObj {V}. Arguments VList {V}.
Arguments save {V}. Arguments load {V}. Arguments depth {V}. Arguments lookup {V}.
Arguments CConfig {V}. Arguments CList {V}. Arguments CFile {V}. Arguments prims {V}.
Arguments is_none {V}. Arguments load_att {V}. Arguments assoc {V}. Arguments ocat {V}.

(** What a save/load round trip has to give back. *)
From Coq Require Import List Arith Lia Bool String.
From Verif Require Import Common SerialModel.
Import ListNotations.

Section Spec.
Variable V : Type.
Notation value := (value V).

(** Attribute names are dictionary keys, at every level. *)
Fixpoint wf (v : value) : Prop :=
  match v with
  | VObj _ attrs =>
      NoDup (map (fun a => fst (fst (fst a))) attrs) /\
      (fix all (l : list (akey * value)) : Prop := match l with [] => True | a :: t => wf (snd a) /\ all t end) attrs
  | VList l => (fix all (l : list value) : Prop := match l with [] => True | a :: t => wf a /\ all t end) l
  | _ => True
  end.

Variable rt : fmt -> value -> value.
Variable post : string -> value -> value.

(** The value of an attribute after the round trip: None if the attribute is not
    written in this mode, or was None, or is registered as "none"; otherwise the
    value itself, seen through the file format, recursively for nested objects.
    Nested objects registered with "!" are lost in both modes. *)
Fixpoint restore (full : bool) (v : value) : value :=
  match v with
  | VObj ty attrs =>
      post ty (VObj ty (map (fun a =>
        (fst a, if negb (snd (fst a)) || full then
          match snd (fst (fst a)) with
          | MPrim => snd a
          | MFile f => if is_none (snd a) then VNone else rt f (snd a)
          | MMush => if snd (fst a) then VNone else restore full (snd a)
          | _ => VNone
          end else VNone)) attrs))
  | VList l => VList (map (restore full) l)
  | VNone => VNone
  | VLeaf x => VLeaf x
  end.
End Spec.
Arguments wf {V}. Arguments restore {V}.
